(* Model of detail::partition_triangular, indexing/block.hpp:25-44, over the
   reals: doubles are replaced by exact real numbers, rint is rounding to the
   nearest integer, ties to even (the default rounding mode). *)
From Coq Require Import Reals ZArith List.
From Flocq Require Import Core.Core.
From Verif Require Import Base.
Local Open Scope R_scope.

(* one iteration; the state is (results, area, start_index) *)
Definition partition_step (size partition_count : Z)
  (st : list (Z * Z) * R * Z) : list (Z * Z) * R * Z :=
  let '(results, area, start_index) := st in
  let end_fraction := sqrt (1 / IZR partition_count + area) in
  let area' := end_fraction * end_fraction in
  let end_index := ZnearestE (IZR size * end_fraction) in
  (results ++ [(start_index, end_index)], area', end_index).

(* results.back().second = std::min(results.back().second, size); back() of an
   empty vector is UB *)
Fixpoint clamp_last (size : Z) (results : list (Z * Z)) : outcome (list (Z * Z)) :=
  match results with
  | [] => UB
  | [(a, b)] => Ok [(a, Z.min b size)]
  | ab :: rest => r <- clamp_last size rest ;; Ok (ab :: r)
  end.

Definition partition_triangular (size partition_count : Z) : outcome (list (Z * Z)) :=
  let '(results, _, _) :=
    Nat.iter (Z.to_nat partition_count) (partition_step size partition_count) ([], 0, 0%Z) in
  clamp_last size results.

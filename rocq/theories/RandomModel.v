(* Model of the sampling helpers of utils/random_utils.hpp.

   The random engine is an arbitrary state G with a function [uniform low high g]
   giving the next value of std::uniform_int_distribution(low, high) and the next
   engine state; the theorems assume only that the value is in [low, high].
   std::size_t values are integers modulo 2^64. *)
From Verif Require Import Base StdMapModel IndexingModel.

Definition wrap64 (z : Z) : Z := (z mod 2 ^ 64)%Z.

Section Random.
Context {G : Type}.
Variable uniform : Z -> Z -> G -> Z * G.

(* The loop utils/random_utils.hpp:53-56, giving up (None) after fuel draws: the
   C++ loop has no bound. *)
Fixpoint sample_loop (fuel n : nat) (low high : Z) (samples : list Z) (g : G)
  : option (list Z * G) :=
  if length samples <? n then
    match fuel with
    | 0 => None
    | S fuel' => let (v, g') := uniform low high g in
                 sample_loop fuel' n low high (sinsert v samples) g'
    end
  else Some (samples, g).

(* randint_without_replacement, utils/random_utils.hpp:20-58. [depth] bounds the
   recursive calls and [fuel] the draws; None means that the call has not
   returned within these bounds. C15_depth shows that depth 2 is never
   exceeded. *)
Fixpoint randint_rec (depth fuel n : nat) (low high : Z) (g : G)
  : option (outcome (list Z * G)) :=
  match depth with
  | 0 => None
  | S depth' =>
      let n_choices := Z.to_nat (wrap64 (high - low + 1)) in
      if n_choices <? n then Some Abort
      else if n =? n_choices then
        Some (Ok (map (fun i => wrap64 (low + Z.of_nat i)) (seq 0 n), g))
      else if n_choices / 2 + 1 <? n then
        match randint_rec depth' fuel (n_choices - n) 0 (wrap64 (Z.of_nat n_choices - 1)) g with
        | Some (Ok (to_throw_out, g')) =>
            let to_keep := indices_complement (map Z.to_nat to_throw_out) n_choices in
            Some (Ok (map (fun el => if Z.eqb low 0 then Z.of_nat el
                                     else wrap64 (Z.of_nat el + low)) to_keep, g'))
        | Some Abort => Some Abort
        | Some Throw => Some Throw
        | Some UB => Some UB
        | None => None
        end
      else if (high <? low)%Z then Some UB
      else match sample_loop fuel n low high [] g with
           | Some r => Some (Ok r)
           | None => None
           end
  end.

Definition randint_without_replacement := randint_rec 2.

(* random_without_replacement, utils/random_utils.hpp:60-69; operator[] is not
   checked. *)
Definition random_without_replacement {X} (fuel : nat) (xs : list X) (n : nat) (g : G)
  : option (outcome (list X * G)) :=
  match randint_without_replacement fuel n 0 (wrap64 (Z.of_nat (length xs) - 1)) g with
  | Some (Ok (inds, g')) =>
      Some (random_sample <- mapM (fun i => of_option UB (nth_error xs (Z.to_nat i))) inds ;;
            Ok (random_sample, g'))
  | Some Abort => Some Abort
  | Some Throw => Some Throw
  | Some UB => Some UB
  | None => None
  end.
End Random.

(* The successive values drawn by an engine. *)
Fixpoint draws {G} (uniform : Z -> Z -> G -> Z * G) (low high : Z) (k : nat) (g : G) : list Z :=
  match k with
  | 0 => []
  | S k' => let (v, g') := uniform low high g in v :: draws uniform low high k' g'
  end.

(* Model of stats/ks_test.hpp over finite real samples; a NaN sample makes std::sort undefined and is not modelled. *)
From Coq Require Import Reals List.
From Verif Require Import ExtRealModel.
Import ListNotations.
Local Open Scope R_scope.

(* std::sort, ks_test.hpp:25: insertion of each value before the first that is larger *)
Fixpoint insert (x : R) (s : list R) : list R :=
  match s with
  | [] => [x]
  | y :: s' => if Rltb x y then x :: s else y :: insert x s'
  end.
Fixpoint std_sort (s : list R) : list R :=
  match s with
  | [] => []
  | x :: s' => insert x (std_sort s')
  end.

(* the pass of the loop at the index i, ks_test.hpp:28-35 *)
Definition ks_step (n : R) (largest : R) (i : nat) (x : R) : R :=
  let di := INR i in
  let a := (di + 1) / n - x in
  let b := x - di / n in
  let difference := if Rltb a b then b else a in
  if Rltb largest difference then difference else largest.
(* the loop, ks_test.hpp:27-36 *)
Fixpoint ks_loop (n : R) (largest : R) (i : nat) (s : list R) : R :=
  match s with
  | [] => largest
  | x :: s' => ks_loop n (ks_step n largest i x) (S i) s'
  end.
(* ks_test.hpp:22-38 *)
Definition uniform_ks_test (samples : list R) : R :=
  let sorted := std_sort samples in
  ks_loop (INR (length sorted)) 0 0 sorted.

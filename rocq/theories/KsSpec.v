(* Specification vocabulary of C61. *)
From Coq Require Import Reals List.
Local Open Scope R_scope.

(* how many samples are at most t, and the empirical distribution function *)
Definition count_le (t : R) (s : list R) : nat := length (filter (fun x => if Rle_dec x t then true else false) s).
Definition empirical_cdf (s : list R) (t : R) : R := INR (count_le t s) / INR (length s).
(* the distribution function of the uniform distribution on [0, 1] *)
Definition uniform_cdf (t : R) : R := Rmax 0 (Rmin 1 t).
(* d is the supremum of the distances between the two *)
Definition ks_distance (s : list R) (d : R) : Prop :=
  is_lub (fun v => exists t, v = Rabs (empirical_cdf s t - uniform_cdf t)) d.

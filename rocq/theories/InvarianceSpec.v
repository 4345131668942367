(* Vocabulary for C93: a walker moves on the line through its partner. *)
From Coq Require Import Reals.
From Coquelicot Require Import Coquelicot.
From Verif Require Import Base ExtRealModel.

(* the point of the line through y with direction d at coordinate r *)
Definition point (y d : list R) (r : R) : list xr := map (fun yd => XFin (fst yd + r * snd yd)%R) (combine y d).
(* the unnormalised density there *)
Definition density (log_prob : list xr -> xr) (y d : list R) (r : R) : R :=
  match log_prob (point y d r) with XFin l => exp l | _ => 0%R end.
(* the weight of r for a distribution with that density on a space of dimension n, seen from y *)
Definition weight (n : nat) (f : R -> R) (r : R) : R := (Rabs r ^ (n - 1) * f r)%R.
(* Metropolis's rule: a proposal at z r is accepted with probability min 1 (z^(n-1) f(z r) / f(r)),
   u being the uniform draw that decides *)
Definition next (n : nat) (f : R -> R) (z u r : R) : R :=
  if Rlt_dec (u * f r) (z ^ (n - 1) * f (z * r))%R then (z * r)%R else r.
(* expectation of psi after a move whose stretch is z p, p and u uniform in [0, 1],
   when the coordinate has weight [weight n f] in [-M, M] *)
Definition after (n : nat) (f : R -> R) (z : R -> R) (psi : R -> R) (M : R) : R :=
  RInt (fun p => RInt (fun r => weight n f r * RInt (fun u => psi (next n f (z p) u r)) 0 1)%R (- M) M) 0 1.
(* ... and before *)
Definition before (n : nat) (f : R -> R) (psi : R -> R) (M : R) : R :=
  RInt (fun r => weight n f r * psi r)%R (- M) M.
(* total weight of [-M, M] *)
Definition mass (n : nat) (f : R -> R) (M : R) : R := RInt (weight n f) (- M) M.

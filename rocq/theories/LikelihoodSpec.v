(* Specification vocabulary of C59. *)
From Coq Require Import Reals.
From mathcomp Require Import all_ssreflect all_algebra.
From Verif Require Import RealStruct.
Set Implicit Arguments.
Unset Strict Implicit.
Unset Printing Implicit Defensive.
Import GRing.Theory.
Local Open Scope ring_scope.

(* the differential entropy of N(mu, S) in n dimensions *)
Definition gaussian_entropy n (S : 'M[R]_n) : R :=
  (n%:R * (1 + Rpower.ln (2%:R * Rtrigo1.PI)) + Rpower.ln (\det S)) / 2%:R.

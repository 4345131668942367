(* Specification vocabulary of C60. *)
From Coq Require Import Reals.
From mathcomp Require Import all_ssreflect all_algebra.
From Verif Require Import RealStruct ErfSpec.
Set Implicit Arguments.
Unset Strict Implicit.
Unset Printing Implicit Defensive.
Import GRing.Theory.
Local Open Scope ring_scope.

(* the norm of a vector whose coordinates have weights w *)
Definition weighted_norm n (w v : 'cV[R]_n) : R := R_sqrt.sqrt (\sum_i w i 0 * v i 0 ^+ 2).

(* E|X|^p for X ~ N(mu, sigma^2) and p = 2 or p = 1 *)
Definition mean_power (erf : R -> R) (madogram : bool) (mu sigma : R) : R :=
  if madogram then (if Rlt_dec 0 sigma then mean_abs_normal erf mu sigma else Rbasic_fun.Rabs mu)
  else mu * mu + sigma * sigma.
(* the standard deviation of X_i - X_j for X ~ N(mu, C) *)
Definition difference_deviation n (C : 'M[R]_n) (i j : 'I_n) : R := R_sqrt.sqrt (C i i + C j j - 2 * C i j).
(* one term of the variogram score of order p: (|y_i - y_j|^p - E|X_i - X_j|^p)^2 *)
Definition variogram_term (erf : R -> R) n (madogram : bool) (mu : 'cV[R]_n) (C : 'M[R]_n) (y : 'cV[R]_n) (i j : 'I_n) : R :=
  ((if madogram then `|y i 0 - y j 0| else `|y i 0 - y j 0| ^+ 2) -
   mean_power erf madogram (mu i 0 - mu j 0) (difference_deviation C i j))%R ^+ 2.

(* Sample statistics, as textbook formulas. *)
From Coq Require Import Reals.
From mathcomp Require Import all_ssreflect all_algebra.
From Verif Require Import RealStruct.
Set Implicit Arguments.
Unset Strict Implicit.
Unset Printing Implicit Defensive.
Import GRing.Theory.
Local Open Scope ring_scope.

(* mean, root mean square and sample standard deviation of n numbers *)
Definition average n (x : 'cV[R]_n) : R := ((\sum_i x i 0) / n%:R)%R.
Definition mean_square n (x : 'cV[R]_n) : R := ((\sum_i x i 0 ^+ 2) / n%:R)%R.
Definition sample_variance n (x : 'cV[R]_n) : R := ((\sum_i (x i 0 - average x) ^+ 2) / (n%:R - 1))%R.

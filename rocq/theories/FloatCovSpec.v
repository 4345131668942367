(* What the double precision theorems assume of Eigen and of the C library, and the words they use. *)
From Coq Require Import ZArith Reals List Permutation.
From Flocq Require Import Core IEEE754.BinarySingleNaN.
From Verif Require Import FloatModel.
Import ListNotations.
Local Open Scope R_scope.

Notation val := (@B2R 53 1024).
Definition is_fin (x : b64) : Prop := is_finite x = true.
Definition is_NaN (x : b64) : Prop := is_nan x = true.
(* not NaN, and its sign bit is clear: +0, positive or +infinity *)
Definition at_least_0 (x : b64) : Prop := is_nan x = false /\ Bsign x = false.
Definition infinity : b64 := B754_infinity false.

(* a sum of the entries of a list in some order, bracketed in some way *)
Inductive sum_of : list b64 -> b64 -> Prop :=
| sum_one : forall x, sum_of [x] x
| sum_add : forall l1 l2 l a b, sum_of l1 a -> sum_of l2 b -> Permutation l (l1 ++ l2) -> sum_of l (fadd a b).
(* Eigen's sum of a vector: 0 when it is empty, otherwise the entries added in some order *)
Definition adds_up (redux : list b64 -> b64) : Prop := redux [] = fzero /\ forall l, l <> [] -> sum_of l (redux l).

(* exp: 1 at zero, in [0,1] for arguments that are not positive, 0 at arguments below -1100, where e^x is below half the
   smallest double *)
Record exp_contract (exp_ : b64 -> b64) : Prop := {
  exp_at_0 : forall s, exp_ (B754_zero s) = fone;
  exp_range : forall x, at_least_0 x -> is_fin (exp_ (fneg x)) /\ at_least_0 (exp_ (fneg x)) /\ val (exp_ (fneg x)) <= 1;
  exp_underflow : forall x, is_fin x -> val x <= -1100 -> exp_ x = fzero;
  exp_minus_infinity : exp_ (B754_infinity true) = fzero }.
(* pow(x, 2): not negative, zero at zero *)
Record pow2_contract (pow2 : b64 -> b64) : Prop := {
  pow2_at_0 : forall s, pow2 (B754_zero s) = fzero;
  pow2_range : forall x, is_nan x = false -> at_least_0 (pow2 x) }.
(* acos: finite and not negative on [-1,1], positive below 1; NaN for NaN *)
Record acos_contract (acos_ : b64 -> b64) : Prop := {
  acos_range : forall x, is_fin x -> -1 <= val x <= 1 -> is_fin (acos_ x) /\ at_least_0 (acos_ x);
  acos_positive : forall x, is_fin x -> -1 <= val x < 1 -> 0 < val (acos_ x);
  acos_nan : forall x, is_NaN x -> is_NaN (acos_ x) }.
(* a correctly rounded exp *)
Definition exp_rounded (exp_ : b64 -> b64) : Prop :=
  forall x, is_fin x -> val x <= 0 -> is_fin (exp_ x) /\ at_least_0 (exp_ x)
    /\ val (exp_ x) = round radix2 (SpecFloat.fexp 53 1024) ZnearestE (exp (val x)).

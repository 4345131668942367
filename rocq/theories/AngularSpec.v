(* Vocabulary for C94. *)
From Coq Require Import Reals.
From Verif Require Import Base ExtRealModel DistanceSpec.
Local Open Scope R_scope.

(* the cosine of the angle between two directions *)
Definition cosine (x y : list R) : R := inner x y / (len x * len y).
(* the angle is 0, a half turn, or at least about 1.5e-8 away from both *)
Definition resolved (x y : list R) : Prop :=
  cosine x y = 1 \/ cosine x y = -1 \/ -1 + / 10 ^ 16 <= cosine x y <= 1 - / 10 ^ 16.

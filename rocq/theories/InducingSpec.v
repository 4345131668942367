(* Words for the statements about inducing points. *)
From Coq Require Import Reals List.
From Verif Require Import ExtRealModel.
Import ListNotations.
Local Open Scope R_scope.

(* lo and hi are the least and the greatest of the values *)
Definition least (lo : R) (xs : list R) : Prop := In lo xs /\ forall x, In x xs -> lo <= x.
Definition greatest (hi : R) (xs : list R) : Prop := In hi xs /\ forall x, In x xs -> x <= hi.
(* at least two points, from a to b in equal steps *)
Definition evenly_spaced (a b : R) (points : list xr) : Prop :=
  (2 <= length points)%nat /\
  forall i, (i < length points)%nat ->
    nth_error points i = Some (XFin (a + INR i * ((b - a) / (INR (length points) - 1)))).
(* n is the smallest whole number that is at least x *)
Definition is_ceiling (n : nat) (x : R) : Prop := INR n - 1 < x <= INR n.

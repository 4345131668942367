(* Specification vocabulary of C51 and C64. *)
From Coq Require Import Reals.
From Verif Require Import Base ExtRealModel.
Local Open Scope R_scope.

Definition total (xs : list R) : R := fold_right Rplus 0 xs.
(* the inner product and the length of vectors *)
Definition inner (x y : list R) : R := total (map (fun p => fst p * snd p) (combine x y)).
Definition len (x : list R) : R := sqrt (inner x x).
Definition nonzero (x : list R) : Prop := Exists (fun a => a <> 0) x.

(* on the points of P, [d] is a distance which is 0 for the pairs of [same] only *)
Definition distance_on {X} (P : X -> Prop) (same : X -> X -> Prop) (d : X -> X -> outcome xr) : Prop :=
  (forall x y, P x -> P y ->
     exists v, d x y = Ok (XFin v) /\ d y x = Ok (XFin v) /\ 0 <= v /\ (v = 0 <-> same x y)) /\
  (forall x y z a b c, P x -> P y -> P z -> d x z = Ok (XFin a) -> d x y = Ok (XFin b) -> d y z = Ok (XFin c) ->
     a <= b + c).

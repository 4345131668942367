(* Vocabulary of C83. *)
From Coq Require Import Reals List Sorted Permutation.
From Verif Require Import Base PrintEigenModel.
Import ListNotations.
Open Scope R_scope.

(* std::sort of a strict weak order *)
Definition strict_weak_order (A : Type) (comp : A -> A -> bool) : Prop :=
  (forall a, comp a a = false) /\ (forall a b c, comp a b = true -> comp b c = true -> comp a c = true) /\
  (forall a b c, comp a b = false -> comp b c = false -> comp a c = false).
Definition sorts (sort : forall A : Type, (A -> A -> bool) -> list A -> list A) : Prop :=
  forall A (comp : A -> A -> bool) l, strict_weak_order A comp ->
  Permutation l (sort A comp l) /\ StronglySorted (fun a b => comp b a = false) (sort A comp l).

Section Spec.
Variable feature : Type.
(* what is printed of a direction: the eigenvalue, and coefficients with their features *)
Definition direction := (R * list (R * feature))%type.
Definition written (mn mx : R) (ds : list direction) : list (item feature) :=
  Min feature mn :: Max feature mx :: flat_map (fun d => EigenValue feature (fst d) :: map (fun cf => Coef feature (fst cf) (snd cf)) (snd d)) ds.
(* it is of the eigenpair vv: its eigenvalue, and its coefficients above the threshold in absolute value with the features at their
   places, the largest ones first *)
Definition describes (features : list feature) (threshold : R) (vv : R * list R) (d : direction) : Prop :=
  fst d = fst vv /\
  exists hidden, Forall (fun cf => threshold < Rabs (fst cf)) (snd d) /\ Forall (fun cf => Rabs (fst cf) <= threshold) hidden /\
    Permutation (snd d ++ hidden) (combine (snd vv) features) /\ StronglySorted (fun a b => Rabs (fst b) <= Rabs (fst a)) (snd d).
(* report of [count] eigenpairs of those given: the first ones in the order [le] of their eigenvalues *)
Definition reports (le : R -> R -> Prop) (features : list feature) (threshold : R) (pairs : list (R * list R)) (count : nat)
  (out : list (item feature)) : Prop :=
  exists mn mx ds printed rest, out = written mn mx ds /\
    In mn (map fst pairs) /\ Forall (Rle mn) (map fst pairs) /\ In mx (map fst pairs) /\ Forall (fun v => v <= mx) (map fst pairs) /\
    length printed = count /\ Permutation (printed ++ rest) pairs /\ StronglySorted le (map fst (printed ++ rest)) /\
    Forall2 (describes features threshold) printed ds.
End Spec.

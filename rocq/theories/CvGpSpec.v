(* What cross validating a Gaussian process is supposed to mean. *)
From Verif Require Import Base StdMapModel IndexingModel DatasetModel DatasetSpec.
From mathcomp Require Import all_ssreflect all_algebra.
From Verif Require Import GpModel GpSpec GpHistory.
Set Implicit Arguments.
Unset Strict Implicit.
Unset Printing Implicit Defensive.
Import GRing.Theory.
Local Open Scope ring_scope.

(* every group lists observations of the data, none twice. Groups may overlap and leave observations out. *)
Definition groups_of {K} {OK : OrdKey K} (indexer : smap K (list nat)) (n : nat) : Prop :=
  wf_map indexer /\
  forall k l, mfind k indexer = Some l -> List.NoDup l /\ List.Forall (fun i => Peano.lt i n) l.

Section Spec.
Variable F : fieldType.
Variable X : Type.

(* x and y are as correlated as measurements of them, if they are different observations *)
Definition measured_alike (cov : feature X -> feature X -> F) (xs : list (feature X)) : Prop :=
  forall i j x y, i <> j -> List.nth_error xs i = Some x -> List.nth_error xs j = Some y ->
    cov (as_measurement x) (as_measurement y) = cov x y /\ cov x (as_measurement y) = cov x y.

(* the covariance of measurements of xs with independent noise of the variances in the list *)
Definition observed (cov : feature X -> feature X -> F) (xs : list (feature X)) (noise : list F) : 'M[F]_(size xs) :=
  \matrix_(i, j) (cov (as_measurement (tnth (in_tuple xs) i)) (as_measurement (tnth (in_tuple xs) j)) +
                  (if i == j then nth 0 noise i else 0)).

(* a prediction of measurements that have noise *)
Definition add_lists (a b : list F) : list F := [seq p.1 + p.2 | p <- zip a b].
Definition with_noise (p t : DatasetModel.marginal F) : DatasetModel.marginal F :=
  Marg (DatasetModel.m_mean p) (add_lists (DatasetModel.m_var p) (DatasetModel.m_var t)).
(* the same with the rows of the covariance: the variance is added to entry i of row i *)
Definition joint_with_noise (p : list F * list (list F)) (t : DatasetModel.marginal F) : list F * list (list F) :=
  (p.1, [seq [seq nth 0 (nth [::] p.2 i) j + (if i == j then nth 0 (DatasetModel.m_var t) i else 0)
             | j <- iota 0 (size (DatasetModel.m_var t))] | i <- iota 0 (size (DatasetModel.m_var t))]).
End Spec.

(* Vocabulary for C21: what one iteration of RANSAC has to satisfy. *)
From Coq Require Import Permutation.
From Verif Require Import Base StdMapModel IndexingModel DoubleModel RansacModel.

Section Spec.
Context {K : Type} `{OrdKey K} {F : Type}.
Variables (fitter : list K -> F) (inlier_metric : K -> F -> dbl)
  (consensus_metric : list K -> dbl) (is_valid_candidate : list K -> bool)
  (groups : list K) (threshold : dbl) (sample_size min_consensus : nat).

(* the candidates are sample_size groups at distinct positions *)
Definition drawn (it : iteration K) : Prop :=
  exists inds, StronglySorted lt inds /\ length inds = sample_size /\ subset groups inds = Ok (it_candidates it).

(* the other groups are split by the threshold *)
Definition classified (it : iteration K) : Prop :=
  let fit := fitter (it_candidates it) in
  wf_map (it_inliers it) /\ wf_map (it_outliers it) /\
  (forall k v, mfind k (it_inliers it) = Some v <->
     In k groups /\ ~ In k (it_candidates it) /\ v = inlier_metric k fit /\ dleb v threshold = true) /\
  (forall k v, mfind k (it_outliers it) = Some v <->
     In k groups /\ ~ In k (it_candidates it) /\ v = inlier_metric k fit /\ dleb v threshold = false).

Definition enough (it : iteration K) : Prop := min_consensus <= length (consensus it).

Definition evaluated (it : iteration K) : Prop :=
  drawn it /\ is_valid_candidate (it_candidates it) = true /\ classified it /\
  (enough it -> it_metric it = consensus_metric (consensus it)) /\
  (~ enough it -> it_metric it = NaN).

Definition rejected (it : iteration K) : Prop :=
  drawn it /\ is_valid_candidate (it_candidates it) = false /\
  it_inliers it = [] /\ it_outliers it = [] /\ it_metric it = NaN.

(* best is one of the evaluated iterations with enough consensus; those before it
   have a strictly larger metric (or none), those after it no smaller one *)
Definition is_best (best : iteration K) (its : list (iteration K)) : Prop :=
  evaluated best /\ enough best /\
  exists l1 l2, its = l1 ++ best :: l2 /\
    (forall it m', In it l1 -> it_metric it = Some m' -> exists m, it_metric best = Some m /\ (m < m')%Z) /\
    (forall it m', In it l2 -> it_metric it = Some m' -> exists m, it_metric best = Some m /\ (m <= m')%Z).

(* i of the iterations were evaluated, the other failed ones were rejected *)
Definition iters_ok (its : list (iteration K)) (i failed : nat) : Prop :=
  exists ev rj, Permutation its (ev ++ rj) /\ Forall evaluated ev /\ Forall rejected rj /\
    length ev = i /\ length rj = failed.
End Spec.

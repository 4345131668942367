(* C91: cross validating a Gaussian process, from the dataset and the groups to means, marginals, joints and scores *)
From Verif Require Import Base StdMapModel IndexingModel IndexingSpec DatasetModel DatasetSpec FoldsModel.
From mathcomp Require Import all_ssreflect all_algebra.
From Verif Require Import GpModel GpSpec GpExamples CvGpModel CvGpSpec CvGpProofs CvGpProofs2 CvGpExamples.
Set Implicit Arguments.
Unset Strict Implicit.
Unset Printing Implicit Defensive.
Import GRing.Theory.
Local Open Scope ring_scope.

Section C91.
Variable R : realFieldType.
Variable X : Type.
Variable K : Type.
Context {OK : OrdKey K}.

(* what a user relies on: a symmetric covariance function, data whose measurements are positive definite, and, except
   for the noise of each observation, nothing that tells a measurement from what is measured *)
Definition sound_data (cov : feature X -> feature X -> R) (mu : feature X -> R) (d : dataset (feature X) R) : Prop :=
  [/\ forall x y, cov x y = cov y x, wf_dataset d, measured_alike cov (ds_features d),
      (forall x, List.In x (ds_features d) -> mu (as_measurement x) = mu x)
    & pd (observed cov (ds_features d) (DatasetModel.m_var (ds_targets d)))].

(* the means are those of refitting without each group, for any groups, overlapping or incomplete *)
Theorem C91_means cov mu d (indexer : smap K (list nat)) : sound_data cov mu d -> groups_of indexer (size (ds_features d)) ->
  gp_means cov mu d indexer = cv_means (cv_fit cov mu) (cv_predict_mean cov mu) d indexer.
Proof. move=> [h1 h2 h3 h4 h5] h6; exact: means_refit. Qed.

(* the marginals are those of refitting and predicting measurements with the noise of the held out targets *)
Theorem C91_marginals cov mu d (indexer : smap K (list nat)) : sound_data cov mu d -> groups_of indexer (size (ds_features d)) ->
  gp_marginals cov mu d indexer =
  apply_mapM indexer (fun _ l => bind (create_fold l d) (fun f =>
    Ok (with_noise (cv_predict_marginal cov mu (cv_fit cov mu (f_train f)) [seq as_measurement x | x <- ds_features (f_test f)])
          (ds_targets (f_test f))))).
Proof. move=> [h1 h2 h3 h4 h5] h6; exact: marginals_refit. Qed.
Theorem C91_joints cov mu d (indexer : smap K (list nat)) : sound_data cov mu d -> groups_of indexer (size (ds_features d)) ->
  gp_joints cov mu d indexer =
  apply_mapM indexer (fun _ l => bind (create_fold l d) (fun f =>
    Ok (joint_with_noise (cv_predict_joint cov mu (cv_fit cov mu (f_train f)) [seq as_measurement x | x <- ds_features (f_test f)])
          (ds_targets (f_test f))))).
Proof. move=> [h1 h2 h3 h4 h5] h6; exact: joints_refit. Qed.

(* mean() in the order of the data; with a function that groups, entry i is the prediction for feature i by the model
   fit to the observations of the other groups *)
Theorem C91_mean cov mu d (indexer : smap K (list nat)) : sound_data cov mu d -> groups_of indexer (size (ds_features d)) ->
  gp_mean cov mu d indexer = cv_mean (cv_fit cov mu) (cv_predict_mean cov mu) d indexer.
Proof. move=> [h1 h2 h3 h4 h5] h6; exact: mean_refit. Qed.
Theorem C91_mean_by_group cov mu d (g : feature X -> K) : sound_data cov mu d -> Peano.lt 0 (ds_size d) ->
  exists out, gp_mean_grouper cov mu d g = Ok (List.map Some out) /\ length out = ds_size d /\
    forall i x, List.nth_error (ds_features d) i = Some x ->
      exists train, rows train = List.filter (fun r => negb (keqb (g (fst r)) (g x))) (rows d) /\ wf_dataset train /\
        List.nth_error out i = Some (predict_mean cov mu (fit cov mu (tnth (in_tuple (ds_features train))) (targets_of _ (ds_targets train)))
          (fun _ : 'I_1 => x) ord0 ord0).
Proof. move=> [h1 h2 h3 h4 h5] h6; exact: mean_by_group. Qed.

(* scores of a metric of means do not depend on whether a dataset with groups or folds are given *)
Theorem C91_scores cov mu d (indexer : smap K (list nat)) S (metric : list R -> DatasetModel.marginal R -> S) :
  sound_data cov mu d -> groups_of indexer (size (ds_features d)) ->
  gp_scores (gp_means cov mu) (@size R) metric d indexer =
  bind (folds_from_group_indexer d indexer) (fold_scores cov mu (cv_predict_mean cov mu) (@size R) metric).
Proof. move=> [h1 h2 h3 h4 h5] h6; exact: scores_refit. Qed.
(* those of a metric of marginals are the ones of noisy measurements *)
Theorem C91_marginal_scores cov mu d (indexer : smap K (list nat)) S (metric : DatasetModel.marginal R -> DatasetModel.marginal R -> S) :
  sound_data cov mu d -> groups_of indexer (size (ds_features d)) ->
  let size_of := fun p => size (DatasetModel.m_mean p) in
  gp_scores (gp_marginals cov mu) size_of metric d indexer =
  bind (folds_from_group_indexer d indexer) (fun folds =>
    fold_scores cov mu (fun f xs => cv_predict_marginal cov mu f [seq as_measurement x | x <- xs]) size_of
      (fun p t => metric (with_noise p t) t) folds).
Proof. move=> [h1 h2 h3 h4 h5] h6; exact: marginal_scores_refit. Qed.
End C91.
Print Assumptions C91_means.
Print Assumptions C91_marginals.
Print Assumptions C91_joints.
Print Assumptions C91_mean.
Print Assumptions C91_mean_by_group.
Print Assumptions C91_scores.
Print Assumptions C91_marginal_scores.

(* finding: scores(metric, dataset, groups) and scores(metric, folds) of the same Gaussian process, data and groups
   differ for a metric that reads variances: the first adds the noise of the held out targets to the predicted variance,
   the second does not *)
Theorem C91_scores_agree_refuted :
  exists (cov : feature bool -> feature bool -> rat) mu d (indexer : smap nat (list nat)) (metric : DatasetModel.marginal rat -> DatasetModel.marginal rat -> rat),
  sound_data cov mu d /\ groups_of indexer (size (ds_features d)) /\
  (forall x y, cov (as_measurement x) (as_measurement y) = cov x y) /\
  let size_of := fun p => size (DatasetModel.m_mean p) in
  gp_scores (gp_marginals cov mu) size_of metric d indexer <>
  bind (folds_from_group_indexer d indexer) (fold_scores cov mu (cv_predict_marginal cov mu) size_of metric).
Proof.
exists ex_cov, ex_mu, cvx_d, cvx_groups, first_variance; split; last by split; [exact: cvx_groups_of|split; [exact: ex_cov_meas|exact: cvx_scores_differ]].
by split; [exact: ex_cov_sym|exact: cvx_wf|exact: cvx_alike|exact: cvx_mu|exact: cvx_pd].
Qed.
Print Assumptions C91_scores_agree_refuted.

(* finding: a group that lists an observation twice stops at an assertion when the model is refit, but a Gaussian process
   returns means for it, from a singular block *)
Theorem C91_duplicate_refuted (R : realFieldType) X K {OK : OrdKey K} cov mu (d : dataset (feature X) R) (indexer : smap K (list nat)) :
  wf_dataset d -> wf_map indexer ->
  (forall k l, mfind k indexer = Some l -> List.Forall (fun i => Peano.lt i (size (ds_features d))) l) ->
  (exists k l, mfind k indexer = Some l /\ ~ List.NoDup l) ->
  is_ok (gp_means cov mu d indexer) = true /\ is_ok (cv_means (cv_fit cov mu) (cv_predict_mean cov mu) d indexer) = false.
Proof. move=> wd wi hr hd; exact: (duplicate cov mu wd wi hr hd). Qed.
Print Assumptions C91_duplicate_refuted.

Example C91_meets : sound_data ex_cov ex_mu cvx_d /\ groups_of cvx_groups (size (ds_features cvx_d)) /\ Peano.lt 0 (ds_size cvx_d).
Proof.
split; last by split; [exact: cvx_groups_of|repeat constructor].
by split; [exact: ex_cov_sym|exact: cvx_wf|exact: cvx_alike|exact: cvx_mu|exact: cvx_pd].
Qed.
Example C91_duplicate_meets : exists indexer : smap nat (list nat), wf_map indexer /\
  (forall k l, mfind k indexer = Some l -> List.Forall (fun i => Peano.lt i (size (ds_features cvx_d))) l) /\
  (exists k l, mfind k indexer = Some l /\ ~ List.NoDup l).
Proof.
exists [:: (0%N, [:: 0%N; 0%N])]; split; first by repeat constructor.
split; first by move=> k l; case: k => [|k] //= [<-]; repeat constructor.
by exists 0%N, [:: 0%N; 0%N]; split=> // h; inversion h as [|a l h1 h2]; apply: h1; left.
Qed.

(* A dataset of two observations for the theorems of CvGpProps.v *)
From Verif Require Import Base StdMapModel StdMapProofs IndexingModel IndexingSpec DatasetModel DatasetSpec FoldsModel.
From mathcomp Require Import all_ssreflect all_algebra.
From Verif Require Import GpModel GpSpec GpHistory PsdProofs GpExamples RansacGpModel CvGpModel CvGpSpec CvGpProofs CvGpProofs2.
Set Implicit Arguments.
Unset Strict Implicit.
Unset Printing Implicit Defensive.
Import GRing.Theory.
Local Open Scope ring_scope.

Definition cvx_d : dataset (feature bool) rat :=
  DS [:: Bare true; Bare false] (Marg [:: 3%:R; 5%:R] [:: 1; 1]) [].
Definition cvx_groups : smap nat (list nat) := [:: (0%N, [:: 0%N]); (1%N, [:: 1%N])].
Lemma cvx_wf : wf_dataset cvx_d. Proof. by []. Qed.
Lemma cvx_alike : measured_alike ex_cov (ds_features cvx_d).
Proof. by move=> [|[|[|i]]] [|[|[|j]]] x y //= _ [<-] [<-]. Qed.
Lemma cvx_mu x : List.In x (ds_features cvx_d) -> ex_mu (as_measurement x) = ex_mu x.
Proof. by move=> _; exact: ex_mu_meas. Qed.
Lemma cvx_pd : pd (observed ex_cov (ds_features cvx_d) (DatasetModel.m_var (ds_targets cvx_d))).
Proof.
have -> : observed ex_cov (ds_features cvx_d) (DatasetModel.m_var (ds_targets cvx_d)) =
  2%:R%:M + const_mx 1 *m (const_mx 1 : 'M[rat]_(2, 1))^T.
  apply/matrixP => i j; rewrite !mxE big_ord1 !mxE /=.
  by case: i => [[|[|]]] // hi; case: j => [[|[|]]].
apply: pdD; first exact: pd_scalar.
exact: psd_gram.
Qed.
Lemma cvx_groups_of : groups_of cvx_groups (size (ds_features cvx_d)).
Proof.
split; first by repeat constructor.
move=> k l /=; rewrite /cvx_groups /=.
case: k => [|[|k]] //= [<-]; by split; repeat constructor; auto.
Qed.

Definition msize (p : DatasetModel.marginal rat) : nat := size (DatasetModel.m_mean p).
Definition first_variance (p t : DatasetModel.marginal rat) : rat := nth 0 (DatasetModel.m_var p) 0.
Lemma msizeE f ys : msize (cv_predict_marginal ex_cov ex_mu f ys) = size ys /\
  size (DatasetModel.m_var (cv_predict_marginal ex_cov ex_mu f ys)) = size ys.
Proof.
have E n (v : 'cV[rat]_n) : size (entries v) = n by rewrite /entries size_map size_enum_ord.
by split; [rewrite -[LHS]/(size (entries _))|rewrite -[LHS]/(size (entries _))]; exact: E.
Qed.
Lemma two_folds P S (predict : {n & gp_fit rat_fieldType bool n} -> list (feature bool) -> P) size_of
    (metric : P -> DatasetModel.marginal rat -> S) f0 f1 :
  let p0 := predict (cv_fit ex_cov ex_mu (f_train f0)) (ds_features (f_test f0)) in
  let p1 := predict (cv_fit ex_cov ex_mu (f_train f1)) (ds_features (f_test f1)) in
  size_of p0 = ds_size (f_test f0) -> size_of p1 = ds_size (f_test f1) ->
  fold_scores ex_cov ex_mu predict size_of metric [:: (0%N, f0); (1%N, f1)] =
  Ok [:: metric p0 (ds_targets (f_test f0)); metric p1 (ds_targets (f_test f1))].
Proof.
by move=> p0 p1 h0 h1; rewrite /fold_scores /cross_validated_scores /apply_mapM /= -/p0 -/p1 h0 h1 !Nat.eqb_refl.
Qed.
Lemma cvx_scores_differ :
  gp_scores (gp_marginals ex_cov ex_mu) msize first_variance cvx_d cvx_groups <>
  bind (folds_from_group_indexer cvx_d cvx_groups) (fold_scores ex_cov ex_mu (cv_predict_marginal ex_cov ex_mu) msize first_variance).
Proof.
rewrite (marginal_scores_refit ex_cov_sym cvx_wf cvx_alike cvx_mu cvx_pd cvx_groups_of).
set i1 : 'I_2 := Ordinal (isT : (1 < 2)%N).
have -> : folds_from_group_indexer cvx_d cvx_groups = Ok [:: (0%N, Fold (part (d:=cvx_d) [:: i1]) (part (d:=cvx_d) [:: ord0]) [:: 0%N]);
    (1%N, Fold (part (d:=cvx_d) [:: ord0]) (part (d:=cvx_d) [:: i1]) [:: 1%N])] by [].
rewrite /bind !two_folds; try exact: (proj1 (msizeE _ _)).
have hx x y : ex_cov x (as_measurement y) = ex_cov x y by case: y.
rewrite !(plain_marginals ex_cov_meas hx ex_mu_meas) /f_train /f_test => h.
have {h} := congr1 (fun o => if o is Ok (a :: _) then a else 0) h; cbv beta iota.
set p := cv_predict_marginal _ _ _ _.
have hp : size (DatasetModel.m_var p) = 1%N := proj2 (msizeE _ _).
clearbody p; case: p hp => a [|v [|]] //= _.
rewrite /first_variance /= => /eqP; by rewrite -subr_eq0 [v + _]addrC addrK oner_eq0.
Qed.

(* Model of cross validation of Gaussian processes: the path of evaluation/cross_validation.hpp that calls
   cross_validated_predictions of the model, models/gp.hpp:463-483 and 498-505, and the scores. Exact arithmetic. The
   path for any other model is in FoldsModel.v. *)
From Verif Require Import Base StdMapModel IndexingModel DatasetModel FoldsModel.
From mathcomp Require Import all_ssreflect all_algebra.
From Verif Require Import GpModel RansacGpModel.
Set Implicit Arguments.
Unset Strict Implicit.
Unset Printing Implicit Defensive.
Import GRing.Theory.
Local Open Scope ring_scope.

(* a std::vector or an Eigen::VectorXd is a list where the code selects from it, a function of the index or a column
   where it computes with it *)
Definition vec X (xs : list X) : 'I_(size xs) -> X := tnth (in_tuple xs).
Definition col F n (zero : F) (l : list F) : 'cV[F]_n := \col_i nth zero l i.
Definition entries F n (v : 'cV[F]_n) : list F := [seq v i ord0 | i <- enum 'I_n].
Definition rows_of F n m (A : 'M[F]_(n, m)) : list (list F) := [seq [seq A i j | j <- enum 'I_m] | i <- enum 'I_n].

Section CvGp.
Variable F : fieldType.
Variable X : Type.
Context {K : Type} {OK : OrdKey K}.
Variable cov : feature X -> feature X -> F.
Variable mu : feature X -> F.
Local Notation data := (dataset (feature X) F).

Definition targets_of n (t : DatasetModel.marginal F) : GpModel.marginal F n :=
  Marginal (col n 0 (DatasetModel.m_mean t)) (col n 0 (DatasetModel.m_var t)).

(* model.fit(dataset), core/model.hpp:143-146 with models/gp.hpp:284-298 *)
Definition cv_fit (d : data) : {n & gp_fit F X n} :=
  existT _ (size (ds_features d)) (fit cov mu (vec (xs:=ds_features d)) (targets_of _ (ds_targets d))).

(* .predict(features).mean(), .marginal() and .joint() of a fit, models/gp.hpp:311-372: a joint distribution is its mean
   and the rows of its covariance *)
Definition cv_predict_mean (f : {n & gp_fit F X n}) (xs : list (feature X)) : list F :=
  entries (predict_mean cov mu (projT2 f) (vec (xs:=xs))).
Definition cv_predict_marginal (f : {n & gp_fit F X n}) (xs : list (feature X)) : DatasetModel.marginal F :=
  let p := predict_marginal cov mu (projT2 f) (vec (xs:=xs)) in Marg (entries (m_mean p)) (entries (m_var p)).
Definition cv_predict_joint (f : {n & gp_fit F X n}) (xs : list (feature X)) : list F * list (list F) :=
  let p := predict_joint cov mu (projT2 f) (vec (xs:=xs)) in (entries (j_mean p), rows_of (j_cov p)).

(* the values the overloads of held_out_prediction return, evaluation/cross_validation_utils.hpp:172-197 *)
Definition out_mean k (A : 'M[F]_k) (y v : 'cV[F]_k) : list F := entries (held_out_mean A y v).
Definition out_marginal k (A : 'M[F]_k) (y v : 'cV[F]_k) : DatasetModel.marginal F :=
  let p := held_out_marginal A y v in Marg (entries (m_mean p)) (entries (m_var p)).
Definition out_joint k (A : 'M[F]_k) (y v : 'cV[F]_k) : list F * list (list F) :=
  let p := held_out_joint A y v in (entries (j_mean p), rows_of (j_cov p)).

(* gp_cross_validated_predictions, models/gp.hpp:463-483, with held_out_predictions,
   evaluation/cross_validation_utils.hpp:199-232. subset_cols and subset assert that every index is in range. *)
Definition gp_predictions T (held_out : forall k, 'M[F]_k -> 'cV[F]_k -> 'cV[F]_k -> T) (d : data)
    (indexer : smap K (list nat)) : outcome (smap K T) :=
  let n := size (ds_features d) in
  apply_mapM indexer (fun _ indices =>
    bind (positions n indices) (fun s =>
    Ok (gp_cross_validated cov mu (T:=fun _ => T) held_out (vec (xs:=ds_features d)) (targets_of n (ds_targets d)) (at_ (s:=s))))).

(* means(), marginals() and joints() of a model with cross_validated_predictions,
   evaluation/cross_validation.hpp:49-58, 106-114 and 166-174 *)
Definition gp_means : data -> smap K (list nat) -> outcome (smap K (list F)) := gp_predictions out_mean.
Definition gp_marginals : data -> smap K (list nat) -> outcome (smap K (DatasetModel.marginal F)) := gp_predictions out_marginal.
Definition gp_joints : data -> smap K (list nat) -> outcome (smap K (list F * list (list F))) := gp_predictions out_joint.

(* mean() and marginal(), evaluation/cross_validation.hpp:82-91 and 141-151 *)
Definition gp_mean (d : data) (indexer : smap K (list nat)) : outcome (list (option F)) :=
  bind (gp_means d indexer) (concatenate_mean_predictions indexer).
Definition gp_marginal (d : data) (indexer : smap K (list nat)) : outcome (DatasetModel.marginal (option F)) :=
  bind (gp_marginals d indexer) (concatenate_marginal_predictions indexer).
(* the same with a function that groups, evaluation/cross_validation.hpp:273-277 *)
Definition gp_mean_grouper (d : data) (grouper : feature X -> K) : outcome (list (option F)) :=
  gp_mean d (build_indexer grouper (ds_features d)).

(* cross_validated_scores, evaluation/cross_validation_utils.hpp:102-118 *)
Definition cross_validated_scores P S (size_of : P -> nat) (metric : P -> DatasetModel.marginal F -> S)
    (folds : smap K (fold (feature X) F)) (predictions : smap K P) : outcome (list S) :=
  bind (apply_mapM folds (fun key f =>
    bind (mat key predictions) (fun p =>
    assert_then (Nat.eqb (ds_size (f_test f)) (size_of p)) (Ok (metric p (ds_targets (f_test f)))))))
  (fun scores => Ok (combine_values scores)).

(* scores(metric, dataset, indexer), evaluation/cross_validation.hpp:306-316: the prediction is that of means(),
   marginals() or joints() above, by what the metric requires *)
Definition gp_scores P S (predictions_ : data -> smap K (list nat) -> outcome (smap K P)) (size_of : P -> nat)
    (metric : P -> DatasetModel.marginal F -> S) (d : data) (indexer : smap K (list nat)) : outcome (list S) :=
  bind (folds_from_group_indexer d indexer) (fun folds =>
  bind (predictions_ d indexer) (fun preds => cross_validated_scores size_of metric folds preds)).

(* scores(metric, folds), evaluation/cross_validation.hpp:287-304: predictions(folds) refits for every fold. The metric
   gets the mean, marginal or joint from the prediction, evaluation/prediction_metrics.hpp:48-54. *)
Definition fold_scores P S (predict : {n & gp_fit F X n} -> list (feature X) -> P) (size_of : P -> nat)
    (metric : P -> DatasetModel.marginal F -> S) (folds : smap K (fold (feature X) F)) : outcome (list S) :=
  bind (apply_mapM folds (fun _ f => Ok (predict (cv_fit (f_train f)) (ds_features (f_test f)))))
  (fun preds => cross_validated_scores size_of metric folds preds).
End CvGp.

(* Model of evaluation/model_metrics.hpp. The cross validated predictions of a model are an argument: the prediction
   of the group with the given indices by the model that was fitted to the other data (C10), for Gaussian processes
   gp_cross_validated of GpModel.v. The scores of the groups come in the order of the groups (C10_cv_scores). *)
From Coq Require Import Reals.
From Verif Require Import ExtRealModel DistanceModel RadialModel.
From mathcomp Require Import all_ssreflect all_algebra.
From Verif Require Import RealStruct GpModel LdltModel LikelihoodModel ScoreModel MetricsModel.
From Verif Require Base.
Set Implicit Arguments.
Unset Strict Implicit.
Unset Printing Implicit Defensive.
Import GRing.Theory.
Local Open Scope ring_scope.

(* the indices of one group, indexing/group_by.hpp *)
Record group n := Group { g_size : nat; g_indices : 'I_g_size -> 'I_n }.
Arguments g_indices [n] g _.
(* LeaveOneOutGrouper, indexing/group_by.hpp: every index is a group *)
Definition leave_one_out n : seq (group n) := [seq Group (fun _ : 'I_1 => i) | i <- enum 'I_n].

(* Eigen's sum() and mean() of the vector of scores *)
Definition scores_sum (scores : seq xr) : xr := foldl xadd (XFin 0) scores.
Definition scores_mean (scores : seq xr) : xr := xdiv (scores_sum scores) (XFin (size scores)%:R).

Section Metrics.
Variable tolerance : R.
Variable compute_ldlt : forall n, 'M[R]_n -> ldlt_state n.
Variable n : nat.
Variable targets : marginal R_fieldType n.

(* LeaveOneGroupOutLikelihood::_call_impl, evaluation/model_metrics.hpp:81-88; with leave_one_out
   LeaveOneOutLikelihood::_call_impl, 62-71. Joint predictions *)
Definition leave_one_group_out_likelihood (predictions : forall k, ('I_k -> 'I_n) -> joint R_fieldType k)
    (prior_log_likelihood : xr) (groups : seq (group n)) : Base.outcome xr :=
  Base.bind (Base.mapM (fun g =>
      nll_joint tolerance compute_ldlt (predictions _ (g_indices g)) (marginal_subset (g_indices g) targets)) groups) (fun scores =>
  let data_nll := scores_sum scores in
  let prior_nll := prior_log_likelihood in
  Base.Ok (xsub data_nll prior_nll)).

(* the same with marginal predictions *)
Definition leave_one_group_out_likelihood_marginal (predictions : forall k, ('I_k -> 'I_n) -> marginal R_fieldType k)
    (prior_log_likelihood : xr) (groups : seq (group n)) : Base.outcome xr :=
  Base.bind (Base.mapM (fun g =>
      nll_marginal (predictions _ (g_indices g)) (marginal_subset (g_indices g) targets)) groups) (fun scores =>
  let data_nll := scores_sum scores in
  let prior_nll := prior_log_likelihood in
  Base.Ok (xsub data_nll prior_nll)).

(* LeaveOneOutRMSE::_call_impl, evaluation/model_metrics.hpp:96-106 *)
Definition leave_one_out_rmse (predictions : forall k, ('I_k -> 'I_n) -> 'cV[R]_k) : Base.outcome xr :=
  Base.bind (Base.mapM (fun g =>
      root_mean_square_error (predictions _ (g_indices g)) (m_mean (marginal_subset (g_indices g) targets))) (leave_one_out n)) (fun scores =>
  Base.Ok (scores_mean scores)).
End Metrics.

(* Sparse Gaussian processes (C46-C49). Exact real arithmetic; the factorizations are any that satisfy
   the contracts of SparseGpSpec.v. *)
From Coq Require Import Reals.
From mathcomp Require Import all_ssreflect all_algebra all_fingroup.
From Verif Require Import RealStruct GpModel GpSpec LdltModel LdltSpec SparseGpModel SparseGpSpec SparseGpProofs SparseGpProofs2 SparseGpProofs3 SparseGpProofs4 SparseGpExamples.
Set Implicit Arguments.
Unset Strict Implicit.
Unset Printing Implicit Defensive.
Import Order.TTheory GRing.Theory Num.Theory.
Local Open Scope ring_scope.

Section Props.
Variable X : Type.
Variable cov : feature X -> feature X -> R.
Variable mean_function : feature X -> R.
Variable compute_ldlt : forall n, 'M[R]_n -> ldlt_state n.
Variable compute_qr : forall m n, 'M[R]_(m, n) -> qr_result m n.
Variables tolerance measurement_nugget inducing_nugget sparse_R_nugget default_nugget : R.
Hypothesis hldlt : ldlt_contract compute_ldlt.
Hypothesis hqr : qr_contract compute_qr.
Hypothesis hk : psd_kernel cov.
Hypothesis hnu : 0 < inducing_nugget.
Variables (k : nat) (u : 'I_k -> feature X).
Local Notation measured xs := (as_measurement (X := X) \o xs).
Local Notation fit_ groups xs t := (sparse_fit_impl cov compute_ldlt compute_qr measurement_nugget inducing_nugget groups u xs t).
Local Notation pitc_ groups xs t :=
  (pitc cov inducing_nugget measurement_nugget u (same_group groups) (measured xs) (m_var t)).
Local Notation history_ := (history cov compute_ldlt compute_qr measurement_nugget inducing_nugget sparse_R_nugget u).

(* ---- C46: fit and predict compute the PITC posterior ---- *)
Theorem C46_posterior n (xs : 'I_n -> feature X) t groups p (zs : 'I_p -> feature X) :
  groups_partition groups -> (forall i, 0 < m_var t i 0 + measurement_nugget) -> (forall x, mean_function x = 0) ->
  let joint := sparse_predict_joint cov mean_function (fit_ groups xs t) zs in
  conditional 0 0 (cov_mx cov zs zs) (through cov inducing_nugget u zs (measured xs)) (pitc_ groups xs t)
    (m_mean t) (j_mean joint) (j_cov joint) /\
  pd (pitc_ groups xs t) /\ psd (j_cov joint).
Proof.
move=> hp hv h0; have := history_posterior mean_function hldlt hqr hk hnu zs (history_fit cov compute_ldlt compute_qr inducing_nugget sparse_R_nugget u xs hp hv).
have -> // : mean_v mean_function zs = 0 by apply/matrixP => i j; rewrite !mxE h0.
Qed.

(* the marginal and mean predictions of any fit are the diagonal and the mean of the joint one *)
Theorem C46_agree (f : sparse_fit X k) p (xs : 'I_p -> feature X) :
  let joint := sparse_predict_joint cov mean_function f xs in
  sparse_predict_marginal cov mean_function f xs = Marginal (F := R_fieldType) (j_mean joint) (\col_i j_cov joint i i) /\
  sparse_predict_mean cov mean_function f xs = j_mean joint.
Proof. exact: predict_agree_sparse. Qed.

(* the log likelihood is the log density of the observations under the same covariance *)
Theorem C46_log_likelihood n (xs : 'I_n -> feature X) t groups prior : groups_partition groups ->
  (forall i, 0 < m_var t i 0 + measurement_nugget) -> 0 <= tolerance ->
  above_tolerance tolerance (c_A_ldlt (compute_internal_components cov compute_ldlt measurement_nugget inducing_nugget groups u xs t)) ->
  sparse_log_likelihood cov compute_ldlt compute_qr tolerance measurement_nugget inducing_nugget groups u xs t prior =
  Some (gaussian_log_density (pitc_ groups xs t) (m_mean t) + prior).
Proof. exact: log_likelihood_correct. Qed.

(* ---- C47: updating is the same as fitting everything at once ---- *)
(* in any grouping of all the observations under which two are in the same group exactly when they
   were in the same group of the same batch *)
Theorem C47_update n (xs : 'I_n -> feature X) t groups f groups' : history_ xs t groups f ->
  groups_partition groups' -> (forall i j, same_group groups' i j = same_group groups i j) ->
  let batch := fit_ groups' xs t in
  sf_features f = sf_features batch /\ sf_information f = sf_information batch /\
  forall p (zs : 'I_p -> feature X),
    sparse_predict_joint cov mean_function f zs = sparse_predict_joint cov mean_function batch zs.
Proof. exact: history_batch. Qed.

(* and the groups of a history are such a grouping *)
Theorem C47_groups n (xs : 'I_n -> feature X) t groups f : history_ xs t groups f ->
  groups_partition groups /\ (forall i, 0 < m_var t i 0 + measurement_nugget).
Proof. by case/(history_stores hldlt hqr hk hnu) => h1 [h2 _]. Qed.

(* ---- C48: mean functions ---- *)
(* what is predicted: the mean function is added, but the observations are conditioned on as if their
   mean was 0 *)
Theorem C48_prediction n (xs : 'I_n -> feature X) t groups f p (zs : 'I_p -> feature X) : history_ xs t groups f ->
  let joint := sparse_predict_joint cov mean_function f zs in
  conditional (mean_v mean_function zs) 0 (cov_mx cov zs zs) (through cov inducing_nugget u zs (measured xs))
    (pitc_ groups xs t) (m_mean t) (j_mean joint) (j_cov joint) /\
  pd (pitc_ groups xs t) /\ psd (j_cov joint).
Proof. exact: history_posterior. Qed.

(* so the prediction is right when the caller subtracts the mean function from the targets *)
Theorem C48_residuals n (xs : 'I_n -> feature X) t groups f p (zs : 'I_p -> feature X) (y : 'cV[R]_n) :
  history_ xs t groups f -> m_mean t = y - mean_v mean_function (measured xs) ->
  let joint := sparse_predict_joint cov mean_function f zs in
  conditional (mean_v mean_function zs) (mean_v mean_function (measured xs)) (cov_mx cov zs zs)
    (through cov inducing_nugget u zs (measured xs)) (pitc_ groups xs t) y (j_mean joint) (j_cov joint).
Proof.
move=> H ty; have [[W [e1 [e2 e3]]] _] := history_posterior mean_function hldlt hqr hk hnu zs H.
by exists W; rewrite -ty -[m_mean t]subr0.
Qed.

(* a fit built from a prediction d at new inducing points z predicts, at any points, what marginalizing the
   process over values d of z gives, plus the mean function, with a nugget on the covariance of d *)
Theorem C48_from_prediction l (z : 'I_l -> feature X) (d : joint R_fieldType l) p (xs : 'I_p -> feature X) :
  pd (cov_mx cov z z) -> 0 < default_nugget -> 0 <= tolerance ->
  (forall i, tolerance < vectorD (compute_ldlt (cov_mx cov z z)) i 0) -> psd (j_cov d) ->
  let f := sparse_fit_from_prediction cov compute_ldlt compute_qr tolerance default_nugget z d in
  let W := cov_mx cov xs z *m invmx (cov_mx cov z z) in
  j_mean (sparse_predict_joint cov mean_function f xs) = W *m j_mean d + mean_v mean_function xs /\
  j_cov (sparse_predict_joint cov mean_function f xs) =
    cov_mx cov xs xs - W *m cov_mx cov z xs + W *m (j_cov d + default_nugget%:M) *m W^T.
Proof. move=> h1 h2 h3 h4 h5; exact: from_prediction. Qed.

(* at z itself: the mean function is counted twice *)
Theorem C48_rebase l (z : 'I_l -> feature X) n (xs : 'I_n -> feature X) t groups f : history_ xs t groups f ->
  pd (cov_mx cov z z) -> 0 < default_nugget -> 0 <= tolerance ->
  (forall i, tolerance < vectorD (compute_ldlt (cov_mx cov z z)) i 0) ->
  let before := sparse_predict_joint cov mean_function f z in
  let rebased := rebase_inducing_points cov mean_function compute_ldlt compute_qr tolerance default_nugget f z in
  sparse_predict_joint cov mean_function rebased z =
  Joint (F := R_fieldType) (j_mean before + mean_v mean_function z) (j_cov before + default_nugget%:M).
Proof.
move=> H h1 h2 h3 h4 before rebased; apply: from_prediction_at_points => //.
by have [_ []] := history_posterior mean_function hldlt hqr hk hnu z H.
Qed.
End Props.
Print Assumptions C46_posterior.
Print Assumptions C46_agree.
Print Assumptions C46_log_likelihood.
Print Assumptions C47_update.
Print Assumptions C47_groups.
Print Assumptions C48_prediction.
Print Assumptions C48_residuals.
Print Assumptions C48_from_prediction.
Print Assumptions C48_rebase.

(* one group of all the observations: the covariance of the observations is exact *)
Theorem C46_one_group X (cov : feature X -> feature X -> R) nu m k (u : 'I_k -> feature X) n (xs : 'I_n -> feature X) v :
  pitc cov nu m u (same_group [:: enum 'I_n]) xs v = cov_mx cov xs xs + diag_mx (v + const_mx m)^T.
Proof. by apply/matrixP => i j; rewrite !mxE /same_group /= !mem_enum /=; case: eqP => [->|]; rewrite ?mulr1n ?mulr0n. Qed.
Print Assumptions C46_one_group.
(* one group for each observation (FITC): only the diagonal is exact *)
Theorem C46_fitc X (cov : feature X -> feature X -> R) nu m k (u : 'I_k -> feature X) n (xs : 'I_n -> feature X) v i j :
  pitc cov nu m u (same_group [seq [:: i] | i <- enum 'I_n]) xs v i j =
  if i == j then cov (xs i) (xs i) + (v i 0 + m) else through cov nu u xs xs i j.
Proof.
rewrite [LHS]mxE /same_group has_map.
have -> : has (preim (fun i => [:: i]) (fun g => (i \in g) && (j \in g))) (enum 'I_n) = (i == j).
  apply/hasP/eqP => [[x _ /=]|<-]; first by rewrite !inE => /andP [/eqP -> /eqP ->].
  by exists i; rewrite ?mem_enum //= !inE eqxx.
by case: eqP => [->|].
Qed.
Print Assumptions C46_fitc.

(* the contracts, the covariance function and the groups are not vacuous: factorizations that satisfy the
   contracts, and a fit of three observations in two groups followed by an update *)
Example C46_example :
  ldlt_contract plain_ldlt /\ qr_contract plain_qr /\ psd_kernel linear /\
  groups_partition ex_groups /\ (forall i, 0 < m_var ex_t i 0 + 1) /\
  above_tolerance 0 (c_A_ldlt (compute_internal_components linear plain_ldlt 1 1 ex_groups ex_u ex_xs ex_t)).
Proof.
split; first exact: plain_ldlt_contract. split; first exact: plain_qr_contract. split; first exact: linear_psd.
split; first exact: ex_partition. split; first exact: ex_var.
have [A [-> [Ap _]]] := comp_A plain_ldlt_contract linear_psd ltr01 ex_u ex_xs ex_partition ex_var.
exact: (above_zero_blocks plain_ldlt_contract).
Qed.
Example C47_example :
  let f := sparse_fit_impl linear plain_ldlt plain_qr 1 1 ex_groups ex_u ex_xs ex_t in
  history linear plain_ldlt plain_qr 1 1 1 ex_u (concat_f ex_xs ex_xs) (concat_t ex_t ex_t)
    ([seq [seq lshift 3 i | i <- g] | g <- ex_groups] ++ [seq [seq rshift 3 i | i <- g] | g <- ex_groups])
    (sparse_update_impl linear plain_ldlt plain_qr 1 1 1 ex_groups f ex_xs ex_t).
Proof. by apply: history_update ex_partition ex_var; exact: (history_fit _ _ _ _ _ _ _ ex_partition ex_var). Qed.

(* a mean function: the prediction is not the posterior *)
Theorem C48_mean_function_refuted (compute_ldlt : forall n, 'M[R]_n -> ldlt_state n) (compute_qr : forall m n, 'M[R]_(m, n) -> qr_result m n) :
  ldlt_contract compute_ldlt -> qr_contract compute_qr ->
  let f := sparse_fit_impl linear compute_ldlt compute_qr 1 1 [:: [:: 0]] one_x one_x one_t in
  let joint := sparse_predict_joint linear (fun _ => 1) f one_x in
  ~ conditional (mean_v (fun _ => 1) one_x) (mean_v (fun _ => 1) (as_measurement (X := R) \o one_x)) (cov_mx linear one_x one_x)
      (through linear 1 one_x one_x (as_measurement (X := R) \o one_x))
      (pitc linear 1 1 one_x (same_group [:: [:: 0]]) (as_measurement (X := R) \o one_x) (m_var one_t))
      (m_mean one_t) (j_mean joint) (j_cov joint).
Proof. exact: mean_not_removed. Qed.
Print Assumptions C48_mean_function_refuted.
(* rebasing on new inducing points changes the prediction there *)
Theorem C48_rebase_refuted (compute_ldlt : forall n, 'M[R]_n -> ldlt_state n) (compute_qr : forall m n, 'M[R]_(m, n) -> qr_result m n) :
  ldlt_contract compute_ldlt -> qr_contract compute_qr ->
  let f := sparse_fit_impl linear compute_ldlt compute_qr 1 1 [:: [:: 0]] one_x one_x one_t in
  let rebased := rebase_inducing_points linear (fun _ => 1) compute_ldlt compute_qr 0 1 f one_x in
  j_mean (sparse_predict_joint linear (fun _ => 1) rebased one_x) <> j_mean (sparse_predict_joint linear (fun _ => 1) f one_x).
Proof. exact: rebase_mean_twice. Qed.
Print Assumptions C48_rebase_refuted.
Example C48_example : pd (cov_mx linear one_x one_x) /\ groups_partition [:: [:: 0 : 'I_1]] /\
  (forall i, 0 < vectorD (plain_ldlt (cov_mx linear one_x one_x)) i 0).
Proof.
split; first exact: one_pd. split; first exact: one_partition.
by have [_] := ldlt_pd plain_ldlt_contract one_pd.
Qed.

(* ---- C49: setters ---- *)
Theorem C49_set_inducing_point_strategy Strategy Grouper (s : Strategy) (m : sparse_gp_members Strategy Grouper) :
  set_inducing_point_strategy s m = m.
Proof. by []. Qed.
Print Assumptions C49_set_inducing_point_strategy.
(* finding: after setting a strategy, the model still uses the one it had *)
Theorem C49_set_inducing_point_strategy_refuted :
  exists (s : bool) (m : sparse_gp_members bool unit), get_inducing_point_strategy (set_inducing_point_strategy s m) <> s.
Proof. by exists true, (Members false tt). Qed.
Print Assumptions C49_set_inducing_point_strategy_refuted.
Theorem C49_set_grouper_function Strategy Grouper (g : Grouper) (m : sparse_gp_members Strategy Grouper) :
  get_grouper_function (set_grouper_function g m) = g /\
  get_inducing_point_strategy (set_grouper_function g m) = get_inducing_point_strategy m.
Proof. by []. Qed.
Print Assumptions C49_set_grouper_function.

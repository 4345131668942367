(* Gaussian process regression (C35-C43). Exact arithmetic in any field, or any ordered field. *)
From mathcomp Require Import all_ssreflect all_algebra.
From Verif Require Import GpModel GpSpec GpHistory GpProofs PsdProofs GpProofs2 GpProofs3 GpProofs4 GpExamples.
Set Implicit Arguments.
Unset Strict Implicit.
Unset Printing Implicit Defensive.
Import Order.TTheory GRing.Theory Num.Theory.
Local Open Scope ring_scope.

(* ---- C43: BlockSymmetric solves the dense system ---- *)

(* built from A (any representation that solves A, so also another BlockSymmetric), B and C *)
Theorem C43_block_symmetric (F : fieldType) n m (s : solver F n) (A : 'M[F]_n) (B : 'M[F]_(n, m)) (C : 'M[F]_m) :
  solves s A -> symmetric A -> block_mx A B B^T C \in unitmx ->
  solves (block_symmetric_solve (build_block_symmetric_C s B C)) (block_mx A B B^T C).
Proof. exact: block_symmetric_C_solves. Qed.
Print Assumptions C43_block_symmetric.

(* built from the Schur complement S = C - B^T A^-1 B *)
Theorem C43_block_symmetric_schur (F : fieldType) n m (s : solver F n) (A : 'M[F]_n) (B : 'M[F]_(n, m)) (C S : 'M[F]_m) :
  solves s A -> symmetric A -> S = C - B^T *m invmx A *m B -> S \in unitmx ->
  solves (block_symmetric_solve (build_block_symmetric_S s B S)) (block_mx A B B^T C).
Proof. exact: block_symmetric_S_solves. Qed.
Print Assumptions C43_block_symmetric_schur.

(* the documentation asks for invertible A and Schur complement; this is the same as A and the
   whole matrix being invertible *)
Theorem C43_invertible (F : fieldType) n m (A : 'M[F]_n) (B : 'M[F]_(n, m)) (C : 'M[F]_m) :
  A \in unitmx -> (block_mx A B B^T C \in unitmx) = (C - B^T *m invmx A *m B \in unitmx).
Proof. exact: schur_unit. Qed.
Print Assumptions C43_invertible.

(* the other representations: what their solve inverts *)
Theorem C43_explained (F : fieldType) n (outer inner : 'M[F]_n) :
  outer \in unitmx -> inner \in unitmx ->
  solves (explained (ldlt outer) inner) (outer *m invmx inner *m outer).
Proof. exact: explained_solves. Qed.
Print Assumptions C43_explained.

Theorem C43_direct_inverse (F : fieldType) n (A : 'M[F]_n) :
  A \in unitmx -> solves (direct_inverse (invmx A)) A.
Proof. exact: direct_inverse_solves. Qed.
Print Assumptions C43_direct_inverse.

(* two nested updates of a 1x1 matrix *)
Example C43_example :
  solves (block_symmetric_solve (build_block_symmetric_C
           (block_symmetric_solve (build_block_symmetric_C (ldlt (2%:M : 'M[rat]_1)) (1%:M : 'M_1) (2%:M : 'M_1)))
           (0 : 'M_(1 + 1, 1)) (5%:M : 'M_1)))
         (block_mx (block_mx 2%:M 1%:M (1%:M)^T 2%:M) (0 : 'M[rat]_(1 + 1, 1)) (0 : 'M_(1 + 1, 1))^T 5%:M).
Proof. exact: C43_example_lemma. Qed.

(* ---- C39: mean, marginal and joint predictions agree ---- *)
Theorem C39_agree (F : fieldType) X (cov : feature X -> feature X -> F) mu n p (gp : gp_fit F X n) (xs : 'I_p -> feature X) :
  let joint := predict_joint cov mu gp xs in
  predict_marginal cov mu gp xs = Marginal (j_mean joint) (\col_i j_cov joint i i) /\
  predict_mean cov mu gp xs = j_mean joint.
Proof. exact: predict_agree. Qed.
Print Assumptions C39_agree.

(* a prediction does not depend on what else is predicted with it, whatever the history of the fit;
   [idx] may repeat and reorder features *)
Theorem C39_subset (F : fieldType) X (cov : feature X -> feature X -> F) mu n p k (gp : gp_fit F X n)
    (xs : 'I_p -> feature X) (idx : 'I_k -> 'I_p) :
  reachable cov mu gp ->
  let joint := predict_joint cov mu gp xs in
  let some := predict_joint cov mu gp (fun i => xs (idx i)) in
  (forall i, j_mean some i 0 = j_mean joint (idx i) 0) /\
  (forall i j, j_cov some i j = j_cov joint (idx i) (idx j)).
Proof. exact: predict_subset_reachable. Qed.
Print Assumptions C39_subset.

Example C39_example : reachable ex_cov ex_mu (update ex_cov ex_mu (fit ex_cov ex_mu ex_xs ex_t) ex_ys ex_t).
Proof. by apply: reach_update; apply: reach_fit. Qed.

(* ---- C37: updating equals refitting ---- *)
Theorem C37_update (F : fieldType) X (cov : feature X -> feature X -> F) mu n m
    (xs : 'I_n -> feature X) t (ys : 'I_m -> feature X) u :
  (forall x y, cov x y = cov y x) ->
  agree_new cov mu xs ys ->
  kmat cov xs t \in unitmx -> kmat cov (concat_f xs ys) (concat_t t u) \in unitmx ->
  forall p (zs : 'I_p -> feature X),
  predict_joint cov mu (update cov mu (fit cov mu xs t) ys u) zs =
  predict_joint cov mu (fit cov mu (concat_f xs ys) (concat_t t u)) zs.
Proof. by move=> hs ha h1 h2 p zs; apply: update_refit. Qed.
Print Assumptions C37_update.

(* any number of updates, each with a batch of any size *)
Theorem C37_updates (R : realFieldType) X (cov : feature X -> feature X -> R) mu n
    (xs : 'I_n -> feature X) t (bs : seq (batch R X)) :
  (forall x y, cov x y = cov y x) ->
  (forall x y, cov (as_measurement x) (as_measurement y) = cov x y) ->
  (forall x, mu (as_measurement x) = mu x) ->
  let all := projT2 (concat_all xs t bs) in
  pd (kmat cov all.1 all.2) ->
  forall p (zs : 'I_p -> feature X),
  predict_joint cov mu (projT2 (update_all cov mu (fit cov mu xs t) bs)) zs =
  predict_joint cov mu (fit cov mu all.1 all.2) zs.
Proof. move=> h1 h2 h3 all h4; exact: update_all_refit. Qed.
Print Assumptions C37_updates.

(* the hypothesis is needed: with a covariance term for measurements only, updating and refitting
   give different predictions, since _update_impl does not wrap the new features as measurements *)
Theorem C37_measurement_noise_refuted :
  exists cov : feature bool -> feature bool -> rat,
  (forall x y, cov x y = cov y x) /\ (forall k (us : 'I_k -> feature bool), psd (cov_mx cov us us)) /\
  exists (xs ys : 'I_1 -> feature bool) (t : marginal rat_fieldType 1),
  pd (kmat cov (concat_f xs ys) (concat_t t t)) /\
  predict_joint cov (fun _ => 0) (update cov (fun _ => 0) (fit cov (fun _ => 0) xs t) ys t) ys <>
  predict_joint cov (fun _ => 0) (fit cov (fun _ => 0) (concat_f xs ys) (concat_t t t)) ys.
Proof. exact: update_noise_refuted. Qed.
Print Assumptions C37_measurement_noise_refuted.

Example C37_example :
  (forall x y, ex_cov x y = ex_cov y x) /\ agree_new ex_cov ex_mu ex_xs ex_ys /\
  pd (kmat ex_cov (concat_f ex_xs ex_ys) (concat_t ex_t ex_t)) /\
  kmat ex_cov ex_xs ex_t \in unitmx /\ kmat ex_cov (concat_f ex_xs ex_ys) (concat_t ex_t ex_t) \in unitmx.
Proof. exact: ex_hypotheses. Qed.

(* ---- C38: fit_from_prediction ---- *)
Theorem C38_recovers (F : fieldType) X (cov : feature X -> feature X -> F) mu n (us : 'I_n -> feature X) (P : joint F n) :
  (forall x y, cov x y = cov y x) -> cov_mx cov us us \in unitmx ->
  predict_joint cov mu (fit_from_prediction cov mu us P) us = P.
Proof. move=> hs; exact: fit_from_prediction_recovers. Qed.
Print Assumptions C38_recovers.

(* rebuilt from its own prediction at its training features, a fit predicts as before everywhere *)
Theorem C38_same_everywhere (F : fieldType) X (cov : feature X -> feature X -> F) mu n (gp : gp_fit F X n) :
  (forall x y, cov x y = cov y x) -> reachable cov mu gp ->
  cov_mx cov (train_features gp) (train_features gp) \in unitmx ->
  let rebuilt := fit_from_prediction cov mu (train_features gp) (predict_joint cov mu gp (train_features gp)) in
  forall p (zs : 'I_p -> feature X), predict_joint cov mu rebuilt zs = predict_joint cov mu gp zs.
Proof. exact: fit_from_prediction_reachable. Qed.
Print Assumptions C38_same_everywhere.

Example C38_example : cov_mx ex_cov ex_xs ex_xs \in unitmx.
Proof. exact: ex_bare_unit. Qed.

(* ---- C35: leave one out ---- *)
Theorem C35_leave_one_out (F : fieldType) n m (prior : joint F n) (truth : marginal F n) (i : 'I_n) (others : 'I_m -> 'I_n) :
  symmetric (j_cov prior) ->
  injective others -> (forall b, others b <> i) -> (forall j, j <> i -> exists b, others b = j) ->
  let A := j_cov prior + diag_mx (m_var truth)^T in
  A \in unitmx -> mxsub others others A \in unitmx ->
  let out := leave_one_out_conditional prior truth in
  conditional (j_mean prior i 0)%:M (rowsub others (j_mean prior))
    (A i i)%:M (\row_b j_cov prior i (others b)) (mxsub others others A) (rowsub others (m_mean truth))
    (m_mean out i 0)%:M (m_var out i 0)%:M.
Proof. exact: leave_one_out_scalar. Qed.
Print Assumptions C35_leave_one_out.

(* positive definite covariance: nothing else is needed *)
Theorem C35_positive_definite (R : realFieldType) n m (prior : joint R n) (truth : marginal R n) (i : 'I_n) (others : 'I_m -> 'I_n) :
  injective others -> (forall b, others b <> i) -> (forall j, j <> i -> exists b, others b = j) ->
  let A := j_cov prior + diag_mx (m_var truth)^T in
  pd A ->
  let out := leave_one_out_conditional prior truth in
  conditional (j_mean prior i 0)%:M (rowsub others (j_mean prior))
    (A i i)%:M (\row_b j_cov prior i (others b)) (mxsub others others A) (rowsub others (m_mean truth))
    (m_mean out i 0)%:M (m_var out i 0)%:M /\ 0 < m_var out i 0.
Proof. exact: leave_one_out_pd. Qed.
Print Assumptions C35_positive_definite.

(* [conditional] determines mean and covariance *)
Theorem C35_conditional_unique (F : fieldType) k m (mf : 'cV[F]_k) (mg : 'cV[F]_m) Sff Sfg Sgg y mean cov :
  Sgg \in unitmx -> symmetric Sgg ->
  (conditional mf mg Sff Sfg Sgg y mean cov <->
   mean = mf + Sfg *m invmx Sgg *m (y - mg) /\ cov = Sff - Sfg *m invmx Sgg *m Sfg^T).
Proof. exact: conditional_formula. Qed.
Print Assumptions C35_conditional_unique.

Example C35_example : pd (j_cov ex_prior + diag_mx (m_var ex_truth)^T) /\
  injective (lift (ord0 : 'I_3)) /\ (forall b, lift (ord0 : 'I_3) b <> ord0) /\ (forall j, j <> (ord0 : 'I_3) -> exists b, lift ord0 b = j).
Proof. exact: ex_loo. Qed.

(* ---- C36: leave one group out ---- *)
Theorem C36_leave_one_group_out (F : fieldType) n k m (group : 'I_k -> 'I_n) (others : 'I_m -> 'I_n)
    (prior : joint F n) (truth : marginal F n) :
  symmetric (j_cov prior) -> complementary group others ->
  let A := j_cov prior + diag_mx (m_var truth)^T in
  A \in unitmx -> mxsub others others A \in unitmx ->
  let out := leave_one_group_out (@held_out_joint F) prior truth group in
  conditional (rowsub group (j_mean prior)) (rowsub others (j_mean prior))
    (mxsub group group A) (mxsub group others (j_cov prior)) (mxsub others others A)
    (rowsub others (m_mean truth)) (j_mean out) (j_cov out).
Proof. move=> h1 h2 A h3 h4; exact: held_out_conditional. Qed.
Print Assumptions C36_leave_one_group_out.

Theorem C36_positive_definite (R : realFieldType) n k m (group : 'I_k -> 'I_n) (others : 'I_m -> 'I_n)
    (prior : joint R n) (truth : marginal R n) :
  complementary group others ->
  let A := j_cov prior + diag_mx (m_var truth)^T in
  pd A ->
  let out := leave_one_group_out (@held_out_joint R) prior truth group in
  conditional (rowsub group (j_mean prior)) (rowsub others (j_mean prior))
    (mxsub group group A) (mxsub group others (j_cov prior)) (mxsub others others A)
    (rowsub others (m_mean truth)) (j_mean out) (j_cov out) /\ pd (j_cov out).
Proof. exact: held_out_pd. Qed.
Print Assumptions C36_positive_definite.

(* the three kinds of result agree *)
Theorem C36_types (F : fieldType) n k (group : 'I_k -> 'I_n) (prior : joint F n) (truth : marginal F n) :
  let joint := leave_one_group_out (@held_out_joint F) prior truth group in
  leave_one_group_out (@held_out_marginal F) prior truth group = Marginal (j_mean joint) (\col_i j_cov joint i i) /\
  leave_one_group_out (@held_out_mean F) prior truth group = j_mean joint.
Proof. by []. Qed.
Print Assumptions C36_types.

(* a Gaussian process cross validates as if refit without the group and asked for measurements
   of the held out features, with the noise of the held out targets added *)
Theorem C36_gp_refit (F : fieldType) X (cov : feature X -> feature X -> F) mu n k m
    (group : 'I_k -> 'I_n) (others : 'I_m -> 'I_n) (xs : 'I_n -> feature X) (t : marginal F n) :
  (forall x y, cov x y = cov y x) ->
  complementary group others ->
  kmat cov xs t \in unitmx -> kmat cov (xs \o others) (marginal_subset others t) \in unitmx ->
  (forall a b, cov (as_measurement (xs (others b))) (as_measurement (xs (group a))) = cov (xs (others b)) (as_measurement (xs (group a)))) ->
  let out := gp_cross_validated cov mu (@held_out_joint F) xs t group in
  let refit := predict_joint cov mu (fit cov mu (xs \o others) (marginal_subset others t)) (fun a => as_measurement (xs (group a))) in
  j_mean out = j_mean refit /\ j_cov out = j_cov refit + diag_mx (rowsub group (m_var t))^T.
Proof. move=> h; exact: gp_cross_validated_refit. Qed.
Print Assumptions C36_gp_refit.

(* mean predictions are those of refitting and predicting the held out features *)
Theorem C36_gp_means (F : fieldType) X (cov : feature X -> feature X -> F) mu n k m
    (group : 'I_k -> 'I_n) (others : 'I_m -> 'I_n) (xs : 'I_n -> feature X) (t : marginal F n) :
  (forall x y, cov x y = cov y x) ->
  complementary group others ->
  kmat cov xs t \in unitmx -> kmat cov (xs \o others) (marginal_subset others t) \in unitmx ->
  (forall a b, cov (as_measurement (xs (others b))) (as_measurement (xs (group a))) = cov (xs (others b)) (xs (group a)) /\
               cov (xs (others b)) (as_measurement (xs (group a))) = cov (xs (others b)) (xs (group a))) ->
  (forall a, mu (as_measurement (xs (group a))) = mu (xs (group a))) ->
  gp_cross_validated cov mu (@held_out_mean F) xs t group =
  predict_mean cov mu (fit cov mu (xs \o others) (marginal_subset others t)) (xs \o group).
Proof. exact: gp_cross_validated_means. Qed.
Print Assumptions C36_gp_means.

(* the variances are not: they include the noise of the held out targets *)
Theorem C36_gp_marginals_refuted :
  exists (xs : 'I_2 -> feature bool) (t : marginal rat_fieldType 2) (group others : 'I_1 -> 'I_2),
  complementary group others /\ pd (kmat ex_cov xs t) /\
  gp_cross_validated ex_cov ex_mu (@held_out_marginal rat_fieldType) xs t group <>
  predict_marginal ex_cov ex_mu (fit ex_cov ex_mu (xs \o others) (marginal_subset others t)) (xs \o group).
Proof. exact: gp_marginals_refuted. Qed.
Print Assumptions C36_gp_marginals_refuted.

Example C36_example : complementary (fun _ : 'I_1 => ord0 : 'I_3) (lift (ord0 : 'I_3)) /\ pd (j_cov ex_prior + diag_mx (m_var ex_truth)^T).
Proof. exact: ex_logo. Qed.

(* ---- C40: data never increases the variance ---- *)
Theorem C40_posterior_psd (R : realFieldType) X (cov : feature X -> feature X -> R) mu n p
    (xs : 'I_n -> feature X) t (zs : 'I_p -> feature X) :
  (forall x y, cov x y = cov y x) ->
  (forall k (us : 'I_k -> feature X), psd (cov_mx cov us us)) ->
  (forall i, 0 <= m_var t i 0) ->
  (forall i j, cov (as_measurement (xs i)) (zs j) = cov (xs i) (zs j)) ->
  kmat cov xs t \in unitmx ->
  psd (j_cov (predict_joint cov mu (fit cov mu xs t) zs)).
Proof. move=> h; exact: posterior_psd. Qed.
Print Assumptions C40_posterior_psd.

Theorem C40_less_than_prior (R : realFieldType) X (cov : feature X -> feature X -> R) mu n p
    (xs : 'I_n -> feature X) t (zs : 'I_p -> feature X) :
  pd (kmat cov xs t) ->
  psd (cov_mx cov zs zs - j_cov (predict_joint cov mu (fit cov mu xs t) zs)) /\
  forall j, m_var (predict_marginal cov mu (fit cov mu xs t) zs) j 0 <= cov (zs j) (zs j).
Proof. by move=> h; split; [exact: variance_shrinks|exact: marginal_le]. Qed.
Print Assumptions C40_less_than_prior.

Theorem C40_update_shrinks (R : realFieldType) X (cov : feature X -> feature X -> R) mu n m p
    (xs : 'I_n -> feature X) t (ys : 'I_m -> feature X) u (zs : 'I_p -> feature X) :
  (forall x y, cov x y = cov y x) ->
  agree_new cov mu xs ys -> pd (kmat cov (concat_f xs ys) (concat_t t u)) ->
  let before := fit cov mu xs t in
  let after := update cov mu before ys u in
  psd (j_cov (predict_joint cov mu before zs) - j_cov (predict_joint cov mu after zs)) /\
  forall j, m_var (predict_marginal cov mu after zs) j 0 <= m_var (predict_marginal cov mu before zs) j 0.
Proof. exact: update_shrinks_marginal. Qed.
Print Assumptions C40_update_shrinks.

Example C40_example : (forall k (us : 'I_k -> feature bool), psd (cov_mx ex_cov us us)) /\ (forall i, 0 <= m_var ex_t i 0) /\
  pd (kmat ex_cov ex_xs ex_t) /\ pd (kmat ex_cov (concat_f ex_xs ex_ys) (concat_t ex_t ex_t)).
Proof. exact: ex_psd. Qed.

(* ---- C41: interpolation and linearity ---- *)
Theorem C41_interpolates (F : fieldType) X (cov : feature X -> feature X -> F) mu n (xs : 'I_n -> feature X) (y : 'cV[F]_n) :
  (forall x y, cov x y = cov y x) ->
  (forall i j, cov (as_measurement (xs i)) (as_measurement (xs j)) = cov (xs i) (xs j)) ->
  (forall i, mu (as_measurement (xs i)) = mu (xs i)) ->
  cov_mx cov xs xs \in unitmx ->
  predict_joint cov mu (fit cov mu xs (Marginal y 0)) xs = Joint y 0.
Proof. move=> h; exact: interpolates. Qed.
Print Assumptions C41_interpolates.

Theorem C41_affine (F : fieldType) X (cov : feature X -> feature X -> F) mu n p (xs : 'I_n -> feature X)
    (y z v : 'cV[F]_n) a (zs : 'I_p -> feature X) :
  let pred targets := predict_joint cov mu (fit cov mu xs (Marginal targets v)) zs in
  j_mean (pred (a *: y + (1 - a) *: z)) = a *: j_mean (pred y) + (1 - a) *: j_mean (pred z) /\
  j_cov (pred y) = j_cov (pred z).
Proof. exact: affine_targets. Qed.
Print Assumptions C41_affine.

Theorem C41_mean_function (F : fieldType) X (cov : feature X -> feature X -> F) mu n p (xs : 'I_n -> feature X)
    (y v : 'cV[F]_n) (zs : 'I_p -> feature X) :
  let with_mean := predict_joint cov mu (fit cov mu xs (Marginal y v)) zs in
  let residuals := y - \col_i mu (as_measurement (xs i)) in
  let zero_mean := predict_joint cov (fun _ => 0) (fit cov (fun _ => 0) xs (Marginal residuals v)) zs in
  j_mean with_mean = \col_i mu (zs i) + j_mean zero_mean /\ j_cov with_mean = j_cov zero_mean.
Proof. exact: mean_function_equivariant. Qed.
Print Assumptions C41_mean_function.

Theorem C41_order_irrelevant (F : fieldType) X (cov : feature X -> feature X -> F) mu n p (xs : 'I_n -> feature X) t
    (order : 'I_n -> 'I_n) (zs : 'I_p -> feature X) :
  bijective order -> kmat cov xs t \in unitmx ->
  predict_joint cov mu (fit cov mu (xs \o order) (marginal_subset order t)) zs =
  predict_joint cov mu (fit cov mu xs t) zs.
Proof. exact: permuted_data. Qed.
Print Assumptions C41_order_irrelevant.

Theorem C41_no_data (F : fieldType) X (cov : feature X -> feature X -> F) mu p (xs : 'I_0 -> feature X) t (zs : 'I_p -> feature X) :
  predict_joint cov mu (fit cov mu xs t) zs = Joint (\col_i mu (zs i)) (\matrix_(i, j) cov (zs i) (zs j)).
Proof. exact: no_data. Qed.
Print Assumptions C41_no_data.

Example C41_example : cov_mx ex_cov (fun i : 'I_1 => Bare true) (fun i : 'I_1 => Bare true) \in unitmx /\
  forall x y, ex_cov (as_measurement x) (as_measurement y) = ex_cov x y.
Proof. exact: ex_interp. Qed.

(* ---- C42: ConditionalGaussian ---- *)
Theorem C42_conditional (F : fieldType) n k p (prior : joint F n) (truth : marginal F n)
    (fit_indices : 'I_k -> 'I_n) (predict_indices : 'I_p -> 'I_n) :
  symmetric (j_cov prior) ->
  let Sgg := mxsub fit_indices fit_indices (j_cov prior) + diag_mx (rowsub fit_indices (m_var truth))^T in
  Sgg \in unitmx ->
  let out := conditional_joint prior truth fit_indices predict_indices in
  conditional (rowsub predict_indices (j_mean prior)) (rowsub fit_indices (j_mean prior))
    (mxsub predict_indices predict_indices (j_cov prior)) (mxsub predict_indices fit_indices (j_cov prior)) Sgg
    (rowsub fit_indices (m_mean truth)) (j_mean out) (j_cov out).
Proof. exact: conditional_gaussian_correct. Qed.
Print Assumptions C42_conditional.

Theorem C42_types (F : fieldType) n k p (prior : joint F n) (truth : marginal F n)
    (fit_indices : 'I_k -> 'I_n) (predict_indices : 'I_p -> 'I_n) :
  let joint := conditional_joint prior truth fit_indices predict_indices in
  conditional_marginal prior truth fit_indices predict_indices = Marginal (j_mean joint) (\col_i j_cov joint i i) /\
  conditional_mean prior truth fit_indices predict_indices = j_mean joint.
Proof. exact: conditional_types. Qed.
Print Assumptions C42_types.

(* on a covariance function without measurement terms it is Gaussian process regression *)
Theorem C42_gaussian_process (F : fieldType) X (cov : feature X -> feature X -> F) mu n k p (xs : 'I_n -> feature X) (t : marginal F n)
    (fit_indices : 'I_k -> 'I_n) (predict_indices : 'I_p -> 'I_n) :
  (forall x y, cov (as_measurement x) (as_measurement y) = cov x y) -> (forall x, mu (as_measurement x) = mu x) ->
  conditional_joint (prior cov mu xs) t fit_indices predict_indices =
  predict_joint cov mu (fit cov mu (xs \o fit_indices) (marginal_subset fit_indices t)) (xs \o predict_indices).
Proof. exact: conditional_is_gp. Qed.
Print Assumptions C42_gaussian_process.

(* and leaving a group out is conditioning on the rest, plus the noise of the group *)
Theorem C42_leave_one_group_out (F : fieldType) n k m (group : 'I_k -> 'I_n) (others : 'I_m -> 'I_n)
    (prior : joint F n) (truth : marginal F n) :
  symmetric (j_cov prior) -> complementary group others ->
  let A := j_cov prior + diag_mx (m_var truth)^T in
  A \in unitmx -> mxsub others others A \in unitmx ->
  let held_out := leave_one_group_out (@held_out_joint F) prior truth group in
  let conditioned := conditional_joint prior truth others group in
  j_mean held_out = j_mean conditioned /\ j_cov held_out = j_cov conditioned + diag_mx (rowsub group (m_var truth))^T.
Proof. exact: held_out_is_conditional. Qed.
Print Assumptions C42_leave_one_group_out.

Example C42_example : symmetric (j_cov ex_prior) /\
  mxsub (lift (ord0 : 'I_3)) (lift ord0) (j_cov ex_prior) + diag_mx (rowsub (lift (ord0 : 'I_3)) (m_var ex_truth))^T \in unitmx.
Proof. exact: ex_conditional. Qed.

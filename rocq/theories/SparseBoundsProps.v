(* C102: what observations do to the predictions of a sparse Gaussian process. Exact real arithmetic; the factorizations are any
   that satisfy the contracts of SparseGpSpec.v. A history is a fit followed by any number of updates (SparseGpSpec.v). *)
From Coq Require Import Reals.
From mathcomp Require Import all_ssreflect all_algebra all_fingroup.
From Verif Require Import RealStruct GpModel GpSpec LdltModel LdltSpec SparseGpModel SparseGpSpec PsdProofs SparseGpProofs3 SparseGpExamples SparseBoundsProofs SparseBoundsExamples.
Set Implicit Arguments.
Unset Strict Implicit.
Unset Printing Implicit Defensive.
Import Order.TTheory GRing.Theory Num.Theory.
Local Open Scope ring_scope.

Section C102.
Variable X : Type.
Variable cov : feature X -> feature X -> R.
Variable mean_function : feature X -> R.
Variable compute_ldlt : forall n, 'M[R]_n -> ldlt_state n.
Variable compute_qr : forall m n, 'M[R]_(m, n) -> qr_result m n.
Variables measurement_nugget inducing_nugget sparse_R_nugget : R.
Hypothesis hldlt : ldlt_contract compute_ldlt.
Hypothesis hqr : qr_contract compute_qr.
Hypothesis hk : psd_kernel cov.
Hypothesis hnu : 0 < inducing_nugget.
Variables (k : nat) (u : 'I_k -> feature X).
Local Notation history_ := (history cov compute_ldlt compute_qr measurement_nugget inducing_nugget sparse_R_nugget u).
Local Notation update_ groups f ys s :=
  (sparse_update_impl cov compute_ldlt compute_qr measurement_nugget inducing_nugget sparse_R_nugget groups f ys s).
Local Notation predict := (sparse_predict_joint cov mean_function).
Local Notation predict_marginal := (sparse_predict_marginal cov mean_function).

(* A prediction is never less certain than the prior, and never more than the inducing points allow: what they do not explain of
   the prior covariance remains. *)
Theorem C102_between n (xs : 'I_n -> feature X) t groups f p (zs : 'I_p -> feature X) : history_ xs t groups f ->
  let unexplained := cov_mx cov zs zs - through cov inducing_nugget u zs zs in
  psd (cov_mx cov zs zs - j_cov (predict f zs)) /\ psd (j_cov (predict f zs) - unexplained) /\ psd unexplained /\
  forall j, unexplained j j <= m_var (predict_marginal f zs) j 0 <= cov (zs j) (zs j).
Proof.
move=> H unexplained; have h1 := prior_minus mean_function hldlt hqr hk hnu H zs.
have h2 := not_below mean_function hldlt hqr hk hnu H zs.
split; first exact: h1. split; first exact: h2. split; first exact: (SparseGpProofs2.unexplained_psd hk hnu).
move=> j; have [-> _] := predict_agree_sparse cov mean_function f zs; rewrite [m_var _]/= [in X in _ <= X <= _]mxE.
have := psd_diag_ge0 j h1; have := psd_diag_ge0 j h2.
have E2 (A B : 'M[R]_p) : (A - B) j j = A j j - B j j by rewrite !mxE.
rewrite E2 subr_ge0 => -> /=; by rewrite E2 subr_ge0 [cov_mx _ _ _ _ _]mxE.
Qed.

(* Further observations never make a prediction less certain. *)
Theorem C102_update_shrinks n m (xs : 'I_n -> feature X) t groups f (ys : 'I_m -> feature X) s groups' p (zs : 'I_p -> feature X) :
  history_ xs t groups f -> groups_partition groups' -> (forall i, 0 < m_var s i 0 + measurement_nugget) ->
  let after := update_ groups' f ys s in
  psd (j_cov (predict f zs) - j_cov (predict after zs)) /\
  forall j, m_var (predict_marginal after zs) j 0 <= m_var (predict_marginal f zs) j 0.
Proof.
move=> H hp hv after; have h := shrinks mean_function hldlt hqr hk hnu ys zs H hp hv.
split; first exact: h.
move=> j; have [-> _] := predict_agree_sparse cov mean_function f zs; have [-> _] := predict_agree_sparse cov mean_function after zs.
rewrite [m_var _]/= [m_var (Marginal _ _)]/= [X in X <= _]mxE [X in _ <= X]mxE -subr_ge0.
have := psd_diag_ge0 j h.
have E2 (A B : 'M[R]_p) : (A - B) j j = A j j - B j j by rewrite !mxE.
by rewrite E2.
Qed.

(* How certain it is does not depend on the values that were observed, and the mean is an affine function of them. *)
Theorem C102_affine n (xs : 'I_n -> feature X) (v y z : 'cV[R]_n) (a : R) groups fy fz fa p (zs : 'I_p -> feature X) :
  history_ xs (Marginal (F := R_fieldType) y v) groups fy -> history_ xs (Marginal (F := R_fieldType) z v) groups fz ->
  history_ xs (Marginal (F := R_fieldType) (a *: y + (1 - a) *: z) v) groups fa ->
  j_mean (predict fa zs) = a *: j_mean (predict fy zs) + (1 - a) *: j_mean (predict fz zs) /\
  j_cov (predict fa zs) = j_cov (predict fy zs).
Proof. exact: affine. Qed.

(* Neither the order of the observations nor how they are divided into a fit and updates matters, as long as two of them are in
   the same group in one history exactly when they are in the other. *)
Theorem C102_order n (xs : 'I_n -> feature X) t groups f groups' f' (order : 'I_n -> 'I_n) p (zs : 'I_p -> feature X) :
  bijective order -> (forall i j, same_group groups' i j = same_group groups (order i) (order j)) ->
  history_ xs t groups f -> history_ (xs \o order) (marginal_subset order t) groups' f' ->
  predict f' zs = predict f zs.
Proof. exact: reordering. Qed.

(* Without observations it predicts the prior. *)
Theorem C102_no_data (xs : 'I_0 -> feature X) t groups f p (zs : 'I_p -> feature X) : history_ xs t groups f ->
  predict f zs = Joint (F := R_fieldType) (\col_i mean_function (zs i)) (\matrix_(i, j) cov (zs i) (zs j)).
Proof. exact: nothing. Qed.
End C102.
Print Assumptions C102_between.
Print Assumptions C102_update_shrinks.
Print Assumptions C102_affine.
Print Assumptions C102_order.
Print Assumptions C102_no_data.

(* finding: a sparse Gaussian process can be more certain than the exact one it approximates. Two observations of one feature in
   different groups: what the inducing point does not explain of them is taken to be independent, so that it averages out *)
Theorem C102_overconfident_refuted (compute_ldlt : forall n, 'M[R]_n -> ldlt_state n) (compute_qr : forall m n, 'M[R]_(m, n) -> qr_result m n) :
  ldlt_contract compute_ldlt -> qr_contract compute_qr ->
  exists X (cov : feature X -> feature X -> R) (nugget : R) k (u : 'I_k -> feature X) n (xs : 'I_n -> feature X) t groups (z : 'I_1 -> feature X),
  psd_kernel cov /\ (forall x y, cov (as_measurement x) y = cov x y) /\ 0 < nugget /\ groups_partition groups /\
  (forall i, 0 < m_var t i 0) /\
  j_cov (sparse_predict_joint cov (fun _ => 0%R) (sparse_fit_impl cov compute_ldlt compute_qr 0%R nugget groups u xs t) z) 0 0 <
  j_cov (predict_joint cov (fun _ => 0%R) (fit cov (fun _ => 0%R) xs t) z) 0 0.
Proof.
move=> hl hq; exists bool, shared, (7%:R)%R, 1%N, pt, 2%N, twice, twice_t, apart, pt.
split; first exact: shared_psd. split; first by case.
split; first by rewrite ltr0n. split; first exact: apart_partition.
split; first by move=> i; have := twice_var i; rewrite addr0.
exact: more_certain.
Qed.
Print Assumptions C102_overconfident_refuted.

(* three observations in two groups, an update with three more, and the three in the opposite order *)
Example C102_meets :
  ldlt_contract plain_ldlt /\ qr_contract plain_qr /\ psd_kernel linear /\
  history linear plain_ldlt plain_qr 1 1 1 ex_u ex_xs ex_t ex_groups (sparse_fit_impl linear plain_ldlt plain_qr 1 1 ex_groups ex_u ex_xs ex_t) /\
  groups_partition ex_groups /\ (forall i, 0 < m_var ex_t i 0 + 1) /\
  bijective (@rev_ord 3) /\ (forall i j, same_group ex_opposite i j = same_group ex_groups (rev_ord i) (rev_ord j)) /\
  history linear plain_ldlt plain_qr 1 1 1 ex_u (ex_xs \o @rev_ord 3) (marginal_subset (@rev_ord 3) ex_t) ex_opposite
    (sparse_fit_impl linear plain_ldlt plain_qr 1 1 ex_opposite ex_u (ex_xs \o @rev_ord 3) (marginal_subset (@rev_ord 3) ex_t)).
Proof.
split; first exact: plain_ldlt_contract. split; first exact: plain_qr_contract. split; first exact: linear_psd.
split; first by apply: history_fit; [exact: ex_partition | exact: ex_var].
split; first exact: ex_partition. split; first exact: ex_var.
split; first by exists (@rev_ord 3); exact: rev_ordK.
split; first exact: opposite_same.
by apply: history_fit; [exact: opposite_partition | exact: opposite_var].
Qed.

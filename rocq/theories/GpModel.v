(* Gaussian process regression: include/albatross/src/models/gp.hpp,
   evaluation/cross_validation_utils.hpp, linalg/block_symmetric.hpp,
   covariance_functions/representations.hpp, models/conditional_gaussian.hpp.
   Doubles are the elements of a field; vectors and matrices have their dimensions in
   their types, so size assertions are not modelled. An Eigen LDLT is the matrix it was
   computed from, and its solve is exact (its factors are in LdltModel.v). Vectors of
   features are functions from indices. *)
From mathcomp Require Import all_ssreflect all_algebra.
Set Implicit Arguments.
Unset Strict Implicit.
Unset Printing Implicit Defensive.
Import GRing.Theory.
Local Open Scope ring_scope.

Section Gp.
Variable F : fieldType.

(* A CovarianceRepresentation is what its solve does to a right hand side. *)
Definition solver (n : nat) := forall p, 'M[F]_(n, p) -> 'M[F]_(n, p).

(* Eigen::LDLT(A).solve(rhs), for invertible A *)
Definition ldlt n (A : 'M[F]_n) : solver n := fun p rhs => invmx A *m rhs.

(* covariance_functions/representations.hpp:65-99 ExplainedCovariance::solve *)
Definition explained n (outer_ldlt : solver n) (inner : 'M[F]_n) : solver n :=
  fun p rhs => outer_ldlt p (inner *m outer_ldlt p rhs).
(* covariance_functions/representations.hpp:104-121 DirectInverse::solve *)
Definition direct_inverse n (inverse : 'M[F]_n) : solver n := fun p rhs => inverse *m rhs.

(* linalg/block_symmetric.hpp:49-76 and its solve, 87-112 *)
Record block_symmetric n m := BlockSymmetric { bs_A : solver n; bs_Ai_B : 'M[F]_(n, m); bs_S : 'M[F]_m }.
Definition build_block_symmetric_S n m (A : solver n) (B : 'M[F]_(n, m)) (S : 'M[F]_m) : block_symmetric n m :=
  BlockSymmetric A (A m B) S.
Definition build_block_symmetric_C n m (A : solver n) (B : 'M[F]_(n, m)) (C : 'M[F]_m) : block_symmetric n m :=
  let Ai_B := A m B in BlockSymmetric A Ai_B (C - B^T *m Ai_B).
Definition block_symmetric_solve n m (X : block_symmetric n m) : solver (n + m) := fun p rhs =>
  let rhs_a := usubmx rhs in
  let rhs_b := dsubmx rhs in
  let Bt_Ai_rhs := (bs_Ai_B X)^T *m rhs_a in
  let Si_Bt_Ai_rhs := ldlt (bs_S X) Bt_Ai_rhs in
  let Si_rhs_b := ldlt (bs_S X) rhs_b in
  col_mx (bs_A X rhs_a + bs_Ai_B X *m (Si_Bt_Ai_rhs - Si_rhs_b)) (Si_rhs_b - Si_Bt_Ai_rhs).

(* core/distribution.hpp: MarginalDistribution (diagonal covariance) and JointDistribution *)
Record marginal n := Marginal { m_mean : 'cV[F]_n; m_var : 'cV[F]_n }.
Record joint n := Joint { j_mean : 'cV[F]_n; j_cov : 'M[F]_n }.
(* adding the DiagonalMatrix of a marginal distribution to a matrix *)
Definition diag n (v : 'cV[F]_n) : 'M[F]_n := diag_mx v^T.
(* distribution.hpp marginal(), subset() *)
Definition joint_marginal n (d : joint n) : marginal n := Marginal (j_mean d) (\col_i j_cov d i i).
Definition subset_v n k (idx : 'I_k -> 'I_n) (v : 'cV[F]_n) : 'cV[F]_k := rowsub idx v.
Definition subset_m n k l (idx : 'I_k -> 'I_n) (idx' : 'I_l -> 'I_n) (A : 'M[F]_n) : 'M[F]_(k, l) := mxsub idx idx' A.
Definition joint_subset n k (idx : 'I_k -> 'I_n) (d : joint n) : joint k :=
  Joint (subset_v idx (j_mean d)) (subset_m idx idx (j_cov d)).
Definition marginal_subset n k (idx : 'I_k -> 'I_n) (d : marginal n) : marginal k :=
  Marginal (subset_v idx (m_mean d)) (subset_v idx (m_var d)).

(* models/gp.hpp:82-113 *)
Definition gp_mean_prediction n p (cross_cov : 'M[F]_(n, p)) (information : 'cV[F]_n) : 'cV[F]_p :=
  cross_cov^T *m information.
Definition gp_marginal_prediction n p (cross_cov : 'M[F]_(n, p)) (prior_variance : 'cV[F]_p)
    (information : 'cV[F]_n) (train_covariance : solver n) : marginal p :=
  let pred := gp_mean_prediction cross_cov information in
  let explained_ := train_covariance p cross_cov in
  let explained_variance := \col_j \sum_i explained_ i j * cross_cov i j in
  Marginal pred (prior_variance - explained_variance).
Definition gp_joint_prediction n p (cross_cov : 'M[F]_(n, p)) (prior_cov : 'M[F]_p)
    (information : 'cV[F]_n) (train_covariance : solver n) : joint p :=
  let pred := gp_mean_prediction cross_cov information in
  let explained_cov := cross_cov^T *m train_covariance p cross_cov in
  Joint pred (prior_cov - explained_cov).

(* ---- the model ---- *)
Variable X : Type.                                   (* feature values *)
(* a feature, or one wrapped as a measurement: covariance_functions/measurement.hpp:18-44 *)
Inductive feature := Bare (x : X) | Measured (x : X).
(* as_measurement(s), measurement.hpp:36-68. Simplification: the features of this model are not measurements
   of measurements, a measurement of a measurement is identified with the measurement (CallerModel.v has
   nested ones, which some sums treat differently: C55_double_measurement_refuted). *)
Definition as_measurement (f : feature) : feature :=
  match f with Bare x => Measured x | Measured x => Measured x end.

Variable covariance_function : feature -> feature -> F.
Variable mean_function : feature -> F.

(* covariance_function_(xs), covariance_function_(xs, ys), mean_function_(xs). The one argument
   version evaluates one triangle and mirrors it (C13), which is this matrix for a
   symmetric covariance function. *)
Definition cov_mx n p (xs : 'I_n -> feature) (ys : 'I_p -> feature) : 'M[F]_(n, p) :=
  \matrix_(i, j) covariance_function (xs i) (ys j).
Definition mean_v n (xs : 'I_n -> feature) : 'cV[F]_n := \col_i mean_function (xs i).

(* Fit<GPFit>, models/gp.hpp:42-77 *)
Record gp_fit n := GpFit { train_features : 'I_n -> feature; train_covariance : solver n; information : 'cV[F]_n }.

(* models/gp.hpp:60-69 *)
Definition make_fit n (features : 'I_n -> feature) (train_cov : 'M[F]_n) (targets : marginal n) : gp_fit n :=
  let cov := train_cov + diag (m_var targets) in
  GpFit features (ldlt cov) (ldlt cov (m_mean targets)).

(* GaussianProcessBase::_fit_impl, models/gp.hpp:281-294 *)
Definition fit n (features : 'I_n -> feature) (targets : marginal n) : gp_fit n :=
  let measurement_features := as_measurement \o features in
  let cov := cov_mx measurement_features measurement_features in
  let zero_mean_targets := Marginal (m_mean targets - mean_v measurement_features) (m_var targets) in
  make_fit features cov zero_mean_targets.

(* _predict_impl, models/gp.hpp:305-367 *)
Definition predict_joint n p (gp : gp_fit n) (features : 'I_p -> feature) : joint p :=
  let cross_cov := cov_mx (train_features gp) features in
  let prior_cov := cov_mx features features in
  let pred := gp_joint_prediction cross_cov prior_cov (information gp) (train_covariance gp) in
  Joint (j_mean pred + mean_v features) (j_cov pred).
Definition predict_marginal n p (gp : gp_fit n) (features : 'I_p -> feature) : marginal p :=
  let cross_cov := cov_mx (train_features gp) features in
  let prior_variance := \col_i covariance_function (features i) (features i) in
  let pred := gp_marginal_prediction cross_cov prior_variance (information gp) (train_covariance gp) in
  Marginal (m_mean pred + mean_v features) (m_var pred).
Definition predict_mean n p (gp : gp_fit n) (features : 'I_p -> feature) : 'cV[F]_p :=
  let cross_cov := cov_mx (train_features gp) features in
  gp_mean_prediction cross_cov (information gp) + mean_v features.

(* concatenate, core/concatenate.hpp:65-139, for features and targets (core/dataset.hpp:117-145) *)
Definition concat_f n m (xs : 'I_n -> feature) (ys : 'I_m -> feature) : 'I_(n + m) -> feature :=
  fun i => match split i with inl i => xs i | inr j => ys j end.

Definition concat_t n m (t : marginal n) (u : marginal m) : marginal (n + m) :=
  Marginal (col_mx (m_mean t) (m_mean u)) (col_mx (m_var t) (m_var u)).

(* _update_impl, models/gp.hpp:384-414 *)
Definition update n m (fit_ : gp_fit n) (features : 'I_m -> feature) (targets : marginal m) : gp_fit (n + m) :=
  let new_features := concat_f (train_features fit_) features in
  let pred := predict_joint fit_ features in
  let delta := m_mean targets - j_mean pred in
  let S := j_cov pred + diag (m_var targets) in
  let cross := cov_mx (train_features fit_) features in
  let new_covariance := build_block_symmetric_S (train_covariance fit_) cross S in
  let Si_delta := ldlt S delta in
  let new_information := col_mx (information fit_ - bs_Ai_B new_covariance *m Si_delta) Si_delta in
  GpFit new_features (block_symmetric_solve new_covariance) new_information.

(* gp_fit_from_prediction, models/gp.hpp:139-153; fit_from_prediction, 236-245 *)
Definition gp_fit_from_prediction n (features : 'I_n -> feature) (prior : 'M[F]_n) (prediction : joint n) : gp_fit n :=
  GpFit features (explained (ldlt prior) (prior - j_cov prediction)) (ldlt prior (j_mean prediction)).
Definition fit_from_prediction n (features : 'I_n -> feature) (prediction : joint n) : gp_fit n :=
  let zero_mean_prediction := Joint (j_mean prediction - mean_v features) (j_cov prediction) in
  gp_fit_from_prediction features (cov_mx features features) zero_mean_prediction.

(* prior, models/gp.hpp:419-424 *)
Definition prior n (features : 'I_n -> feature) : joint n :=
  let measurement_features := as_measurement \o features in
  Joint (mean_v measurement_features) (cov_mx measurement_features measurement_features).

(* what log_likelihood evaluates, models/gp.hpp:440-450: the deviation and covariance given
   to negative_log_likelihood *)
Definition log_likelihood_arguments n (features : 'I_n -> feature) (targets : marginal n) : 'cV[F]_n * 'M[F]_n :=
  let measurement_features := as_measurement \o features in
  (m_mean targets - mean_v measurement_features, cov_mx measurement_features measurement_features).

(* ---- leave one (group) out: evaluation/cross_validation_utils.hpp:132-251 ---- *)

(* covariance_ldlt.inverse_diagonal(); see LdltModel.v *)
Definition inverse_diagonal n (A : 'M[F]_n) : 'cV[F]_n := \col_i invmx A i i.
(* one block of covariance.inverse_blocks(groups); see LdltModel.v *)
Definition inverse_block n k (idx : 'I_k -> 'I_n) (A : 'M[F]_n) : 'M[F]_k := mxsub idx idx (invmx A).

(* 132-144 *)
Definition leave_one_out_conditional_variance n (covariance : 'M[F]_n) : 'cV[F]_n :=
  map_mx (@GRing.inv F) (inverse_diagonal covariance).
(* 146-163 *)
Definition leave_one_out_conditional n (prior : joint n) (truth : marginal n) : marginal n :=
  let covariance := j_cov prior + diag (m_var truth) in
  let loo_variance := leave_one_out_conditional_variance covariance in
  let deviation := m_mean truth - j_mean prior in
  let loo_mean := ldlt covariance deviation in
  let loo_mean := \col_i (loo_mean i 0 * loo_variance i 0) in
  let loo_mean := m_mean truth - loo_mean in
  Marginal loo_mean loo_variance.

(* 172-197 *)
Definition held_out_mean k (inverse_block : 'M[F]_k) (y v : 'cV[F]_k) : 'cV[F]_k :=
  y - ldlt inverse_block v.
Definition held_out_marginal k (inverse_block : 'M[F]_k) (y v : 'cV[F]_k) : marginal k :=
  Marginal (y - ldlt inverse_block v) (inverse_diagonal inverse_block).
Definition held_out_joint k (inverse_block : 'M[F]_k) (y v : 'cV[F]_k) : joint k :=
  let A_inv := invmx inverse_block in Joint (y - A_inv *m v) A_inv.

(* held_out_predictions for one group, 199-232 *)
Definition held_out T (held_out_prediction : forall k, 'M[F]_k -> 'cV[F]_k -> 'cV[F]_k -> T k)
    n k (covariance : 'M[F]_n) (target_mean information_ : 'cV[F]_n) (indices : 'I_k -> 'I_n) : T k :=
  held_out_prediction k (inverse_block indices covariance) (subset_v indices target_mean) (subset_v indices information_).

(* leave_one_group_out_conditional for one group, 234-251 *)
Definition leave_one_group_out T (held_out_prediction : forall k, 'M[F]_k -> 'cV[F]_k -> 'cV[F]_k -> T k)
    n k (prior : joint n) (truth : marginal n) (indices : 'I_k -> 'I_n) : T k :=
  let covariance := j_cov prior + diag (m_var truth) in
  let deviation := m_mean truth - j_mean prior in
  let information_ := ldlt covariance deviation in
  held_out held_out_prediction covariance (m_mean truth) information_ indices.

(* gp_cross_validated_predictions for one group, models/gp.hpp:463-483 *)
Definition gp_cross_validated T (held_out_prediction : forall k, 'M[F]_k -> 'cV[F]_k -> 'cV[F]_k -> T k)
    n k (features : 'I_n -> feature) (targets : marginal n) (indices : 'I_k -> 'I_n) : T k :=
  let measurement_features := as_measurement \o features in
  let train_cov := cov_mx measurement_features measurement_features + diag (m_var targets) in
  held_out held_out_prediction train_cov (m_mean targets) (information (fit features targets)) indices.

(* ---- models/conditional_gaussian.hpp:27-104 ---- *)
Definition conditional_fit n k (prior_ : joint n) (truth_ : marginal n) (indices : 'I_k -> 'I_n) : 'M[F]_k * 'cV[F]_k :=
  let train_prior := joint_subset indices prior_ in
  let train_truth := marginal_subset indices truth_ in
  let truth_minus_prior := m_mean train_truth - j_mean train_prior in
  let cov := j_cov train_prior + diag (m_var train_truth) in
  (cov, ldlt cov truth_minus_prior).
Definition conditional_joint n k p (prior_ : joint n) (truth_ : marginal n) (indices : 'I_k -> 'I_n) (predict_indices : 'I_p -> 'I_n) : joint p :=
  let fit_ := conditional_fit prior_ truth_ indices in
  let predict_prior := joint_subset predict_indices prior_ in
  let cross := subset_m indices predict_indices (j_cov prior_) in
  let pred := gp_joint_prediction cross (j_cov predict_prior) fit_.2 (ldlt fit_.1) in
  Joint (j_mean pred + j_mean predict_prior) (j_cov pred).
Definition conditional_marginal n k p (prior_ : joint n) (truth_ : marginal n) (indices : 'I_k -> 'I_n) (predict_indices : 'I_p -> 'I_n) : marginal p :=
  let fit_ := conditional_fit prior_ truth_ indices in
  let predict_prior := marginal_subset predict_indices (joint_marginal prior_) in
  let cross := subset_m indices predict_indices (j_cov prior_) in
  let pred := gp_marginal_prediction cross (m_var predict_prior) fit_.2 (ldlt fit_.1) in
  Marginal (m_mean pred + m_mean predict_prior) (m_var pred).
Definition conditional_mean n k p (prior_ : joint n) (truth_ : marginal n) (indices : 'I_k -> 'I_n) (predict_indices : 'I_p -> 'I_n) : 'cV[F]_p :=
  let fit_ := conditional_fit prior_ truth_ indices in
  let cross := subset_m indices predict_indices (j_cov prior_) in
  gp_mean_prediction cross fit_.2 + subset_v predict_indices (j_mean prior_).

End Gp.
Arguments train_covariance {F X n} g p rhs.
Arguments bs_A {F n m} b p rhs.

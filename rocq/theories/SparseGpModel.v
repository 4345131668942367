(* Sparse Gaussian process regression: models/sparse_gp.hpp and linalg/qr_utils.hpp, in exact
   real arithmetic. The groups of independent observations are given as the lists of indices
   that group_by(...).indexers() holds, in the order of the keys (C05). Sizes are in the types, so
   size assertions are not modelled. The factorizations are arguments: [compute_ldlt] is
   A.ldlt(), [compute_qr] is QRImplementation::compute, both for SPQR and for Eigen's
   ColPivHouseholderQR; what is assumed of them is in SparseGpSpec.v. *)
From Coq Require Import Reals.
From mathcomp Require Import all_ssreflect all_algebra all_fingroup.
From Verif Require Import RealStruct GpModel LdltModel.
Set Implicit Arguments.
Unset Strict Implicit.
Unset Printing Implicit Defensive.
Import GRing.Theory.
Local Open Scope ring_scope.

(* ---- block diagonal matrices; the loops over the blocks are in BlockDiagModel.v, these are
   the values they compute (C44) ---- *)
Fixpoint block_diag (sizes : seq nat) : Type :=
  match sizes with [::] => unit | s :: rest => ('M[R]_s * block_diag rest)%type end.
Fixpoint block_ldlt (sizes : seq nat) : Type :=
  match sizes with [::] => unit | s :: rest => (ldlt_state s * block_ldlt rest)%type end.

(* BlockDiagonal::operator-, linalg/block_diagonal.hpp:270-280 *)
Fixpoint bd_minus sizes : block_diag sizes -> block_diag sizes -> block_diag sizes :=
  match sizes with
  | [::] => fun _ _ => tt
  | s :: rest => fun a b => (a.1 - b.1, bd_minus a.2 b.2)
  end.
(* adding a constant to the diagonal of every block, models/sparse_gp.hpp:699-703 *)
Fixpoint bd_add_diagonal (c : R) sizes : block_diag sizes -> block_diag sizes :=
  match sizes with
  | [::] => fun _ => tt
  | s :: rest => fun a => (a.1 + c%:M, bd_add_diagonal c a.2)
  end.
(* BlockDiagonalLDLT::solve, linalg/block_diagonal.hpp:96-147; sqrt_solve, 110-163;
   log_determinant, 212-218 *)
Fixpoint bdl_solve (tolerance : R) sizes p : block_ldlt sizes -> 'M[R]_(sumn sizes, p) -> 'M[R]_(sumn sizes, p) :=
  match sizes with
  | [::] => fun _ rhs => rhs
  | s :: rest => fun f rhs => col_mx (ldlt_solve f.1 tolerance (usubmx rhs)) (bdl_solve tolerance f.2 (dsubmx rhs))
  end.
Fixpoint bdl_sqrt_solve sizes p : block_ldlt sizes -> 'M[R]_(sumn sizes, p) -> 'M[R]_(sumn sizes, p) :=
  match sizes with
  | [::] => fun _ rhs => rhs
  | s :: rest => fun f rhs => col_mx (sqrt_solve f.1 (usubmx rhs)) (bdl_sqrt_solve f.2 (dsubmx rhs))
  end.
Fixpoint bdl_log_determinant sizes : block_ldlt sizes -> option R :=
  match sizes with
  | [::] => fun _ => Some 0
  | s :: rest => fun f => match log_determinant f.1, bdl_log_determinant f.2 with
                          | Some a, Some b => Some (a + b)
                          | _, _ => None
                          end
  end.

(* ---- QR ---- *)
(* get_R, get_P, rank() and solve of a QR factorization, linalg/qr_utils.hpp:18-33 *)
Record qr_result m n := QrResult { qr_R : 'M[R]_n; qr_P : 'S_n; qr_rank : nat; qr_solve : 'cV[R]_m -> 'cV[R]_n }.
Definition qr_P_mx n (P : 'S_n) : 'M[R]_n := perm_mx P.

(* sqrt_solve(R, P, rhs) = R^-T P^T rhs, linalg/qr_utils.hpp:35-46 *)
Definition qr_sqrt_solve n p (Rm : 'M[R]_n) (P : 'S_n) (rhs : 'M[R]_(n, p)) : 'M[R]_(n, p) :=
  invmx Rm^T *m ((qr_P_mx P)^T *m rhs).

(* Fit<SparseGPFit>, models/sparse_gp.hpp:93-124 *)
Record sparse_fit X m := SparseFit {
  sf_features : 'I_m -> feature X;
  sf_train_covariance : ldlt_state m;
  sf_R : 'M[R]_m;
  sf_P : 'S_m;
  sf_information : 'cV[R]_m;
  sf_rank : nat }.

Section SparseGp.
Variable X : Type.
Variable covariance_function : feature X -> feature X -> R.
Variable mean_function : feature X -> R.
Variable compute_ldlt : forall n, 'M[R]_n -> ldlt_state n.
Variable compute_qr : forall m n, 'M[R]_(m, n) -> qr_result m n.
(* the smallest positive double, used by Eigen::LDLT::solve *)
Variable tolerance : R.
(* measurement_nugget_.value, inducing_nugget_.value *)
Variables measurement_nugget inducing_nugget : R.
(* details::cSparseRNugget and details::DEFAULT_NUGGET, models/sparse_gp.hpp:18-27 *)
Variables sparse_R_nugget default_nugget : R.

Local Notation feature := (feature X).
Local Notation cov := (cov_mx covariance_function).

(* A.ldlt() of a BlockDiagonal, linalg/block_diagonal.hpp:307-313 *)
Fixpoint bd_ldlt sizes : block_diag sizes -> block_ldlt sizes :=
  match sizes with
  | [::] => fun _ => tt
  | s :: rest => fun a => (compute_ldlt a.1, bd_ldlt a.2)
  end.

Section Components.
Variable n : nat.
Variable groups : seq (seq 'I_n).
Definition sizes := [seq size g | g <- groups].

(* reordered_inds, models/sparse_gp.hpp:648-654: the groups one after the other *)
Fixpoint reordered (gs : seq (seq 'I_n)) : 'I_(sumn [seq size g | g <- gs]) -> 'I_n :=
  match gs with
  | [::] => fun i => match notF (ltn_ord i) with end
  | g :: rest => fun i => match split (i : 'I_(size g + sumn [seq size g | g <- rest])) with
                          | inl a => tnth (in_tuple g) a
                          | inr b => reordered b
                          end
  end.

(* K_ff, models/sparse_gp.hpp:655-661 *)
Fixpoint kff_blocks (features : 'I_n -> feature) (targets : marginal R_fieldType n) (gs : seq (seq 'I_n))
    : block_diag [seq size g | g <- gs] :=
  match gs with
  | [::] => tt
  | g :: rest =>
      let idx := tnth (in_tuple g) in
      (cov (features \o idx) (features \o idx) + diag (rowsub idx (m_var targets)), kff_blocks features targets rest)
  end.

(* Q_ff_diag, models/sparse_gp.hpp:686-694: the columns of P from i on *)
Fixpoint qff_blocks k (gs : seq (seq 'I_n)) : 'M[R]_(k, sumn [seq size g | g <- gs]) -> block_diag [seq size g | g <- gs] :=
  match gs with
  | [::] => fun _ => tt
  | g :: rest => fun P : 'M[R]_(k, size g + sumn [seq size g | g <- rest]) =>
      ((lsubmx P)^T *m lsubmx P, qff_blocks (rsubmx P))
  end.

(* compute_internal_components, models/sparse_gp.hpp:631-706. As in the code, the mean function is
   removed from targets.mean after y has been copied from it. *)
Record components k := Components {
  c_A_ldlt : block_ldlt sizes;
  c_K_uu_ldlt : ldlt_state k;
  c_K_fu : 'M[R]_(sumn sizes, k);
  c_y : 'cV[R]_(sumn sizes) }.

Definition compute_internal_components k (inducing_features : 'I_k -> feature)
    (out_of_order_features : 'I_n -> feature) (out_of_order_targets : marginal R_fieldType n) : components k :=
  let out_of_order_measurement_features := as_measurement (X := X) \o out_of_order_features in
  let K_ff := kff_blocks out_of_order_measurement_features out_of_order_targets groups in
  let features := out_of_order_measurement_features \o @reordered groups in
  let targets := marginal_subset (@reordered groups) out_of_order_targets in
  let y := m_mean targets in
  let K_fu := cov features inducing_features in
  let K_uu := cov inducing_features inducing_features in
  let K_uu := K_uu + inducing_nugget%:M in
  let K_uu_ldlt := compute_ldlt K_uu in
  let P := sqrt_solve K_uu_ldlt K_fu^T in
  let Q_ff_diag := qff_blocks P in
  let A := bd_minus K_ff Q_ff_diag in
  let A := bd_add_diagonal measurement_nugget A in
  Components (bd_ldlt A) K_uu_ldlt K_fu y.

(* compute_sigma_qr, models/sparse_gp.hpp:367-375 *)
Definition sigma_B k (c : components k) : 'M[R]_(sumn sizes + k, k) :=
  col_mx (bdl_sqrt_solve (c_A_ldlt c) (c_K_fu c)) (sqrt_transpose (c_K_uu_ldlt c)).
Definition compute_sigma_qr k (c : components k) : qr_result (sumn sizes + k) k := compute_qr (sigma_B c).

(* _fit_impl, models/sparse_gp.hpp:377-404; u is what the inducing point strategy returned *)
Definition sparse_fit_impl k (u : 'I_k -> feature) (features : 'I_n -> feature) (targets : marginal R_fieldType n)
  : sparse_fit X k :=
  let c := compute_internal_components u features targets in
  let B_qr := compute_sigma_qr c in
  let y_augmented := col_mx (bdl_sqrt_solve (c_A_ldlt c) (c_y c)) 0 in
  let v := qr_solve B_qr y_augmented in
  SparseFit u (c_K_uu_ldlt c) (qr_R B_qr) (qr_P B_qr) v (qr_rank B_qr).

(* _update_impl, models/sparse_gp.hpp:310-357 *)
Definition sparse_update_impl k (old_fit : sparse_fit X k) (features : 'I_n -> feature) (targets : marginal R_fieldType n)
  : sparse_fit X k :=
  let c := compute_internal_components (sf_features old_fit) features targets in
  let B := col_mx (sf_R old_fit *m (qr_P_mx (sf_P old_fit))^T) (bdl_sqrt_solve (c_A_ldlt c) (c_K_fu c)) in
  let B_qr := compute_qr B in
  let y_augmented := col_mx (sf_R old_fit *m ((qr_P_mx (sf_P old_fit))^T *m sf_information old_fit))
                            (bdl_sqrt_solve (c_A_ldlt c) (c_y c)) in
  let v := qr_solve B_qr y_augmented in
  let Rm := if (qr_rank B_qr < k)%N then qr_R B_qr + sparse_R_nugget%:M else qr_R B_qr in
  SparseFit (sf_features old_fit) (sf_train_covariance old_fit) Rm (qr_P B_qr) v (qr_rank B_qr).

(* log_likelihood, models/sparse_gp.hpp:538-603; prior_log_likelihood is that of the parameters. None
   when a logarithm of a number that is not positive is taken. *)
Definition sparse_log_likelihood k (u : 'I_k -> feature) (features : 'I_n -> feature) (targets : marginal R_fieldType n)
    (prior_log_likelihood : R) : option R :=
  let c := compute_internal_components u features targets in
  let B_qr := compute_sigma_qr c in
  if [forall i, qr_R B_qr i i != 0] then
    match bdl_log_determinant (c_A_ldlt c), log_determinant (c_K_uu_ldlt c) with
    | Some log_det_a, Some log_det_K_uu =>
        let log_det_r := \sum_i Rpower.ln `|qr_R B_qr i i| in
        let log_det := log_det_a + 2%:R * log_det_r - log_det_K_uu in
        let y_a := bdl_solve tolerance (c_A_ldlt c) (c_y c) in
        let y_b := (c_K_fu c)^T *m y_a in
        let y_b := qr_sqrt_solve (qr_R B_qr) (qr_P B_qr) y_b in
        let log_quadratic := ((c_y c)^T *m y_a) 0 0 - (y_b^T *m y_b) 0 0 in
        let rank := (sumn sizes)%:R in
        let log_dimension := rank * Rpower.ln (2%:R * Rtrigo1.PI) in
        Some (- (2%:R)^-1 * (log_det + log_quadratic + log_dimension) + prior_log_likelihood)
    | _, _ => None
    end
  else None.
End Components.

(* _predict_impl, models/sparse_gp.hpp:467-536 *)
Definition sparse_predict_mean k p (f : sparse_fit X k) (features : 'I_p -> feature) : 'cV[R]_p :=
  let cross_cov := cov (sf_features f) features in
  gp_mean_prediction cross_cov (sf_information f) + mean_v mean_function features.
Definition sparse_predict_marginal k p (f : sparse_fit X k) (features : 'I_p -> feature) : marginal R_fieldType p :=
  let cross_cov := cov (sf_features f) features in
  let mean := gp_mean_prediction cross_cov (sf_information f) + mean_v mean_function features in
  let marginal_variance := \col_i covariance_function (features i) (features i) in
  let Q_sqrt := sqrt_solve (sf_train_covariance f) cross_cov in
  let Q_diag := \col_j \sum_i Q_sqrt i j * Q_sqrt i j in
  let marginal_variance := marginal_variance - Q_diag in
  let S_sqrt := qr_sqrt_solve (sf_R f) (sf_P f) cross_cov in
  let S_diag := \col_j \sum_i S_sqrt i j * S_sqrt i j in
  Marginal (F := R_fieldType) mean (marginal_variance + S_diag).
Definition sparse_predict_joint k p (f : sparse_fit X k) (features : 'I_p -> feature) : joint R_fieldType p :=
  let cross_cov := cov (sf_features f) features in
  let prior_cov := cov features features in
  let S_sqrt := qr_sqrt_solve (sf_R f) (sf_P f) cross_cov in
  let Q_sqrt := sqrt_solve (sf_train_covariance f) cross_cov in
  let max_explained := Q_sqrt^T *m Q_sqrt in
  let unexplained := S_sqrt^T *m S_sqrt in
  let covariance := prior_cov - max_explained + unexplained in
  Joint (F := R_fieldType) (cross_cov^T *m sf_information f + mean_v mean_function features) covariance.

(* fit_from_prediction, models/sparse_gp.hpp:406-461 *)
Definition sparse_fit_from_prediction k (new_inducing_points : 'I_k -> feature) (prediction_ : joint R_fieldType k)
  : sparse_fit X k :=
  let K_zz := cov new_inducing_points new_inducing_points in
  let train_covariance := compute_ldlt K_zz in
  let covariance := j_cov prediction_ + default_nugget%:M in
  let information := ldlt_solve train_covariance tolerance (j_mean prediction_) in
  let C_ldlt := compute_ldlt covariance in
  let sigma_inv_sqrt := sqrt_solve C_ldlt K_zz in
  let B_qr := compute_qr sigma_inv_sqrt in
  SparseFit new_inducing_points train_covariance (qr_R B_qr) (qr_P B_qr) information (qr_rank B_qr).

(* rebase_inducing_points, models/sparse_gp.hpp:719-725 *)
Definition rebase_inducing_points k l (f : sparse_fit X k) (new_inducing_points : 'I_l -> feature) : sparse_fit X l :=
  sparse_fit_from_prediction new_inducing_points (sparse_predict_joint f new_inducing_points).
End SparseGp.

(* the strategy and grouper members and their setters, models/sparse_gp.hpp:605-622. The setter of the
   strategy assigns its argument to itself. *)
Section Setters.
Variables Strategy Grouper : Type.
Record sparse_gp_members := Members { inducing_point_strategy_ : Strategy; independent_group_function_ : Grouper }.
Definition get_inducing_point_strategy (m : sparse_gp_members) : Strategy := inducing_point_strategy_ m.
Definition set_inducing_point_strategy (inducing_point_strategy : Strategy) (m : sparse_gp_members) : sparse_gp_members :=
  let inducing_point_strategy := inducing_point_strategy in m.
Definition get_grouper_function (m : sparse_gp_members) : Grouper := independent_group_function_ m.
Definition set_grouper_function (independent_grouper_function : Grouper) (m : sparse_gp_members) : sparse_gp_members :=
  Members (inducing_point_strategy_ m) independent_grouper_function.
End Setters.

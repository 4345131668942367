(* Comparison of fits of Gaussian processes, of what they store and of distributions: operator== of models/gp.hpp,
   covariance_functions/representations.hpp, linalg/block_symmetric.hpp, eigen/serializable_ldlt.hpp, core/distribution.hpp and core/dataset.hpp.
   Entries are exact reals (so there is no NaN). Sizes may differ. *)
From Coq Require Import Reals.
From mathcomp Require Import all_ssreflect all_algebra all_fingroup.
From Verif Require Import RealStruct GpModel LdltModel ShiftModel.
From Verif Require Base.
Set Implicit Arguments.
Unset Strict Implicit.
Unset Printing Implicit Defensive.
Import GRing.Theory.
Local Open Scope ring_scope.

(* a && b of C++ *)
Definition and_also (a b : Base.outcome bool) : Base.outcome bool := Base.bind a (fun x => if x then b else Base.Ok false).
(* Eigen's operator== of dense matrices and vectors: cwiseEqual(other).all(), which asserts that the sizes are the same.
   conform_mx turns the sizes that were just compared into equal types. *)
Definition mx_equal m n m' n' (a : 'M[R]_(m, n)) (b : 'M[R]_(m', n')) : Base.outcome bool :=
  Base.assert_then ((m == m')%N && (n == n')%N) (Base.Ok (a == conform_mx a b)).
(* operator== of two std::vector of features; same is operator== of the feature type *)
Definition features_equal Y (same : Y -> Y -> bool) n n' (xs : 'I_n -> Y) (ys : 'I_n' -> Y) : bool :=
  (n == n')%N && [forall i : 'I_n, forall j : 'I_n', (val i == val j) ==> same (xs i) (ys j)].

(* core/distribution.hpp:16-19 and 119-121; the covariance is diagonal *)
Definition marginal_equal n n' (a : marginal R_fieldType n) (b : marginal R_fieldType n') : Base.outcome bool :=
  and_also (mx_equal (m_mean a) (m_mean b)) (mx_equal (m_var a) (m_var b)).
(* core/distribution.hpp:193-195 *)
Definition joint_equal n n' (a : joint R_fieldType n) (b : joint R_fieldType n') : Base.outcome bool :=
  and_also (mx_equal (j_mean a) (j_mean b)) (mx_equal (j_cov a) (j_cov b)).

(* RegressionDataset, core/dataset.hpp:24-83, and its operator==, 47-50; its constructor asserts that there are as many targets as
   features. same_metadata is operator== of std::map<std::string, std::string>. *)
Record regression_dataset Y M n := RegressionDataset {
  ds_features : 'I_n -> Y; ds_targets : marginal R_fieldType n; ds_metadata : M }.
Definition dataset_equal Y M (same : Y -> Y -> bool) (same_metadata : M -> M -> bool) n n'
    (a : regression_dataset Y M n) (b : regression_dataset Y M n') : Base.outcome bool :=
  and_also (and_also (Base.Ok (features_equal same (ds_features a) (ds_features b))) (marginal_equal (ds_targets a) (ds_targets b)))
           (Base.Ok (same_metadata (ds_metadata a) (ds_metadata b))).

(* SerializableLDLT::operator==, eigen/serializable_ldlt.hpp:201-216, of two that have been computed *)
Definition computed_equal n n' (f : ldlt_state n) (g : ldlt_state n') : Base.outcome bool :=
  match @eqP nat_eqType n n' with
  | ReflectT e => Base.Ok (ldlt_equal (ecast i (ldlt_state i) e f) g)
  | ReflectF _ => Base.Abort
  end.
(* and of any two: None is a default constructed one. matrixLDLT() of Eigen asserts that it has been computed. *)
Definition serializable_ldlt_equal n n' (f : option (ldlt_state n)) (g : option (ldlt_state n')) : Base.outcome bool :=
  match f, g with
  | None, None => Base.Ok true
  | Some f, Some g => computed_equal f g
  | _, _ => Base.Abort
  end.

(* a CovarianceRepresentation: what it stores, for every number of rows, its solve and its operator== *)
Record representation := Representation {
  r_type : nat -> Type;
  r_solve : forall n, r_type n -> solver R_fieldType n;
  r_equal : forall n n', r_type n -> r_type n' -> Base.outcome bool }.

Section Representations.
(* the smallest pivot that Eigen's LDLT solve inverts *)
Variable tolerance : R.

(* Eigen::SerializableLDLT *)
Definition ldlt_representation : representation :=
  @Representation ldlt_state (fun n f p rhs => ldlt_solve f tolerance rhs) computed_equal.
(* ExplainedCovariance, covariance_functions/representations.hpp:65-99 *)
Record explained_covariance n := ExplainedCovariance { outer_ldlt : ldlt_state n; inner : 'M[R]_n }.
Definition explained_representation : representation :=
  @Representation explained_covariance
    (fun n a p rhs => ldlt_solve (outer_ldlt a) tolerance (inner a *m ldlt_solve (outer_ldlt a) tolerance rhs))
    (fun n n' a b => and_also (computed_equal (outer_ldlt a) (outer_ldlt b)) (mx_equal (inner a) (inner b))).
(* DirectInverse, covariance_functions/representations.hpp:104-121 *)
Definition direct_representation : representation :=
  @Representation (fun n => 'M[R]_n) (fun n inverse_ p rhs => inverse_ *m rhs) (fun n n' a b => mx_equal a b).

(* BlockSymmetric<Solver>, linalg/block_symmetric.hpp:46-76; its solve, 87-104; its operator==, 106-110 *)
Inductive block_of (T : nat -> Type) : nat -> Type :=
| BlockOf n m (A : T n) (Ai_B : 'M[R]_(n, m)) (Sf : ldlt_state m) : block_of T (n + m).
Definition block_of_solve (r : representation) l (b : block_of (r_type r) l) : solver R_fieldType l :=
  match b in block_of _ l return solver R_fieldType l with
  | BlockOf n m A Ai_B Sf => fun p rhs =>
      let rhs_a := usubmx rhs in
      let rhs_b := dsubmx rhs in
      let Bt_Ai_rhs := Ai_B^T *m rhs_a in
      let Si_Bt_Ai_rhs := ldlt_solve Sf tolerance Bt_Ai_rhs in
      let Si_rhs_b := ldlt_solve Sf tolerance rhs_b in
      col_mx (r_solve A rhs_a + Ai_B *m (Si_Bt_Ai_rhs - Si_rhs_b)) (Si_rhs_b - Si_Bt_Ai_rhs)
  end.
Definition block_of_equal (r : representation) l l' (x : block_of (r_type r) l) (y : block_of (r_type r) l') : Base.outcome bool :=
  match x, y with
  | BlockOf n m A Ai_B Sf, BlockOf n' m' A' Ai_B' Sf' =>
      and_also (and_also (r_equal A A') (mx_equal Ai_B Ai_B')) (computed_equal Sf Sf')
  end.
Definition block_representation (r : representation) : representation :=
  @Representation (block_of (r_type r)) (@block_of_solve r) (@block_of_equal r).

Section Fits.
Variable X : Type.
Variable covariance_function : feature X -> feature X -> R.
Variable mean_function : feature X -> R.
Variable compute_ldlt : forall n, 'M[R]_n -> ldlt_state n.

(* Fit<GPFit>, models/gp.hpp:42-77, with what the representation stores *)
Record stored_fit (r : representation) n := StoredFit {
  st_features : 'I_n -> feature X; st_covariance : r_type r n; st_information : 'cV[R]_n }.
(* what predictions use of it (GpModel.v) *)
Definition as_gp_fit (r : representation) n (f : stored_fit r n) : gp_fit R_fieldType X n :=
  GpFit (F := R_fieldType) (st_features f) (@r_solve r n (st_covariance f)) (st_information f).
(* models/gp.hpp:71-76 *)
Definition gp_fit_equal (same : feature X -> feature X -> bool) (r : representation) n n' (f : stored_fit r n) (g : stored_fit r n')
  : Base.outcome bool :=
  and_also (and_also (Base.Ok (features_equal same (st_features f) (st_features g))) (r_equal (st_covariance f) (st_covariance g)))
           (mx_equal (st_information f) (st_information g)).

(* models/gp.hpp:60-69 and 281-294 *)
Definition stored_fit_impl n (features : 'I_n -> feature X) (targets : marginal R_fieldType n) : stored_fit ldlt_representation n :=
  let measurement_features := as_measurement (X := X) \o features in
  let cov := cov_mx (F := R_fieldType) covariance_function measurement_features measurement_features + diag (m_var targets) in
  let train_covariance := compute_ldlt cov in
  @StoredFit ldlt_representation n features train_covariance
    (ldlt_solve train_covariance tolerance (m_mean targets - mean_v (F := R_fieldType) mean_function measurement_features)).
(* _update_impl, models/gp.hpp:384-414 *)
Definition stored_update_impl (r : representation) n m (fit_ : stored_fit r n) (features : 'I_m -> feature X)
    (targets : marginal R_fieldType m) : stored_fit (block_representation r) (n + m) :=
  let new_features := concat_f (st_features fit_) features in
  let pred := predict_joint (F := R_fieldType) covariance_function mean_function (as_gp_fit fit_) features in
  let delta := m_mean targets - j_mean pred in
  let S_ldlt := compute_ldlt (j_cov pred + diag (m_var targets)) in
  let cross := cov_mx (F := R_fieldType) covariance_function (st_features fit_) features in
  let Ai_B := @r_solve r n (st_covariance fit_) m cross in
  let Si_delta := ldlt_solve S_ldlt tolerance delta in
  @StoredFit (block_representation r) (n + m) new_features (BlockOf (st_covariance fit_) Ai_B S_ldlt)
    (col_mx (st_information fit_ - Ai_B *m Si_delta) Si_delta).
End Fits.
End Representations.

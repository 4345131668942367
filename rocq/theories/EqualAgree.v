(* Proofs of C106: with exact factorizations, what is stored is the fit of GpModel.v. *)
From Coq Require Import Reals FunctionalExtensionality.
From mathcomp Require Import all_ssreflect all_algebra all_fingroup.
From Verif Require Import RealStruct GpModel GpSpec PsdProofs LdltModel LdltSpec LdltProofs SparseGpModel SparseGpSpec SparseGpProofs ShiftModel EqualModel EqualSpec EqualProofs.
From Verif Require Base.
Set Implicit Arguments.
Unset Strict Implicit.
Unset Printing Implicit Defensive.
Import Order.TTheory GRing.Theory Num.Theory.
Local Open Scope ring_scope.

Section Agree.
Variable X : Type.
Variable cov : feature X -> feature X -> R.
Variable mean_function : feature X -> R.
Variable compute_ldlt : forall n, 'M[R]_n -> ldlt_state n.
Variable tolerance : R.
Hypothesis hldlt : ldlt_contract compute_ldlt.
Hypothesis t0 : 0 <= tolerance.
Lemma exact_solve n (A : 'M[R]_n) p (rhs : 'M[R]_(n, p)) : pd A -> (forall i, tolerance < vectorD (compute_ldlt A) i 0) ->
  ldlt_solve (compute_ldlt A) tolerance rhs = invmx A *m rhs.
Proof.
move=> Ap big; have [h1 _] := ldlt_pd hldlt Ap.
by apply: (proj2 (ldlt_solveE rhs h1 _ t0)) => i; apply: (lt_le_trans (big i)); exact: ler_norm.
Qed.
Lemma fit_agrees n (xs : 'I_n -> feature X) (t : marginal R_fieldType n) :
  let A := cov_mx (F := R_fieldType) cov (as_measurement (X := X) \o xs) (as_measurement (X := X) \o xs) + diag (m_var t) in
  pd A -> (forall i, tolerance < vectorD (compute_ldlt A) i 0) ->
  as_gp_fit (stored_fit_impl tolerance cov mean_function compute_ldlt xs t) = fit (F := R_fieldType) cov mean_function xs t.
Proof.
move=> A Ap big; rewrite /as_gp_fit /stored_fit_impl /fit /make_fit; cbn [st_features st_covariance st_information r_solve ldlt_representation m_mean m_var].
rewrite -/A; congr GpFit; last by rewrite exact_solve.
by apply: functional_extensionality_dep => p; apply: functional_extensionality => rhs; rewrite exact_solve.
Qed.
Lemma update_agrees r n m (f : stored_fit X r n) (ys : 'I_m -> feature X) (t : marginal R_fieldType m) :
  let S := j_cov (predict_joint (F := R_fieldType) cov mean_function (as_gp_fit f) ys) + diag (m_var t) in
  pd S -> (forall i, tolerance < vectorD (compute_ldlt S) i 0) ->
  as_gp_fit (stored_update_impl tolerance cov mean_function compute_ldlt f ys t) = update (F := R_fieldType) cov mean_function (as_gp_fit f) ys t.
Proof.
move=> S Sp big; rewrite [LHS]/as_gp_fit /stored_update_impl /update; cbv zeta.
cbn [st_features st_covariance st_information r_solve block_representation block_of_solve].
rewrite -/S; congr GpFit; last by rewrite exact_solve.
apply: functional_extensionality_dep => p; apply: functional_extensionality => rhs.
by rewrite /block_symmetric_solve; cbv zeta; rewrite !exact_solve.
Qed.
End Agree.

(* Proofs of C105. *)
From Coq Require Import Reals FunctionalExtensionality.
From mathcomp Require Import all_ssreflect all_algebra all_fingroup.
From Verif Require Import RealStruct GpModel GpSpec GpProofs GpProofs2 GpProofs3 GpProofs4 PsdProofs LdltModel LdltSpec LdltProofs SparseGpModel SparseGpSpec SparseGpProofs SparseGpProofs2 SparseGpProofs3 SparseGpProofs4 ShiftModel.
From Verif Require Base.
Set Implicit Arguments.
Unset Strict Implicit.
Unset Printing Implicit Defensive.
Import Order.TTheory GRing.Theory Num.Theory.
Local Open Scope ring_scope.

Section Shift.
Variable X : Type.
Variable cov : feature X -> feature X -> R.
Variable mean_function : feature X -> R.
Variable compute_ldlt : forall n, 'M[R]_n -> ldlt_state n.
Variable compute_qr : forall m n, 'M[R]_(m, n) -> qr_result m n.
Variables tolerance measurement_nugget inducing_nugget sparse_R_nugget : R.
Hypothesis hldlt : ldlt_contract compute_ldlt.
Hypothesis hqr : qr_contract compute_qr.
Hypothesis hk : psd_kernel cov.
Hypothesis hnu : 0 < inducing_nugget.
Hypothesis t0 : 0 <= tolerance.
Variables (k : nat) (u : 'I_k -> feature X).
Local Notation M := (K_uu cov inducing_nugget u).
Local Notation stores := (stores cov inducing_nugget u).
Local Notation meas xs := (as_measurement (X := X) \o xs).
Local Notation predict := (sparse_predict_joint cov mean_function).
Local Notation gain := (gain cov measurement_nugget inducing_nugget u).
Local Notation push := (push cov measurement_nugget inducing_nugget u).

(* the shifted fit *)
Definition shifted (f : sparse_fit X k) (s : 'cV[R]_k) : sparse_fit X k :=
  SparseFit (sf_features f) (sf_train_covariance f) (sf_R f) (sf_P f)
    (sf_information f + ldlt_solve (sf_train_covariance f) tolerance s) (sf_rank f).
Lemma shift_ok f s : shift_mean tolerance f s = Base.Ok (shifted f s).
Proof. by rewrite /shift_mean eqxx /= conform_mx_id. Qed.

Section One.
Variables (f : sparse_fit X k) (G : 'M[R]_k) (b : 'cV[R]_k).
Hypothesis hs : stores f G b.
Hypothesis big : forall i, tolerance < vectorD (sf_train_covariance f) i 0.
Lemma solve_M p (s : 'M[R]_(k, p)) : ldlt_solve (sf_train_covariance f) tolerance s = invmx M *m s.
Proof.
case: hs => _ [[h1 _] _]; apply: (proj2 (ldlt_solveE s h1 _ t0)) => i.
by apply: (lt_le_trans (big i)); exact: ler_norm.
Qed.
Lemma shifted_stores s : stores (shifted f s) G (b + G *m invmx M *m s).
Proof.
case: hs => h1 [h2 [h3 h4]]; split; first exact: h1. split; first exact: h2. split; first exact: h3.
by rewrite /shifted [sf_information _]/= mulmxDr h4 solve_M mulmxA.
Qed.
Lemma shifted_predict s p (zs : 'I_p -> feature X) :
  predict (shifted f s) zs = Joint (F := R_fieldType) (j_mean (predict f zs) + cov_mx cov zs u *m invmx M *m s) (j_cov (predict f zs)).
Proof.
have Gu : G \in unitmx by apply: pd_unit; case: hs => _ [_ [[]]].
rewrite (stored_joint mean_function (shifted_stores s)) (stored_joint mean_function hs) /=; congr Joint.
have -> : invmx G *m (b + G *m invmx M *m s) = invmx G *m b + invmx M *m s by rewrite mulmxDr !mulmxA mulVmx // mul1mx.
by rewrite mulmxDr (cov_tr hk) addrAC -[cov_mx cov zs u *m invmx M *m s]mulmxA.
Qed.
Lemma shifted_twice s s' : shifted (shifted f s) s' = shifted f (s + s').
Proof. by rewrite /shifted [sf_train_covariance _]/= [sf_information (SparseFit _ _ _ _ _ _)]/= !solve_M mulmxDr addrA. Qed.
Lemma shifted_0 : shifted f 0 = f.
Proof. by rewrite /shifted solve_M mulmx0 addr0; case: f. Qed.
End One.

(* stores determines predictions *)
Lemma stores_predict f f' G b p (zs : 'I_p -> feature X) : stores f G b -> stores f' G b -> predict f zs = predict f' zs.
Proof. by move=> h h'; rewrite (stored_joint mean_function h) (stored_joint mean_function h'). Qed.

Lemma push_shift n (xs : 'I_n -> feature X) t gs (s : 'cV[R]_k) :
  push xs (Marginal (F := R_fieldType) (m_mean t + cov_mx cov (meas xs) u *m invmx M *m s) (m_var t)) gs =
  push xs t gs + gain xs t gs *m invmx M *m s.
Proof.
rewrite /SparseGpProofs3.push /SparseGpProofs3.gain [m_mean _]/= [m_var _]/= mulmxDr.
by congr (_ + _); rewrite !mulmxA.
Qed.

Lemma update_shifted f G b n (xs : 'I_n -> feature X) t gs s p (zs : 'I_p -> feature X) : stores f G b ->
  (forall i, tolerance < vectorD (sf_train_covariance f) i 0) ->
  groups_partition gs -> (forall i, 0 < m_var t i 0 + measurement_nugget) ->
  let update g y := sparse_update_impl cov compute_ldlt compute_qr measurement_nugget inducing_nugget sparse_R_nugget gs g xs y in
  predict (update (shifted f s) (Marginal (F := R_fieldType) (m_mean t + cov_mx cov (meas xs) u *m invmx M *m s) (m_var t))) zs =
  predict (shifted (update f t) s) zs.
Proof.
move=> hs big hp hv update.
have h1 := update_stores sparse_R_nugget hldlt hqr hk hnu xs (t := Marginal (F := R_fieldType) (m_mean t + cov_mx cov (meas xs) u *m invmx M *m s) (m_var t)) (shifted_stores hs big s) hp hv.
have h2 := update_stores sparse_R_nugget hldlt hqr hk hnu xs hs hp hv.
have h3 := shifted_stores h2 big s.
apply: stores_predict h1 _.
have -> : gain xs (Marginal (F := R_fieldType) (m_mean t + cov_mx cov (meas xs) u *m invmx M *m s) (m_var t)) gs = gain xs t gs by [].
have -> // : b + G *m invmx M *m s + push xs (Marginal (F := R_fieldType) (m_mean t + cov_mx cov (meas xs) u *m invmx M *m s) (m_var t)) gs = b + push xs t gs + (G + gain xs t gs) *m invmx M *m s.
by rewrite push_shift !mulmxDl addrACA.
Qed.

Lemma at_inducing (s : 'cV[R]_k) : cov_mx cov u u *m invmx M *m s = s - inducing_nugget *: (invmx M *m s).
Proof.
have Mu := M_unit hk hnu u.
have -> : cov_mx cov u u = M - inducing_nugget%:M by rewrite /K_uu addrK.
by rewrite mulmxBl mulmxV // mulmxBl mul1mx mul_scalar_mx scalemxAl.
Qed.
Lemma at_inducing_exact (s : 'cV[R]_k) : cov_mx cov u u *m invmx M *m s = s <-> s = 0.
Proof.
have Mu := M_unit hk hnu u; rewrite at_inducing; split=> [/eqP|->]; last by rewrite mulmx0 scaler0 subr0.
rewrite -subr_eq0 addrAC subrr add0r oppr_eq0 scaler_eq0 (gt_eqF hnu) /= => /eqP e.
by rewrite -(mulKVmx Mu s) e mulmx0.
Qed.

(* any fit *)
Lemma shifted_any f s p (zs : 'I_p -> feature X) : predict (shifted f s) zs =
  Joint (F := R_fieldType) (j_mean (predict f zs) + (cov_mx cov (sf_features f) zs)^T *m ldlt_solve (sf_train_covariance f) tolerance s) (j_cov (predict f zs)).
Proof. by rewrite /sparse_predict_joint /=; congr Joint; rewrite mulmxDr addrAC. Qed.
Lemma shifted_rebased default_nugget l (z : 'I_l -> feature X) (d : joint R_fieldType l) (s : 'cV[R]_l) p (zs : 'I_p -> feature X) :
  pd (cov_mx cov z z) -> (forall i, tolerance < vectorD (compute_ldlt (cov_mx cov z z)) i 0) ->
  let f := sparse_fit_from_prediction cov compute_ldlt compute_qr tolerance default_nugget z d in
  exists g, shift_mean tolerance f s = Base.Ok g /\
    j_mean (predict g zs) = j_mean (predict f zs) + cov_mx cov zs z *m invmx (cov_mx cov z z) *m s /\
    j_cov (predict g zs) = j_cov (predict f zs).
Proof.
move=> Kz big f; have [h1 h2] := ldlt_pd hldlt Kz.
have tolE : ldlt_solve (compute_ldlt (cov_mx cov z z)) tolerance s = invmx (cov_mx cov z z) *m s.
  by apply: (proj2 (ldlt_solveE s h1 _ t0)) => i; apply: (lt_le_trans (big i)); exact: ler_norm.
eexists; split; first by rewrite /shift_mean eqxx /= conform_mx_id.
split; last by [].
rewrite /sparse_predict_joint /= tolE mulmxDr addrAC (cov_tr hk).
by congr (_ + _); rewrite mulmxA.
Qed.
End Shift.

(* ---- equality ---- *)
Section Equal.
Variable n : nat.
Variables f g : ldlt_state n.
Hypothesis e : ldlt_equal f g.
Lemma equal_lower (i j : 'I_n) : (j <= i)%N -> m_matrix f i j = m_matrix g i j.
Proof. by case/andP: e => /forallP /(_ i) /forallP /(_ j) /implyP h _ hj; apply/eqP/h. Qed.
Lemma equal_transpositions : m_transpositions f = m_transpositions g.
Proof. by case/andP: e => _ /forallP h; apply: functional_extensionality => i; apply/eqP/h. Qed.
Lemma equal_matrixL : matrixL f = matrixL g.
Proof. by apply/matrixP => i j; rewrite !mxE; case: ifP => // h; apply: equal_lower; exact: ltnW. Qed.
Lemma equal_vectorD : vectorD f = vectorD g.
Proof. by apply/matrixP => i j; rewrite !mxE; exact: equal_lower. Qed.
Lemma equal_sqrt_solve p (rhs : 'M[R]_(n, p)) : sqrt_solve f rhs = sqrt_solve g rhs.
Proof.
by rewrite /sqrt_solve /lower_solve /transpositions_mul /diagonal_sqrt_inverse equal_matrixL equal_vectorD equal_transpositions.
Qed.
Lemma equal_solve tol p (rhs : 'M[R]_(n, p)) : ldlt_solve f tol rhs = ldlt_solve g tol rhs.
Proof.
by rewrite /ldlt_solve /lower_solve /lower_tr_solve /transpositions_tr_mul /transpositions_mul equal_matrixL equal_vectorD equal_transpositions.
Qed.
End Equal.
Lemma ldlt_equal_refl n (f : ldlt_state n) : ldlt_equal f f.
Proof. by apply/andP; split; [apply/forallP => i; apply/forallP => j; apply/implyP | apply/forallP => i]. Qed.
Lemma ldlt_equal_sym n (f g : ldlt_state n) : ldlt_equal f g = ldlt_equal g f.
Proof.
rewrite /ldlt_equal; congr andb; apply: eq_forallb => i; last exact: eq_sym.
by apply: eq_forallb => j; rewrite eq_sym.
Qed.

Section EqualFits.
Variable X : Type.
Variable same : feature X -> feature X -> bool.
Hypothesis sameP : forall x y, reflect (x = y) (same x y).
Lemma fit_equal k (f g : sparse_fit X k) : sparse_fit_equal same f g ->
  sf_features f = sf_features g /\ ldlt_equal (sf_train_covariance f) (sf_train_covariance g) /\
  sf_R f = sf_R g /\ sf_P f = sf_P g /\ sf_information f = sf_information g /\ sf_rank f = sf_rank g.
Proof.
case/andP => /andP [] /andP [] /andP [] /andP [] /forallP h1 h2 /eqP h3 /eqP h4 /eqP h5 /eqP h6; split; last by [].
by apply: functional_extensionality => i; apply/sameP.
Qed.
Lemma fit_equal_of k (f g : sparse_fit X k) :
  sf_features f = sf_features g -> ldlt_equal (sf_train_covariance f) (sf_train_covariance g) ->
  sf_R f = sf_R g -> sf_P f = sf_P g -> sf_information f = sf_information g -> sf_rank f = sf_rank g -> sparse_fit_equal same f g.
Proof.
move=> h1 h2 h3 h4 h5 h6; rewrite /sparse_fit_equal h1 h2 h3 h4 h5 h6 !eqxx !andbT.
by apply/forallP => i; apply/sameP.
Qed.
Lemma fit_equal_sym k (f g : sparse_fit X k) : sparse_fit_equal same f g = sparse_fit_equal same g f.
Proof.
by apply/idP/idP => /fit_equal [h1 [h2 [h3 [h4 [h5 h6]]]]]; apply: fit_equal_of => //; rewrite ldlt_equal_sym.
Qed.
Lemma equal_predict cov mean_function k (f g : sparse_fit X k) p (zs : 'I_p -> feature X) : sparse_fit_equal same f g ->
  sparse_predict_joint cov mean_function f zs = sparse_predict_joint cov mean_function g zs /\
  sparse_predict_marginal cov mean_function f zs = sparse_predict_marginal cov mean_function g zs /\
  sparse_predict_mean cov mean_function f zs = sparse_predict_mean cov mean_function g zs.
Proof.
move=> /fit_equal [h1 [h2 [h3 [h4 [h5 h6]]]]].
by rewrite /sparse_predict_joint /sparse_predict_marginal /sparse_predict_mean h1 h3 h4 h5 !(equal_sqrt_solve h2).
Qed.
Lemma equal_update cov cl cq mn nu rn k (f g : sparse_fit X k) n gs (xs : 'I_n -> feature X) t : sparse_fit_equal same f g ->
  sparse_fit_equal same (sparse_update_impl cov cl cq mn nu rn gs f xs t) (sparse_update_impl cov cl cq mn nu rn gs g xs t).
Proof.
move=> /fit_equal [h1 [h2 [h3 [h4 [h5 h6]]]]].
by rewrite /sparse_update_impl h1 h3 h4 h5; apply: fit_equal_of.
Qed.
End EqualFits.

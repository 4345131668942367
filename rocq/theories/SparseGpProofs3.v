(* What a sparse fit and its updates store, in the original order of the observations, and the
   predictions. *)
From Coq Require Import Reals.
From mathcomp Require Import all_ssreflect all_algebra all_fingroup.
From Verif Require Import RealStruct GpModel GpSpec GpProofs PsdProofs LdltModel LdltSpec LdltProofs SparseGpModel SparseGpSpec SparseGpProofs SparseGpProofs2 MxTac.
Set Implicit Arguments.
Unset Strict Implicit.
Unset Printing Implicit Defensive.
Import Order.TTheory GRing.Theory Num.Theory.
Local Open Scope ring_scope.

Lemma det_mxsub n m (h : 'I_m -> 'I_n) (A : 'M[R]_n) : m = n -> bijective h -> \det (mxsub h h A) = \det A.
Proof.
move=> e; move: h; rewrite e => h bi.
have [s Es] : exists s : 'S_n, forall a, h a = s a by exists (perm (bij_inj bi)) => a; rewrite permE.
have -> : mxsub h h A = row_perm s (col_perm s A) by apply/matrixP => a b; rewrite !mxE !Es.
rewrite row_permE col_permE !det_mulmx !det_perm mulrC -mulrA.
by rewrite odd_permV -signr_addb addbb mulr1.
Qed.

Section Fit.
Variable X : Type.
Variable cov : feature X -> feature X -> R.
Variable mean_function : feature X -> R.
Variable compute_ldlt : forall n, 'M[R]_n -> ldlt_state n.
Variable compute_qr : forall m n, 'M[R]_(m, n) -> qr_result m n.
Variables tolerance measurement_nugget inducing_nugget sparse_R_nugget : R.
Hypothesis hldlt : ldlt_contract compute_ldlt.
Hypothesis hqr : qr_contract compute_qr.
Hypothesis hk : psd_kernel cov.
Hypothesis hnu : 0 < inducing_nugget.
Variables (k : nat) (u : 'I_k -> feature X).
Local Notation M := (K_uu cov inducing_nugget u).
Local Notation Mp := (M_pd hk hnu u).
Local Notation meas xs := (as_measurement (X := X) \o xs).

(* the covariance of the observations given the inducing points *)
Definition cond_cov n (same : 'I_n -> 'I_n -> bool) (xs : 'I_n -> feature X) (v : 'cV[R]_n) : 'M[R]_n :=
  pitc cov inducing_nugget measurement_nugget u same xs v - through cov inducing_nugget u xs xs.

Section OneBatch.
Variables (n : nat) (xs : 'I_n -> feature X) (t : marginal R_fieldType n) (gs : seq (seq 'I_n)).
Hypothesis hp : groups_partition gs.
Hypothesis hv : forall i, 0 < m_var t i 0 + measurement_nugget.
Let idx := @reordered n gs.
Let bidx : bijective idx := reordered_bij hp.
Let c := compute_internal_components cov compute_ldlt measurement_nugget inducing_nugget gs u xs t.
Let D0 := cond_cov (same_group gs) (meas xs) (m_var t).
Let U := cov_mx cov (meas xs) u.

Lemma comp_uu : factors (c_K_uu_ldlt c) M /\ positive_D (c_K_uu_ldlt c).
Proof. exact: (ldlt_pd hldlt Mp). Qed.
Lemma comp_fu : c_K_fu c = rowsub idx U.
Proof. by apply/matrixP => i j; rewrite !mxE. Qed.
Lemma comp_y : c_y c = rowsub idx (m_mean t).
Proof. by []. Qed.

Lemma sqrt_gram_M p q (a : 'M[R]_(k, p)) (b : 'M[R]_(k, q)) (f : ldlt_state k) : factors f M -> positive_D f ->
  (sqrt_solve f a)^T *m sqrt_solve f b = a^T *m invmx M *m b.
Proof.
move=> h1 h2; have [_ ->] := A_inv h1 h2.
by rewrite !sqrt_solveE trmx_mul !mulmxA.
Qed.

Lemma comp_A : exists A : block_diag (sizes gs),
  c_A_ldlt c = bd_ldlt compute_ldlt A /\ all_pd A /\ dense A = mxsub idx idx D0.
Proof.
pose P := sqrt_solve (c_K_uu_ldlt c) (c_K_fu c)^T.
have [h1 h2] := comp_uu.
have PP : P^T *m P = mxsub idx idx (through cov inducing_nugget u (meas xs) (meas xs)).
  rewrite (sqrt_gram_M _ _ h1 h2) trmxK comp_fu throughE (_ : (rowsub idx U)^T = colsub idx (cov_mx cov u (meas xs))).
    by apply/matrixP => i j; rewrite !mxE; apply: eq_bigr => l _; rewrite !mxE; congr (_ * _); apply: eq_bigr => l' _; rewrite !mxE.
  by apply/matrixP => i j; rewrite !mxE (cov_sym hk).
exists (A_blocks cov measurement_nugget (meas xs) t P); split=> //; split.
  apply: A_pd => //; rewrite PP.
  have := psd_mxsub idx (unexplained_psd hk hnu u (meas xs)); congr (psd _).
  by apply/matrixP => i j; rewrite !mxE.
have uq : uniq (flatten gs) by rewrite (perm_uniq hp) enum_uniq.
rewrite dense_A // PP; apply/matrixP => i j; rewrite !mxE /=.
by case: ifP => _; rewrite ?subrr.
Qed.

Lemma D0_unit : D0 \in unitmx.
Proof.
have [A [_ [/(dense_inv hldlt) [Au _] EA]]] := comp_A.
have [g gc hg] := bidx; rewrite EA in Au.
have bg : bijective g by exists idx.
have [+ _] := mxsub_inv bg Au.
have -> // : mxsub g g (mxsub idx idx D0) = D0.
by apply/matrixP => i j; rewrite !mxE !hg.
Qed.
Lemma dense_A_inv (A : block_diag (sizes gs)) : dense A = mxsub idx idx D0 -> invmx (dense A) = mxsub idx idx (invmx D0).
Proof. by move=> ->; have [_ ->] := mxsub_inv bidx D0_unit. Qed.

Lemma bdl_gram p q (a : 'M[R]_(n, p)) (b : 'M[R]_(n, q)) :
  (bdl_sqrt_solve (c_A_ldlt c) (rowsub idx a))^T *m bdl_sqrt_solve (c_A_ldlt c) (rowsub idx b) = a^T *m invmx D0 *m b.
Proof.
have [A [-> [Ap EA]]] := comp_A.
rewrite !bdl_sqrt_solveE trmx_mul mulmxA -[X in X *m _ = _]mulmxA.
have [_ <-] := dense_inv hldlt Ap; rewrite (dense_A_inv EA).
have -> : (rowsub idx a)^T = mxsub id idx a^T by apply/matrixP => i j; rewrite !mxE.
rewrite -mxsub_mulb // -mxsub_mulb //.
by apply/matrixP => i j; rewrite mxE.
Qed.

Lemma D0_psd_inv p (a : 'M[R]_(n, p)) : psd (a^T *m invmx D0 *m a).
Proof.
rewrite -bdl_gram; set S := bdl_sqrt_solve _ _.
have -> : S^T *m S = S^T *m 1%:M *m S by rewrite mulmx1.
by apply: psd_congr; apply: psd_scalar_mx; exact: ler01.
Qed.

Definition gain : 'M[R]_k := U^T *m invmx D0 *m U.
Definition push : 'cV[R]_k := U^T *m invmx D0 *m m_mean t.

Lemma det_D0 : 0 < \det D0 /\ bdl_log_determinant (c_A_ldlt c) = Some (Rpower.ln (\det D0)).
Proof.
have [A [-> [Ap EA]]] := comp_A; have [d0 ->] := bdl_log_determinantE hldlt Ap.
suff -> : \det D0 = \det (dense A) by [].
by rewrite EA; symmetry; apply: det_mxsub => //; exact: (sumn_sizes hp).
Qed.
End OneBatch.

(* ---- what a fit stores: precision G and G * information = b ---- *)
Definition stores (f : sparse_fit X k) (G : 'M[R]_k) (b : 'cV[R]_k) : Prop :=
  sf_features f = u /\ (factors (sf_train_covariance f) M /\ positive_D (sf_train_covariance f)) /\
  (pd G /\ (sf_R f *m (qr_P_mx (sf_P f))^T)^T *m (sf_R f *m (qr_P_mx (sf_P f))^T) = G /\
   (forall p (c : 'M[R]_(k, p)), (qr_sqrt_solve (sf_R f) (sf_P f) c)^T *m qr_sqrt_solve (sf_R f) (sf_P f) c
                                 = c^T *m invmx G *m c)) /\
  G *m sf_information f = b.

Lemma sigma_gram n (xs : 'I_n -> feature X) t gs : groups_partition gs ->
  (forall i, 0 < m_var t i 0 + measurement_nugget) ->
  let B := sigma_B (compute_internal_components cov compute_ldlt measurement_nugget inducing_nugget gs u xs t) in
  B^T *m B = M + gain xs t gs.
Proof.
move=> hp hv B; rewrite /B /sigma_B tr_col_mx mul_row_col comp_fu bdl_gram // addrC; congr (_ + _).
have [h1 h2] := comp_uu xs t gs.
rewrite sqrt_transposeE trmxK; apply: S_sq => // i; exact: ltW (h2 i).
Qed.
Lemma precision_pd n (xs : 'I_n -> feature X) t gs : groups_partition gs ->
  (forall i, 0 < m_var t i 0 + measurement_nugget) -> pd (M + gain xs t gs).
Proof. by move=> hp hv; apply: pdD; [exact: Mp | exact: D0_psd_inv]. Qed.

Lemma fit_stores n (xs : 'I_n -> feature X) t gs : groups_partition gs ->
  (forall i, 0 < m_var t i 0 + measurement_nugget) ->
  stores (sparse_fit_impl cov compute_ldlt compute_qr measurement_nugget inducing_nugget gs u xs t)
         (M + gain xs t gs) (push xs t gs).
Proof.
move=> hp hv; set c := compute_internal_components cov compute_ldlt measurement_nugget inducing_nugget gs u xs t.
have E : (sigma_B c)^T *m sigma_B c = M + gain xs t gs := sigma_gram xs hp hv.
have Gp := precision_pd xs hp hv.
have Bu : (sigma_B c)^T *m sigma_B c \in unitmx by rewrite E; apply: pd_unit.
have Q := hqr Bu.
split; first by []; split; first exact: (comp_uu xs t gs).
split; first split; [exact: Gp | split |].
- by have := qr_gram' Q; rewrite E.
- by move=> p a; have := qr_sqrt_gram Q Bu a; rewrite E.
have := qr_solveE Q Bu (col_mx (bdl_sqrt_solve (c_A_ldlt c) (c_y c)) 0); rewrite E => ->.
rewrite /sigma_B tr_col_mx mul_row_col mulmx0 addr0 comp_fu comp_y.
by rewrite (bdl_gram xs hp hv).
Qed.

Lemma update_stores f G b n (xs : 'I_n -> feature X) t gs : stores f G b -> groups_partition gs ->
  (forall i, 0 < m_var t i 0 + measurement_nugget) ->
  stores (sparse_update_impl cov compute_ldlt compute_qr measurement_nugget inducing_nugget sparse_R_nugget gs f xs t)
         (G + gain xs t gs) (b + push xs t gs).
Proof.
move=> [Ef [Hf [[Gp [Gg Gs]] Gi]]] hp hv.
set c := compute_internal_components cov compute_ldlt measurement_nugget inducing_nugget gs u xs t.
pose B := col_mx (sf_R f *m (qr_P_mx (sf_P f))^T) (bdl_sqrt_solve (c_A_ldlt c) (c_K_fu c)).
have E : B^T *m B = G + gain xs t gs.
  by rewrite /B tr_col_mx mul_row_col Gg comp_fu bdl_gram.
have Gp' : pd (G + gain xs t gs) by apply: pdD; [exact: Gp | exact: D0_psd_inv].
have Bu : B^T *m B \in unitmx by rewrite E; apply: pd_unit.
have Q := hqr Bu.
rewrite /sparse_update_impl Ef -/c -/B.
have -> : (qr_rank (compute_qr B) < k)%N = false by case: (Q) => ? [_ [_ [_ [-> _]]]]; rewrite ltnn.
split; first by []; split; first exact: Hf.
split; first split; [exact: Gp' | split |].
- by have := qr_gram' Q; rewrite E.
- by move=> p a; have := qr_sqrt_gram Q Bu a; rewrite E.
set y := col_mx _ _; have := qr_solveE Q Bu y; rewrite E => ->.
rewrite /B /y tr_col_mx mul_row_col comp_fu comp_y (bdl_gram xs hp hv) -Gi -Gg.
by rewrite !mulmxA.
Qed.

(* ---- predictions of what is stored ---- *)
Section Predict.
Variables (f : sparse_fit X k) (G : 'M[R]_k) (b : 'cV[R]_k).
Hypothesis hs : stores f G b.
Variables (p : nat) (xs : 'I_p -> feature X).
Let C := cov_mx cov u xs.
Lemma stored_joint :
  sparse_predict_joint cov mean_function f xs =
  Joint (F := R_fieldType) (C^T *m (invmx G *m b) + mean_v mean_function xs)
        (cov_mx cov xs xs - C^T *m invmx M *m C + C^T *m invmx G *m C).
Proof.
case: hs => [Ef [[h1 h2] [[Gp [Gg Gs]] Gi]]].
rewrite /sparse_predict_joint Ef (sqrt_gram_M _ _ h1 h2) Gs -/C.
have -> // : sf_information f = invmx G *m b.
by rewrite -Gi mulmxA mulVmx ?mul1mx //; apply: pd_unit.
Qed.
Lemma stored_psd : psd (j_cov (sparse_predict_joint cov mean_function f xs)).
Proof.
rewrite stored_joint /=; apply: psdD.
  have := unexplained_psd hk hnu u xs; rewrite throughE -(cov_tr hk u xs); exact.
apply: psd_congr; apply: pd_psd; apply: pd_inv; by case: hs => _ [_ [[]]].
Qed.
End Predict.

(* the marginal and mean predictions of any fit are those of the joint one *)
Lemma predict_agree_sparse (f : sparse_fit X k) p (xs : 'I_p -> feature X) :
  let joint := sparse_predict_joint cov mean_function f xs in
  sparse_predict_marginal cov mean_function f xs = Marginal (F := R_fieldType) (j_mean joint) (\col_i j_cov joint i i) /\
  sparse_predict_mean cov mean_function f xs = j_mean joint.
Proof.
split=> //; rewrite /sparse_predict_marginal; congr (Marginal _ _).
by apply/matrixP => i j; rewrite !mxE; congr (_ - _ + _); apply: eq_bigr => l _; rewrite [in RHS]mxE.
Qed.

(* ---- the posterior ---- *)
Section Posterior.
Variables (n : nat) (same : 'I_n -> 'I_n -> bool) (ts : 'I_n -> feature X) (v : 'cV[R]_n).
Let D0 := cond_cov same ts v.
Let U := cov_mx cov ts u.
Let T := pitc cov inducing_nugget measurement_nugget u same ts v.
Let G := M + U^T *m invmx D0 *m U.
Hypothesis Du : D0 \in unitmx.
Hypothesis Gu : G \in unitmx.

Lemma T_eq : T = D0 + U *m invmx M *m U^T.
Proof. by rewrite /D0 /cond_cov throughE -(cov_tr hk ts u) subrK. Qed.
Lemma M_G (W : 'M[R]_(k, n)) : W = U^T *m invmx D0 -> W *m T = G *m invmx M *m U^T.
Proof.
move=> ->; have Mu := M_unit hk hnu u.
rewrite T_eq mulmxDr -[X in X + _]mulmxA mulVmx // mulmx1.
by rewrite /G mulmxDl mulmxV // mulmxDl mul1mx !mulmxA.
Qed.
Lemma posterior_W : invmx G *m (U^T *m invmx D0) *m T = invmx M *m U^T.
Proof. by rewrite -mulmxA M_G // !mulmxA mulVmx // mul1mx. Qed.

Lemma posterior_conditional p (xs : 'I_p -> feature X) (y : 'cV[R]_n) (mf : 'cV[R]_p) :
  let C := cov_mx cov u xs in
  conditional mf 0 (cov_mx cov xs xs) (through cov inducing_nugget u xs ts) T y
    (C^T *m (invmx G *m (U^T *m invmx D0 *m y)) + mf)
    (cov_mx cov xs xs - C^T *m invmx M *m C + C^T *m invmx G *m C).
Proof.
move=> C; exists (C^T *m (invmx G *m (U^T *m invmx D0))).
have Ms : symmetric (invmx M) by have [] := pd_inv Mp.
have TE : C^T *m (invmx G *m (U^T *m invmx D0)) *m T = through cov inducing_nugget u xs ts.
  by rewrite -mulmxA posterior_W throughE mulmxA (cov_tr hk) (cov_tr hk).
have THE : (through cov inducing_nugget u xs ts)^T = U *m invmx M *m C.
  by rewrite throughE -(cov_tr hk u xs) -(cov_tr hk ts u) -/U -/C !trmx_mul !trmxK Ms mulmxA.
split; first by rewrite TE subrr.
split; first by rewrite subr0 addrC !mulmxA.
rewrite TE THE subrK.
rewrite !mulmxA.
have Mu := M_unit hk hnu u.
have -> : C^T *m invmx G *m U^T *m invmx D0 *m U *m invmx M *m C =
   C^T *m (invmx G *m (U^T *m invmx D0 *m U) *m invmx M) *m C by rewrite !mulmxA.
have -> : U^T *m invmx D0 *m U = G - M by rewrite /G addrC addKr.
have -> : invmx G *m (G - M) *m invmx M = invmx M - invmx G.
  by rewrite mulmxBr mulVmx // mulmxBl mul1mx -[_ *m M *m _]mulmxA mulmxV // mulmx1.
by rewrite mulmxBr mulmxBl opprB addrA addrAC.
Qed.
End Posterior.
End Fit.

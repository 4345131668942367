(* Proofs of C102: what observations do to the predictions of a sparse Gaussian process. *)
From Coq Require Import Reals.
From mathcomp Require Import all_ssreflect all_algebra all_fingroup.
From Verif Require Import RealStruct GpModel GpSpec GpProofs GpProofs2 GpProofs3 GpProofs4 PsdProofs LdltModel LdltSpec SparseGpModel SparseGpSpec SparseGpProofs SparseGpProofs2 SparseGpProofs3 SparseGpProofs4.
Set Implicit Arguments.
Unset Strict Implicit.
Unset Printing Implicit Defensive.
Import Order.TTheory GRing.Theory Num.Theory.
Local Open Scope ring_scope.

(* the inverse of a larger matrix is smaller *)
Lemma inv_antitone (F : realFieldType) n (A D : 'M[F]_n) : pd A -> psd D -> psd (invmx A - invmx (A + D)).
Proof.
move=> Ap Dp; have Bp := pdD Ap Dp; have Au := pd_unit Ap; have Bu := pd_unit Bp.
have Ds : D^T = D by case: Dp. have Xs : (invmx (A + D))^T = invmx (A + D) by case: (pd_inv Bp).
have E : invmx A - invmx (A + D) = (invmx (A + D))^T *m (D + D^T *m invmx A *m D) *m invmx (A + D).
  rewrite Xs Ds.
  have -> : D + D *m invmx A *m D = (A + D) *m invmx A *m (A + D) - (A + D).
    rewrite mulmxDl mulmxV // mulmxDl mul1mx mulmxDr mulmxKV //.
    by rewrite [RHS]addrAC subrr add0r.
  by rewrite mulmxBr mulmxBl !mulmxA mulVmx // !mul1mx mulmxK.
rewrite E; apply: psd_congr; apply: psdD => //; exact: psd_explained.
Qed.

Section Bounds.
Variable X : Type.
Variable cov : feature X -> feature X -> R.
Variable mean_function : feature X -> R.
Variable compute_ldlt : forall n, 'M[R]_n -> ldlt_state n.
Variable compute_qr : forall m n, 'M[R]_(m, n) -> qr_result m n.
Variables measurement_nugget inducing_nugget sparse_R_nugget : R.
Hypothesis hldlt : ldlt_contract compute_ldlt.
Hypothesis hqr : qr_contract compute_qr.
Hypothesis hk : psd_kernel cov.
Hypothesis hnu : 0 < inducing_nugget.
Variables (k : nat) (u : 'I_k -> feature X).
Local Notation M := (K_uu cov inducing_nugget u).
Local Notation Mp := (M_pd hk hnu u).
Local Notation meas xs := (as_measurement (X := X) \o xs).
Local Notation D gs xs v := (cond_cov cov measurement_nugget inducing_nugget u (same_group gs) (meas xs) v).
Local Notation gain := (gain cov measurement_nugget inducing_nugget u).
Local Notation push := (push cov measurement_nugget inducing_nugget u).
Local Notation history_ := (history cov compute_ldlt compute_qr measurement_nugget inducing_nugget sparse_R_nugget u).
Local Notation predict := (sparse_predict_joint cov mean_function).

Lemma gain_psd n (xs : 'I_n -> feature X) t gs : groups_partition gs ->
  (forall i, 0 < m_var t i 0 + measurement_nugget) -> psd (gain xs t gs).
Proof. by move=> hp hv; exact: (D0_psd_inv hldlt hk hnu). Qed.

Section One.
Variables (n : nat) (xs : 'I_n -> feature X) (t : marginal R_fieldType n) (gs : seq (seq 'I_n)) (f : sparse_fit X k).
Hypothesis H : history_ xs t gs f.
Variables (p : nat) (zs : 'I_p -> feature X).
Let C := cov_mx cov u zs.

Lemma through_zs : through cov inducing_nugget u zs zs = C^T *m invmx M *m C.
Proof. by rewrite throughE -(cov_tr hk u zs). Qed.
Lemma prior_minus : psd (cov_mx cov zs zs - j_cov (predict f zs)).
Proof.
have [hp [hv hs]] := history_stores hldlt hqr hk hnu H.
rewrite (stored_joint mean_function hs) /= -/C.
have -> : cov_mx cov zs zs - (cov_mx cov zs zs - C^T *m invmx M *m C + C^T *m invmx (M + gain xs t gs) *m C) =
   C^T *m (invmx M - invmx (M + gain xs t gs)) *m C.
  by rewrite mulmxBr mulmxBl opprD opprB addrA [X in X - _ = _]addrC subrK.
by apply: psd_congr; apply: inv_antitone; [exact: Mp | exact: gain_psd].
Qed.
Lemma not_below : psd (j_cov (predict f zs) - (cov_mx cov zs zs - through cov inducing_nugget u zs zs)).
Proof.
have [hp [hv hs]] := history_stores hldlt hqr hk hnu H.
rewrite (stored_joint mean_function hs) /= -/C through_zs [X in psd X]addrAC subrr add0r.
by apply: psd_explained; case: hs => _ [_ [[]]].
Qed.
End One.

Lemma shrinks n m (xs : 'I_n -> feature X) t gs f (ys : 'I_m -> feature X) s gs' p (zs : 'I_p -> feature X) :
  history_ xs t gs f -> groups_partition gs' -> (forall i, 0 < m_var s i 0 + measurement_nugget) ->
  psd (j_cov (predict f zs) -
       j_cov (predict (sparse_update_impl cov compute_ldlt compute_qr measurement_nugget inducing_nugget sparse_R_nugget gs' f ys s) zs)).
Proof.
move=> H hp' hv'; have [hp [hv hs]] := history_stores hldlt hqr hk hnu H.
have hs' := update_stores sparse_R_nugget hldlt hqr hk hnu ys hs hp' hv'.
rewrite (stored_joint mean_function hs) (stored_joint mean_function hs') /=.
set C := cov_mx cov u zs; set G := M + gain xs t gs; set W := _ - _ *m C.
rewrite opprD addrACA subrr add0r -mulmxBl -mulmxBr.
apply: psd_congr; apply: inv_antitone; last exact: gain_psd.
by case: hs => _ [_ [[]]].
Qed.

Lemma affine n (xs : 'I_n -> feature X) (v y z : 'cV[R]_n) (a : R) gs fy fz fa p (zs : 'I_p -> feature X) :
  history_ xs (Marginal (F := R_fieldType) y v) gs fy -> history_ xs (Marginal (F := R_fieldType) z v) gs fz ->
  history_ xs (Marginal (F := R_fieldType) (a *: y + (1 - a) *: z) v) gs fa ->
  j_mean (predict fa zs) = a *: j_mean (predict fy zs) + (1 - a) *: j_mean (predict fz zs) /\
  j_cov (predict fa zs) = j_cov (predict fy zs).
Proof.
move=> /(history_stores hldlt hqr hk hnu) [_ [_ hy]] /(history_stores hldlt hqr hk hnu) [_ [_ hz]] /(history_stores hldlt hqr hk hnu) [_ [_ ha]].
rewrite (stored_joint mean_function hy) (stored_joint mean_function hz) (stored_joint mean_function ha) /=.
split; last by [].
rewrite /SparseGpProofs3.push /= mulmxDr -!scalemxAr !mulmxDr -!scalemxAr !scalerDr.
rewrite addrACA; congr (_ + _); rewrite -scalerDl addrC subrK scale1r //.
Qed.

Lemma nothing (xs : 'I_0 -> feature X) t gs f p (zs : 'I_p -> feature X) : history_ xs t gs f ->
  predict f zs = Joint (F := R_fieldType) (mean_v mean_function zs) (cov_mx cov zs zs).
Proof.
move=> /(history_stores hldlt hqr hk hnu) [_ [_ hs]]; rewrite (stored_joint mean_function hs).
have U0 : cov_mx cov (meas xs) u = 0 by apply/matrixP => [[]].
by rewrite /SparseGpProofs3.push /SparseGpProofs3.gain U0 trmx0 !mul0mx !mulmx0 addr0 add0r subrK.
Qed.

Lemma reordered_D n (xs : 'I_n -> feature X) v gs gs' (h : 'I_n -> 'I_n) : injective h ->
  (forall i j, same_group gs' i j = same_group gs (h i) (h j)) ->
  D gs' (xs \o h) (subset_v h v) = mxsub h h (D gs xs v).
Proof.
move=> hi hs; apply/matrixP => i j; rewrite /cond_cov [LHS]mxE [X in X + _]mxE [X in _ + X]mxE [RHS]mxE [RHS]mxE [X in _ = X + _]mxE [X in _ = _ + X]mxE.
rewrite hs (inj_eq hi).
have TE : through cov inducing_nugget u (meas (xs \o h)) (meas (xs \o h)) i j = through cov inducing_nugget u (meas xs) (meas xs) (h i) (h j).
  rewrite !throughE !mxE; apply: eq_bigr => c _; rewrite !mxE; congr (_ * _).
  by apply: eq_bigr => d _; rewrite !mxE.
by rewrite TE; congr (_ - _); case: ifP => // _; rewrite mxE.
Qed.

Lemma reordering n (xs : 'I_n -> feature X) t gs f gs' f' (h : 'I_n -> 'I_n) p (zs : 'I_p -> feature X) :
  bijective h -> (forall i j, same_group gs' i j = same_group gs (h i) (h j)) ->
  history_ xs t gs f -> history_ (xs \o h) (marginal_subset h t) gs' f' ->
  predict f' zs = predict f zs.
Proof.
move=> hb hs /(history_stores hldlt hqr hk hnu) [hp [hv h1]] /(history_stores hldlt hqr hk hnu) [_ [_ h2]].
rewrite (stored_joint mean_function h1) (stored_joint mean_function h2).
have Du := D0_unit hldlt hk hnu u xs hp hv.
have DI : invmx (D gs' (xs \o h) (m_var (marginal_subset h t))) = mxsub h h (invmx (D gs xs (m_var t))).
  by rewrite (reordered_D _ _ (bij_inj hb) hs); have [_ ->] := mxsub_inv hb Du.
have UE : cov_mx cov (meas (xs \o h)) u = rowsub h (cov_mx cov (meas xs) u) by apply/matrixP => i j; rewrite !mxE.
have gE : gain (xs \o h) (marginal_subset h t) gs' = gain xs t gs.
  rewrite /SparseGpProofs3.gain DI UE mxsub_tr -(mxsub_mulb _ _ id h hb) -(mxsub_mulb _ _ id id hb).
  by apply/matrixP => i j; rewrite !mxE.
have pE : push (xs \o h) (marginal_subset h t) gs' = push xs t gs.
  rewrite /SparseGpProofs3.push DI UE mxsub_tr -(mxsub_mulb _ _ id h hb).
  have -> : m_mean (marginal_subset h t) = rowsub h (m_mean t) by apply/colP => i; rewrite !mxE.
  rewrite -(mxsub_mulb _ _ id id hb).
  by apply/matrixP => i j; rewrite !mxE.
by rewrite gE pE.
Qed.
End Bounds.

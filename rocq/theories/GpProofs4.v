From mathcomp Require Import all_ssreflect all_algebra.
From Verif Require Import GpModel GpSpec GpProofs PsdProofs MxTac GpProofs2 GpHistory GpProofs3.
Set Implicit Arguments.
Unset Strict Implicit.
Unset Printing Implicit Defensive.
Import Order.TTheory GRing.Theory Num.Theory.
Local Open Scope ring_scope.

Section Field.
Variable F : fieldType.
Variable X : Type.
Variable cov : feature X -> feature X -> F.
Variable mu : feature X -> F.
Hypothesis cov_sym : forall x y, cov x y = cov y x.

(* ---- C41 ---- *)
Lemma fit_acts n (xs : 'I_n -> feature X) t : acts_as (train_covariance (fit cov mu xs t)) (invmx (kmat cov xs t)).
Proof. by []. Qed.
Lemma fit_information n (xs : 'I_n -> feature X) t : information (fit cov mu xs t) = invmx (kmat cov xs t) *m kvec mu xs t.
Proof. by []. Qed.
Lemma fit_features n (xs : 'I_n -> feature X) t : train_features (fit cov mu xs t) = xs.
Proof. by []. Qed.

Lemma interpolates n (xs : 'I_n -> feature X) (y : 'cV[F]_n) :
  (forall i j, cov (as_measurement (xs i)) (as_measurement (xs j)) = cov (xs i) (xs j)) ->
  (forall i, mu (as_measurement (xs i)) = mu (xs i)) ->
  cov_mx cov xs xs \in unitmx ->
  predict_joint cov mu (fit cov mu xs (Marginal y 0)) xs = Joint y 0.
Proof.
move=> hc hm Ku.
have EK : kmat cov xs (Marginal y 0) = cov_mx cov xs xs.
  rewrite /kmat /= /diag trmx0 linear0 addr0; exact: eq_cov_mx.
have H : acts_as (train_covariance (fit cov mu xs (Marginal y 0))) (invmx (cov_mx cov xs xs)).
  by move=> p b; rewrite -EK.
have Ei : information (fit cov mu xs (Marginal y 0)) = invmx (cov_mx cov xs xs) *m (y - mean_v mu xs).
  by rewrite fit_information EK /kvec; congr (_ *m (_ - _)); apply: eq_mean_v => i; rewrite /= hm.
rewrite (predict_joint_eq cov mu xs H) Ei; congr Joint.
- by rewrite /= cov_mx_tr // mulKVmx // subrK.
- by rewrite /= cov_mx_tr // mulmxV // mul1mx subrr.
Qed.

Lemma predict_fit n p (xs : 'I_n -> feature X) t (zs : 'I_p -> feature X) :
  predict_joint cov mu (fit cov mu xs t) zs =
  Joint ((cov_mx cov xs zs)^T *m (invmx (kmat cov xs t) *m kvec mu xs t) + mean_v mu zs)
        (cov_mx cov zs zs - (cov_mx cov xs zs)^T *m invmx (kmat cov xs t) *m cov_mx cov xs zs).
Proof. by rewrite (predict_joint_eq cov mu zs (fit_acts xs t)) fit_information. Qed.

Lemma affine_targets n p (xs : 'I_n -> feature X) (y z : 'cV[F]_n) v a (zs : 'I_p -> feature X) :
  let pred y := predict_joint cov mu (fit cov mu xs (Marginal y v)) zs in
  j_mean (pred (a *: y + (1 - a) *: z)) = a *: j_mean (pred y) + (1 - a) *: j_mean (pred z) /\
  j_cov (pred y) = j_cov (pred z).
Proof.
move=> pred; rewrite /pred !predict_fit /=; split => //.
set C := (cov_mx cov xs zs)^T; set K := invmx (kmat _ _ _).
have -> : kvec mu xs (Marginal (a *: y + (1 - a) *: z) v) = a *: kvec mu xs (Marginal y v) + (1 - a) *: kvec mu xs (Marginal z v).
  by rewrite /kvec /= !scalerBr addrACA -opprD -scalerDl [a + (1 - a)]addrC subrK scale1r.
move: (kvec mu xs (Marginal y v)) (kvec mu xs (Marginal z v)) => ky kz.
rewrite !mulmxDr -!scalemxAr !scalerDr [RHS]addrACA -scalerDl.
by rewrite [a + (1 - a)]addrC subrK scale1r.
Qed.

Lemma permuted_data n p (xs : 'I_n -> feature X) t (h : 'I_n -> 'I_n) (zs : 'I_p -> feature X) :
  bijective h -> kmat cov xs t \in unitmx ->
  predict_joint cov mu (fit cov mu (xs \o h) (marginal_subset h t)) zs = predict_joint cov mu (fit cov mu xs t) zs.
Proof.
move=> hb Ku; have hi := bij_inj hb.
rewrite !predict_fit.
have -> : kmat cov (xs \o h) (marginal_subset h t) = mxsub h h (kmat cov xs t).
  by rewrite /kmat mxsubD mxsub_diag //; congr (_ + _); apply/matrixP => i j; rewrite !mxE.
have -> : kvec mu (xs \o h) (marginal_subset h t) = rowsub h (kvec mu xs t) by apply/colP => i; rewrite !mxE.
have -> : cov_mx cov (xs \o h) zs = rowsub h (cov_mx cov xs zs) by apply/matrixP => i j; rewrite !mxE.
have [_ ->] := mxsub_inv hb Ku.
rewrite mxsub_tr; congr Joint.
- congr (_ + _); rewrite -(mxsub_mulb _ _ h id hb) -(mxsub_mulb _ _ id id hb).
  by apply/matrixP => i j; rewrite !mxE.
- congr (_ - _); rewrite -(mxsub_mulb _ _ id h hb) -(mxsub_mulb _ _ id id hb).
  by apply/matrixP => i j; rewrite !mxE.
Qed.

Lemma no_data p (xs : 'I_0 -> feature X) t (zs : 'I_p -> feature X) :
  predict_joint cov mu (fit cov mu xs t) zs = Joint (mean_v mu zs) (cov_mx cov zs zs).
Proof.
rewrite predict_fit.
have -> : cov_mx cov xs zs = 0 by apply/matrixP => [[]].
by rewrite trmx0 !mul0mx add0r subr0.
Qed.

(* adding the mean function to a zero mean model *)
Lemma mean_function_equivariant n p (xs : 'I_n -> feature X) y v (zs : 'I_p -> feature X) :
  let with_mean := predict_joint cov mu (fit cov mu xs (Marginal y v)) zs in
  let residual := predict_joint cov (fun _ => 0) (fit cov (fun _ => 0) xs (Marginal (y - mean_v mu (as_measurement (X:=X) \o xs)) v)) zs in
  j_mean with_mean = mean_v mu zs + j_mean residual /\ j_cov with_mean = j_cov residual.
Proof.
move=> w r; split => //; rewrite /w /r /predict_joint /fit /make_fit /= /gp_mean_prediction.
have E0 : forall k (us : 'I_k -> feature X), mean_v (fun _ => 0) us = 0 :> 'cV[F]_k.
  by move=> k us; apply/colP => i; rewrite !mxE.
by rewrite !E0 addr0 subr0 addrC.
Qed.
End Field.

Section Ordered.
Variable R : realFieldType.
Variable X : Type.
Variable cov : feature X -> feature X -> R.
Variable mu : feature X -> R.
Hypothesis cov_sym : forall x y, cov x y = cov y x.

(* ---- C37 for any sequence of batches ---- *)
Lemma pd_prefix (bs : seq (batch R X)) : forall n (xs : 'I_n -> feature X) t,
  (let d := concat_all xs t bs in pd (kmat cov (projT2 d).1 (projT2 d).2)) -> pd (kmat cov xs t).
Proof.
elim: bs => [|[m [ys u]] bs IH] n xs t //= H.
by move/IH: H; rewrite kmat_concat // => /pd_block [].
Qed.

Lemma update_all_like (bs : seq (batch R X)) : forall n (gp : gp_fit R X n) xs t,
  (forall x y, cov (as_measurement x) (as_measurement y) = cov x y) -> (forall x, mu (as_measurement x) = mu x) ->
  like_fit cov mu gp xs t ->
  (let d := concat_all xs t bs in pd (kmat cov (projT2 d).1 (projT2 d).2)) ->
  exists e : projT1 (update_all cov mu gp bs) = projT1 (concat_all xs t bs),
  like_fit cov mu (projT2 (update_all cov mu gp bs))
    (fun i => (projT2 (concat_all xs t bs)).1 (cast_ord e i))
    (let t' := (projT2 (concat_all xs t bs)).2 in
     Marginal (rowsub (cast_ord e) (m_mean t')) (rowsub (cast_ord e) (m_var t'))).
Proof.
elim: bs => [|[m [ys u]] bs IH] n gp xs t hc hm L H.
- exists erefl => /=.
  have -> : Marginal (rowsub (cast_ord erefl) (m_mean t)) (rowsub (cast_ord erefl) (m_var t)) = t.
    by case: t {L H} => a b; congr Marginal; apply/colP => i; rewrite !mxE cast_ord_id.
  case: L => fx [sA iA]; split; first by move=> i; rewrite cast_ord_id.
  suff -> : kmat cov (fun i => xs (cast_ord erefl i)) t = kmat cov xs t.
    split => //; rewrite iA /kvec; congr (_ - _); apply/colP => i; rewrite !mxE /= cast_ord_id //.
  by rewrite /kmat; congr (_ + _); apply: eq_cov_mx => i j /=; rewrite !cast_ord_id.
- apply: IH => //; apply: update_like => //.
  by apply: pd_unit; apply: (@pd_prefix bs _ (concat_f xs ys) (concat_t t u) H).
Qed.

Lemma predict_cast n n' (e : n = n') (xs : 'I_n' -> feature X) t p (zs : 'I_p -> feature X) :
  predict_joint cov mu (fit cov mu (fun i => xs (cast_ord e i))
    (Marginal (rowsub (cast_ord e) (m_mean t)) (rowsub (cast_ord e) (m_var t)))) zs =
  predict_joint cov mu (fit cov mu xs t) zs.
Proof.
subst n'.
have -> : Marginal (rowsub (cast_ord erefl) (m_mean t)) (rowsub (cast_ord erefl) (m_var t)) = t.
  by case: t => a b; congr Marginal; apply/colP => i; rewrite !mxE cast_ord_id.
rewrite !predict_fit.
have -> : kmat cov (fun i => xs (cast_ord erefl i)) t = kmat cov xs t.
  by rewrite /kmat; congr (_ + _); apply: eq_cov_mx => i j /=; rewrite !cast_ord_id.
have -> : kvec mu (fun i => xs (cast_ord erefl i)) t = kvec mu xs t.
  by rewrite /kvec; congr (_ - _); apply/colP => i; rewrite !mxE /= cast_ord_id.
have -> // : cov_mx cov (fun i => xs (cast_ord erefl i)) zs = cov_mx cov xs zs.
by apply: eq_cov_mx => i j /=; rewrite !cast_ord_id.
Qed.

Lemma update_all_refit (bs : seq (batch R X)) n (xs : 'I_n -> feature X) t :
  (forall x y, cov (as_measurement x) (as_measurement y) = cov x y) -> (forall x, mu (as_measurement x) = mu x) ->
  (let d := concat_all xs t bs in pd (kmat cov (projT2 d).1 (projT2 d).2)) ->
  forall p (zs : 'I_p -> feature X),
  predict_joint cov mu (projT2 (update_all cov mu (fit cov mu xs t) bs)) zs =
  (let d := concat_all xs t bs in predict_joint cov mu (fit cov mu (projT2 d).1 (projT2 d).2) zs).
Proof.
move=> hc hm H p zs.
have Lf : like_fit cov mu (fit cov mu xs t) xs t by apply: fit_like; apply/pd_unit/(pd_prefix H).
have [e L] := update_all_like hc hm Lf H.
have Ku : kmat cov (fun i => (projT2 (concat_all xs t bs)).1 (cast_ord e i)) (Marginal (rowsub (cast_ord e) (m_mean (projT2 (concat_all xs t bs)).2)) (rowsub (cast_ord e) (m_var (projT2 (concat_all xs t bs)).2))) \in unitmx.
  by case: L => _ [/solves_inv [] ].
by rewrite (like_predict Ku L) predict_cast.
Qed.

(* ---- C40 ---- *)
Lemma variance_shrinks n p (xs : 'I_n -> feature X) t (zs : 'I_p -> feature X) :
  pd (kmat cov xs t) -> psd (cov_mx cov zs zs - j_cov (predict_joint cov mu (fit cov mu xs t) zs)).
Proof.
move=> Kp; rewrite predict_fit /= opprB addrC subrK; exact: psd_explained.
Qed.

Lemma posterior_psd n p (xs : 'I_n -> feature X) t (zs : 'I_p -> feature X) :
  (forall k (us : 'I_k -> feature X), psd (cov_mx cov us us)) ->
  (forall i, 0 <= m_var t i 0) ->
  (forall i j, cov (as_measurement (xs i)) (zs j) = cov (xs i) (zs j)) ->
  kmat cov xs t \in unitmx ->
  psd (j_cov (predict_joint cov mu (fit cov mu xs t) zs)).
Proof.
move=> hp hv hc Ku; rewrite predict_fit /=.
apply: psd_schur => //.
have := hp _ (concat_f (as_measurement (X:=X) \o xs) zs).
rewrite cov_mx_join !cov_mx_join_r -block_mxEv.
have -> : cov_mx cov (as_measurement (X:=X) \o xs) zs = cov_mx cov xs zs by apply: eq_cov_mx => i j; rewrite /= hc.
have -> : cov_mx cov zs (as_measurement (X:=X) \o xs) = (cov_mx cov xs zs)^T.
  by apply/matrixP => i j; rewrite !mxE cov_sym hc.
move=> H; have D : psd (block_mx (diag (m_var t)) 0 0 (0 : 'M[R]_p)).
  have -> : block_mx (diag (m_var t)) 0 0 (0 : 'M[R]_p) = diag (col_mx (m_var t) 0).
    by rewrite diag_join; congr block_mx; apply/matrixP => i j; rewrite !mxE mul0rn.
  apply: psd_diag => i; rewrite -(splitK i); case: (split i) => a; rewrite /= ?col_mxEu ?col_mxEd ?mxE //.
have := psdD H D; rewrite add_block_mx !addr0 => HD; exact: HD.
Qed.

Lemma marginal_le n p (xs : 'I_n -> feature X) t (zs : 'I_p -> feature X) :
  pd (kmat cov xs t) -> forall j, m_var (predict_marginal cov mu (fit cov mu xs t) zs) j 0 <= cov (zs j) (zs j).
Proof.
move=> Kp j; have [-> _] := predict_agree cov mu (fit cov mu xs t) zs.
have := psd_diag_ge0 j (variance_shrinks zs Kp); rewrite /= !mxE subr_ge0; exact.
Qed.

(* more data, less covariance *)
Lemma update_shrinks n m p (xs : 'I_n -> feature X) t (ys : 'I_m -> feature X) u (zs : 'I_p -> feature X) :
  agree_new cov mu xs ys -> pd (kmat cov (concat_f xs ys) (concat_t t u)) ->
  psd (j_cov (predict_joint cov mu (fit cov mu xs t) zs) -
       j_cov (predict_joint cov mu (update cov mu (fit cov mu xs t) ys u) zs)).
Proof.
move=> ha Mp; have := Mp; rewrite kmat_concat // => /pd_block [Ap [_ Sp]].
have Au := pd_unit Ap; have Mu := pd_unit Mp; have Su := pd_unit Sp.
rewrite update_refit // !predict_fit /=.
set A := kmat cov xs t in Ap Au Sp Su *; set M := kmat _ _ _ in Mp Mu *.
rewrite cov_mx_join tr_col_mx; set c := cov_mx cov xs zs; set d := cov_mx cov ys zs.
set B := cov_mx cov (as_measurement (X:=X) \o xs) _ in Sp Su.
set S := _ - _ in Sp Su.
set D := kmat cov ys u in S Sp Su.
have As : A^T = A by case: Ap.
have AsI : (invmx A)^T = invmx A by rewrite trmx_inv As.
have EM : M = block_mx A B B^T (S + B^T *m invmx A *m B).
  by rewrite /M kmat_concat // /S subrK.
have Hs := solves_block_S B (solves_ldlt Au) As Su.
have [_ HM] := (solves_inv _ _).1 Hs.
rewrite -EM in HM.
have -> : row_mx c^T d^T *m invmx M *m col_mx c d = row_mx c^T d^T *m block_symmetric_solve (build_block_symmetric_S (ldlt A) B S) (col_mx c d).
  by rewrite HM mulmxA.
rewrite /block_symmetric_solve /= col_mxKu col_mxKd /ldlt mul_row_col trmx_mul AsI.
set e := d - B^T *m invmx A *m c.
have -> : invmx S *m (B^T *m invmx A *m c) - invmx S *m d = - (invmx S *m e).
  by rewrite /e mulmxBr opprB.
have -> : invmx S *m d - invmx S *m (B^T *m invmx A *m c) = invmx S *m e by rewrite /e mulmxBr.
have -> : cov_mx cov zs zs - c^T *m invmx A *m c - (cov_mx cov zs zs - (c^T *m (invmx A *m c + invmx A *m B *m - (invmx S *m e)) + d^T *m (invmx S *m e))) = e^T *m invmx S *m e.
  have -> : e^T = d^T - c^T *m invmx A *m B.
    by rewrite /e [LHS]linearB /= !trmx_mul trmxK AsI mulmxA.
  clearbody e; rewrite !mulmxDr !mulmxN !mulmxBl !mulmxA; zgroup.
exact: psd_explained.
Qed.
End Ordered.

From mathcomp Require Import all_ssreflect all_algebra.
From Verif Require Import GpModel GpSpec GpProofs PsdProofs MxTac.
Set Implicit Arguments.
Unset Strict Implicit.
Unset Printing Implicit Defensive.
Import Order.TTheory GRing.Theory Num.Theory.
Local Open Scope ring_scope.

Section Field.
Variable F : fieldType.

Lemma diag_join n m (a : 'cV[F]_n) (b : 'cV[F]_m) : diag (col_mx a b) = block_mx (diag a) 0 0 (diag b).
Proof. by rewrite /diag tr_col_mx diag_mx_row. Qed.
Lemma symmetric_diag n (v : 'cV[F]_n) : symmetric (diag v).
Proof. by rewrite /symmetric /diag tr_diag_mx. Qed.
Lemma mxsub_diag n k (h : 'I_k -> 'I_n) (v : 'cV[F]_n) : injective h -> mxsub h h (diag v) = diag (rowsub h v).
Proof. by move=> hi; apply/matrixP => i j; rewrite !mxE (inj_eq hi). Qed.
Lemma mxsub_diag_off n k m (f : 'I_k -> 'I_n) (g : 'I_m -> 'I_n) (v : 'cV[F]_n) :
  (forall a b, f a <> g b) -> mxsub f g (diag v) = 0.
Proof. by move=> H; apply/matrixP => i j; rewrite !mxE; case: eqP => [/H|]. Qed.
Lemma mxsubD n m k l (f : 'I_k -> 'I_n) (g : 'I_l -> 'I_m) (A B : 'M[F]_(n, m)) :
  mxsub f g (A + B) = mxsub f g A + mxsub f g B.
Proof. by apply/matrixP => i j; rewrite !mxE. Qed.
Lemma mxsubB n m k l (f : 'I_k -> 'I_n) (g : 'I_l -> 'I_m) (A B : 'M[F]_(n, m)) :
  mxsub f g (A - B) = mxsub f g A - mxsub f g B.
Proof. by apply/matrixP => i j; rewrite !mxE. Qed.
Lemma mxsub_tr n m k l (f : 'I_k -> 'I_n) (g : 'I_l -> 'I_m) (A : 'M[F]_(n, m)) :
  (mxsub f g A)^T = mxsub g f A^T.
Proof. by apply/matrixP => i j; rewrite !mxE. Qed.

Lemma addmxE' (V : zmodType) m n (A B : 'M[V]_(m, n)) i j : (A + B) i j = A i j + B i j.
Proof. by rewrite mxE. Qed.

(* ---- conditional distributions ---- *)
Lemma conditional_formula k m (mf : 'cV[F]_k) (mg : 'cV[F]_m) Sff Sfg Sgg y mean cov :
  Sgg \in unitmx -> symmetric Sgg ->
  (conditional mf mg Sff Sfg Sgg y mean cov <->
   mean = mf + Sfg *m invmx Sgg *m (y - mg) /\ cov = Sff - Sfg *m invmx Sgg *m Sfg^T).
Proof.
move=> Su Ss; have Si := symmetric_inv Ss; split.
- case=> W [/subr0_eq HW [-> ->]]; have EW : W = Sfg *m invmx Sgg by rewrite HW mulmxK.
  by rewrite EW; split => //; rewrite trmx_mul Si mulmxKV // mulmxA subrK.
- case=> -> ->; exists (Sfg *m invmx Sgg); rewrite mulmxKV // subrr; split => //; split => //.
  by rewrite trmx_mul Si mulmxA subrK.
Qed.

(* the held out identities for one group *)
Lemma held_out_joint_correct n k m (f : 'I_k -> 'I_n) (g : 'I_m -> 'I_n) (A : 'M[F]_n) (y mu : 'cV[F]_n) :
  complementary f g -> A \in unitmx -> mxsub g g A \in unitmx -> symmetric A ->
  let out := held_out_joint (mxsub f f (invmx A)) (rowsub f y) (rowsub f (invmx A *m (y - mu))) in
  mxsub f f (invmx A) \in unitmx /\
  conditional (rowsub f mu) (rowsub g mu) (mxsub f f A) (mxsub f g A) (mxsub g g A) (rowsub g y) (j_mean out) (j_cov out).
Proof.
move=> fg Au Gu As; set h := join_idx f g; have hb : bijective h by exact: join_bij.
have [Hu Hi] := mxsub_inv hb Au.
have Gs : symmetric (mxsub g g A) by rewrite /symmetric mxsub_tr As.
have Eblk : mxsub h h A = block_mx (mxsub f f A) (mxsub f g A) (mxsub g f A) (mxsub g g A) by exact: mxsub_join.
rewrite Eblk in Hu Hi.
have [Su [Uu Ui]] := block_inverse_ul Gu Hu.
have Eul : ulsubmx (invmx (block_mx (mxsub f f A) (mxsub f g A) (mxsub g f A) (mxsub g g A))) = mxsub f f (invmx A).
  by rewrite Hi mxsub_join block_mxKul.
rewrite Eul in Uu Ui.
have Efg : mxsub g f A = (mxsub f g A)^T by rewrite mxsub_tr As.
split => //; apply/conditional_formula => //=; split; last by rewrite Ui Efg.
rewrite Ui.
have Ev : block_mx (mxsub f f A) (mxsub f g A) (mxsub g f A) (mxsub g g A) *m rowsub h (invmx A *m (y - mu)) = col_mx (rowsub f (y - mu)) (rowsub g (y - mu)).
  by rewrite -Eblk -(mxsub_mulb _ _ h id hb) mulKVmx // rowsub_join.
have := block_eliminate Gu Ev; rewrite rowsub_join col_mxKu Efg => ->.
rewrite -!mxsubB; set T := _ *m rowsub g _; rewrite [rowsub f (y - mu)]mxsubB.
zgroup.
Qed.

(* ---- the prediction functions ---- *)
Lemma marginal_of_joint n p (cross : 'M[F]_(n, p)) (prior_cov : 'M[F]_p) info (s : solver F n) :
  gp_marginal_prediction cross (\col_i prior_cov i i) info s = joint_marginal (gp_joint_prediction cross prior_cov info s).
Proof.
rewrite /gp_marginal_prediction /joint_marginal /gp_joint_prediction /=; congr Marginal.
apply/colP => j; rewrite !mxE; congr (_ - _); apply: eq_bigr => i _.
by rewrite !mxE mulrC.
Qed.

Section Features.
Variable X : Type.
Variable cov : feature X -> feature X -> F.
Variable mu : feature X -> F.

Lemma predict_agree n p (gp : gp_fit F X n) (xs : 'I_p -> feature X) :
  predict_marginal cov mu gp xs = joint_marginal (predict_joint cov mu gp xs) /\
  predict_mean cov mu gp xs = j_mean (predict_joint cov mu gp xs).
Proof.
split => //; rewrite /predict_marginal.
have -> : \col_i cov (xs i) (xs i) = \col_i (cov_mx cov xs xs) i i by apply/colP => i; rewrite !mxE.
by rewrite marginal_of_joint.
Qed.

Lemma cov_mx_sub n p k l (xs : 'I_n -> feature X) (ys : 'I_p -> feature X) (f : 'I_k -> 'I_n) (g : 'I_l -> 'I_p) :
  cov_mx cov (xs \o f) (ys \o g) = mxsub f g (cov_mx cov xs ys).
Proof. by apply/matrixP => i j; rewrite !mxE. Qed.
Lemma mean_v_sub n k (xs : 'I_n -> feature X) (f : 'I_k -> 'I_n) : mean_v mu (xs \o f) = rowsub f (mean_v mu xs).
Proof. by apply/colP => i; rewrite !mxE. Qed.

Lemma predict_joint_eq n p (gp : gp_fit F X n) M (xs : 'I_p -> feature X) :
  (forall p b, train_covariance gp p b = M *m b) ->
  predict_joint cov mu gp xs =
  Joint ((cov_mx cov (train_features gp) xs)^T *m information gp + mean_v mu xs)
        (cov_mx cov xs xs - (cov_mx cov (train_features gp) xs)^T *m M *m cov_mx cov (train_features gp) xs).
Proof. by move=> H; rewrite /predict_joint /gp_joint_prediction /gp_mean_prediction /= H mulmxA. Qed.

Lemma predict_subset n p k (gp : gp_fit F X n) M (xs : 'I_p -> feature X) (f : 'I_k -> 'I_p) :
  (forall p b, train_covariance gp p b = M *m b) ->
  predict_joint cov mu gp (xs \o f) = joint_subset f (predict_joint cov mu gp xs).
Proof.
move=> H; rewrite !(predict_joint_eq _ H) /joint_subset /subset_v /subset_m /=.
have -> : cov_mx cov (train_features gp) (xs \o f) = colsub f (cov_mx cov (train_features gp) xs).
  by apply/matrixP => i j; rewrite !mxE.
set C := cov_mx _ _ xs; congr Joint.
- by rewrite mxsubD mean_v_sub; congr (_ + _); rewrite mxsub_tr mul_rowsub_mx.
- rewrite mxsubB cov_mx_sub; congr (_ - _).
  by rewrite mxsub_tr !mul_rowsub_mx mulmx_colsub; apply/matrixP => i j; rewrite !mxE.
Qed.

(* ---- fitting and updating ---- *)
Lemma cov_mx_join n m k (xs : 'I_n -> feature X) (ys : 'I_m -> feature X) (zs : 'I_k -> feature X) :
  cov_mx cov (concat_f xs ys) zs = col_mx (cov_mx cov xs zs) (cov_mx cov ys zs).
Proof.
apply/matrixP => i j; rewrite -(splitK i).
by case: (split i) => a; rewrite /= ?col_mxEu ?col_mxEd !mxE /concat_f ?split_lshift ?split_rshift.
Qed.
Lemma cov_mx_join_r n m k (xs : 'I_n -> feature X) (ys : 'I_m -> feature X) (zs : 'I_k -> feature X) :
  cov_mx cov zs (concat_f xs ys) = row_mx (cov_mx cov zs xs) (cov_mx cov zs ys).
Proof.
apply/matrixP => j i; rewrite -(splitK i).
by case: (split i) => a; rewrite /= ?row_mxEl ?row_mxEr !mxE /concat_f ?split_lshift ?split_rshift.
Qed.
Lemma mean_v_join n m (xs : 'I_n -> feature X) (ys : 'I_m -> feature X) :
  mean_v mu (concat_f xs ys) = col_mx (mean_v mu xs) (mean_v mu ys).
Proof.
apply/matrixP => i j; rewrite -(splitK i).
by case: (split i) => a; rewrite /= ?col_mxEu ?col_mxEd !mxE /concat_f ?split_lshift ?split_rshift.
Qed.

Definition S_of n m (gp : gp_fit F X n) (ys : 'I_m -> feature X) (t : marginal F m) : 'M[F]_m :=
  j_cov (predict_joint cov mu gp ys) + diag (m_var t).

Lemma update_state n m (gp : gp_fit F X n) (A : 'M[F]_n) (y : 'cV[F]_n) (ys : 'I_m -> feature X) (t : marginal F m) :
  solves (train_covariance gp) A -> symmetric A -> A *m information gp = y ->
  S_of gp ys t \in unitmx ->
  let B := cov_mx cov (train_features gp) ys in
  let M := block_mx A B B^T (cov_mx cov ys ys + diag (m_var t)) in
  solves (train_covariance (update cov mu gp ys t)) M /\
  M *m information (update cov mu gp ys t) = col_mx y (m_mean t - mean_v mu ys).
Proof.
move=> sA As Ai Su B M.
have [Au H] := (solves_inv _ _).1 sA.
have ES : S_of gp ys t + B^T *m invmx A *m B = cov_mx cov ys ys + diag (m_var t).
  rewrite /S_of (predict_joint_eq _ H) /= -/B; zgroup.
have sM : solves (train_covariance (update cov mu gp ys t)) M.
  by rewrite /M -ES; apply: (solves_block_S _ sA As Su).
split => //.
have [Mu HM] := (solves_inv _ _).1 sM.
have -> : information (update cov mu gp ys t) = train_covariance (update cov mu gp ys t) 1%N (col_mx y (m_mean t - mean_v mu ys)).
  rewrite /update /= /block_symmetric_solve /= col_mxKu col_mxKd -/B /gp_mean_prediction !H -Ai mulKmx //.
  rewrite -/(S_of gp ys t) /ldlt trmx_mul trmx_inv As mulmxA mulmxKV //.
  set d := m_mean t - mean_v mu ys; set u := B^T *m information gp.
  have -> : m_mean t - (u + mean_v mu ys) = d - u by rewrite /d; zgroup.
  by rewrite mulmxBr -[_ *m u - _]opprB mulmxN.
by rewrite HM mulKVmx.
Qed.

(* a fit on measured features *)
Lemma fit_state n (xs : 'I_n -> feature X) (t : marginal F n) :
  let ms := as_measurement (X:=X) \o xs in
  let A := cov_mx cov ms ms + diag (m_var t) in
  A \in unitmx ->
  solves (train_covariance (fit cov mu xs t)) A /\ A *m information (fit cov mu xs t) = m_mean t - mean_v mu ms.
Proof.
move=> ms A Au; split; first exact: solves_ldlt.
by rewrite /fit /make_fit /= /ldlt mulKVmx.
Qed.

(* fits that solve the same systems predict the same *)
Lemma same_predictions n (gp gp' : gp_fit F X n) (A : 'M[F]_n) :
  train_features gp =1 train_features gp' -> solves (train_covariance gp) A -> solves (train_covariance gp') A ->
  A *m information gp = A *m information gp' ->
  forall p (zs : 'I_p -> feature X), predict_joint cov mu gp zs = predict_joint cov mu gp' zs.
Proof.
move=> ef /solves_inv [Au H] /solves_inv [_ H'] ei p zs.
rewrite (predict_joint_eq _ H) (predict_joint_eq _ H').
have -> : information gp = information gp' by rewrite -[LHS](mulKmx Au) ei mulKmx.
have -> // : cov_mx cov (train_features gp) zs = cov_mx cov (train_features gp') zs.
by apply/matrixP => i j; rewrite !mxE ef.
Qed.
End Features.
End Field.

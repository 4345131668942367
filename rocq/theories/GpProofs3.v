From mathcomp Require Import all_ssreflect all_algebra.
From Verif Require Import GpModel GpSpec GpProofs PsdProofs MxTac GpProofs2 GpHistory.
Set Implicit Arguments.
Unset Strict Implicit.
Unset Printing Implicit Defensive.
Import Order.TTheory GRing.Theory Num.Theory.
Local Open Scope ring_scope.

Section Field.
Variable F : fieldType.

Lemma block_symmetric_acts n m (s : solver F n) M (B : 'M[F]_(n, m)) (S : 'M[F]_m) :
  acts_as s M -> exists M', acts_as (block_symmetric_solve (build_block_symmetric_S s B S)) M'.
Proof.
move=> H; set AiB := M *m B; set Si := invmx S.
exists (block_mx (M + AiB *m Si *m AiB^T) (- (AiB *m Si)) (- (Si *m AiB^T)) Si) => p b.
rewrite /block_symmetric_solve /build_block_symmetric_S /= !H -[in RHS](vsubmxK b) mul_block_col /ldlt.
set b1 := usubmx b; set b2 := dsubmx b; congr col_mx.
- by rewrite mulmxDl mulmxBr -addrA mulNmx -/AiB !mulmxA.
- by rewrite mulNmx addrC -/AiB !mulmxA.
Qed.

Lemma explained_acts n (K P : 'M[F]_n) : acts_as (explained (ldlt K) P) (invmx K *m P *m invmx K).
Proof. by move=> p b; rewrite /explained /ldlt !mulmxA. Qed.

Lemma explained_solves n (K P : 'M[F]_n) :
  K \in unitmx -> P \in unitmx -> solves (explained (ldlt K) P) (K *m invmx P *m K).
Proof.
move=> Ku Pu; apply: solves_of_right => p b.
by rewrite /explained /ldlt !mulmxA mulmxK // mulmxKV // mulmxV // mul1mx.
Qed.

Section Features.
Variable X : Type.
Variable cov : feature X -> feature X -> F.
Variable mu : feature X -> F.
Hypothesis cov_sym : forall x y, cov x y = cov y x.

Lemma cov_mx_tr n m (xs : 'I_n -> feature X) (ys : 'I_m -> feature X) : (cov_mx cov xs ys)^T = cov_mx cov ys xs.
Proof. by apply/matrixP => i j; rewrite !mxE. Qed.

Lemma train_symmetric n (xs : 'I_n -> feature X) (v : 'cV[F]_n) : symmetric (cov_mx cov xs xs + diag v).
Proof. by rewrite /symmetric linearD /= cov_mx_tr symmetric_diag. Qed.

Lemma am_concat n m (xs : 'I_n -> feature X) (ys : 'I_m -> feature X) :
  as_measurement (X:=X) \o concat_f xs ys =1 concat_f (as_measurement (X:=X) \o xs) (as_measurement (X:=X) \o ys).
Proof. by move=> i; rewrite /= /concat_f; case: (split i). Qed.

Lemma eq_cov_mx n m (xs xs' : 'I_n -> feature X) (ys ys' : 'I_m -> feature X) :
  (forall i j, cov (xs i) (ys j) = cov (xs' i) (ys' j)) -> cov_mx cov xs ys = cov_mx cov xs' ys'.
Proof. by move=> H; apply/matrixP => i j; rewrite !mxE. Qed.
Lemma eq_mean_v n (xs xs' : 'I_n -> feature X) :
  (forall i, mu (xs i) = mu (xs' i)) -> mean_v mu xs = mean_v mu xs'.
Proof. by move=> H; apply/colP => i; rewrite !mxE. Qed.

Lemma kmat_concat n m (xs : 'I_n -> feature X) t (ys : 'I_m -> feature X) u :
  kmat cov (concat_f xs ys) (concat_t t u) =
  block_mx (kmat cov xs t) (cov_mx cov (as_measurement (X:=X) \o xs) (as_measurement (X:=X) \o ys))
    (cov_mx cov (as_measurement (X:=X) \o xs) (as_measurement (X:=X) \o ys))^T (kmat cov ys u).
Proof.
rewrite /kmat (@eq_cov_mx _ _ _ (concat_f (as_measurement (X:=X) \o xs) (as_measurement (X:=X) \o ys)) _ (concat_f (as_measurement (X:=X) \o xs) (as_measurement (X:=X) \o ys))); last by move=> i j; rewrite !am_concat.
rewrite cov_mx_join !cov_mx_join_r /= diag_join -block_mxEv add_block_mx !addr0.
by congr block_mx; rewrite cov_mx_tr.
Qed.
Lemma kvec_concat n m (xs : 'I_n -> feature X) t (ys : 'I_m -> feature X) u :
  kvec mu (concat_f xs ys) (concat_t t u) = col_mx (kvec mu xs t) (kvec mu ys u).
Proof.
rewrite /kvec (@eq_mean_v _ _ (concat_f (as_measurement (X:=X) \o xs) (as_measurement (X:=X) \o ys))); last by move=> i; rewrite am_concat.
by rewrite mean_v_join /= opp_col_mx add_col_mx.
Qed.

(* [gp] behaves like the fit to (xs, t) *)
Definition like_fit n (gp : gp_fit F X n) (xs : 'I_n -> feature X) (t : marginal F n) : Prop :=
  train_features gp =1 xs /\ solves (train_covariance gp) (kmat cov xs t) /\ kmat cov xs t *m information gp = kvec mu xs t.

Lemma fit_like n (xs : 'I_n -> feature X) t : kmat cov xs t \in unitmx -> like_fit (fit cov mu xs t) xs t.
Proof. by move=> Ku; have [H1 H2] := fit_state (cov:=cov) mu Ku; split => //. Qed.

Lemma update_like n m (gp : gp_fit F X n) (xs : 'I_n -> feature X) t (ys : 'I_m -> feature X) u :
  like_fit gp xs t -> agree_new cov mu xs ys -> kmat cov (concat_f xs ys) (concat_t t u) \in unitmx ->
  like_fit (update cov mu gp ys u) (concat_f xs ys) (concat_t t u).
Proof.
case=> fx [sA iA] [h1 [h2 h3]] Mu.
have [Au H] := (solves_inv _ _).1 sA.
have EB : cov_mx cov (as_measurement (X:=X) \o xs) (as_measurement (X:=X) \o ys) = cov_mx cov (train_features gp) ys.
  by apply: eq_cov_mx => i j; rewrite /= h1 fx.
have EK : kmat cov ys u = cov_mx cov ys ys + diag (m_var u).
  by rewrite /kmat; congr (_ + _); apply: eq_cov_mx => i j; rewrite /= h2.
have Ev : kvec mu ys u = m_mean u - mean_v mu ys by rewrite /kvec; congr (_ - _); apply: eq_mean_v => i /=.
have As : symmetric (kmat cov xs t) by exact: train_symmetric.
have Su : S_of cov mu gp ys u \in unitmx.
  move: Mu; rewrite kmat_concat schur_unit // EK EB.
  set Z := (X in X \in _ -> _); have -> // : S_of cov mu gp ys u = Z.
  rewrite /S_of (predict_joint_eq _ _ _ H) /Z /=; zgroup.
have [s' i'] := update_state sA As iA Su.
split; first by move=> i; rewrite /= /concat_f; case: (split i) => a.
by rewrite kmat_concat kvec_concat EB EK Ev.
Qed.

Lemma like_predict n (gp : gp_fit F X n) xs t :
  kmat cov xs t \in unitmx ->
  like_fit gp xs t -> forall p (zs : 'I_p -> feature X), predict_joint cov mu gp zs = predict_joint cov mu (fit cov mu xs t) zs.
Proof.
move=> Ku [fx [sA iA]]; have [fx' [sA' iA']] := fit_like Ku.
by apply: (same_predictions cov mu _ sA sA'); rewrite ?iA ?iA'.
Qed.

Lemma update_refit n m (xs : 'I_n -> feature X) t (ys : 'I_m -> feature X) u :
  agree_new cov mu xs ys -> kmat cov xs t \in unitmx -> kmat cov (concat_f xs ys) (concat_t t u) \in unitmx ->
  forall p (zs : 'I_p -> feature X),
  predict_joint cov mu (update cov mu (fit cov mu xs t) ys u) zs =
  predict_joint cov mu (fit cov mu (concat_f xs ys) (concat_t t u)) zs.
Proof. by move=> ha Au Mu; apply: like_predict => //; apply: update_like => //; apply: fit_like. Qed.

(* ---- fit_from_prediction ---- *)
Lemma ffp_acts n (us : 'I_n -> feature X) (P : joint F n) :
  acts_as (train_covariance (fit_from_prediction cov mu us P))
    (invmx (cov_mx cov us us) *m (cov_mx cov us us - j_cov P) *m invmx (cov_mx cov us us)).
Proof. exact: explained_acts. Qed.
Lemma fit_from_prediction_recovers n (us : 'I_n -> feature X) (P : joint F n) :
  cov_mx cov us us \in unitmx -> predict_joint cov mu (fit_from_prediction cov mu us P) us = P.
Proof.
move=> Ku.
have HE := ffp_acts us P.
rewrite (predict_joint_eq _ _ _ HE) /= cov_mx_tr /ldlt.
rewrite !mulmxA mulmxV // !mul1mx mulmxKV // subrK opprB addrC subrK.
by case: P {HE}.
Qed.

Lemma fit_from_prediction_same n (gp : gp_fit F X n) M :
  cov_mx cov (train_features gp) (train_features gp) \in unitmx -> acts_as (train_covariance gp) M ->
  forall p (zs : 'I_p -> feature X),
  predict_joint cov mu (fit_from_prediction cov mu (train_features gp) (predict_joint cov mu gp (train_features gp))) zs =
  predict_joint cov mu gp zs.
Proof.
move=> Ku H p zs.
rewrite (predict_joint_eq _ _ _ (@ffp_acts _ _ _)) (predict_joint_eq _ _ _ H) /=.
rewrite (predict_joint_eq _ _ _ H) /= cov_mx_tr; set K := cov_mx cov (train_features gp) (train_features gp) in Ku *.
have Ks : K^T = K by exact: cov_mx_tr.
rewrite addrK /ldlt Ks mulKmx //.
have -> // : invmx K *m (K - (K - K *m M *m K)) *m invmx K = M.
by rewrite opprB addrC subrK !mulmxA mulVmx // mul1mx mulmxK.
Qed.

Lemma reachable_acts n (gp : gp_fit F X n) : reachable cov mu gp -> exists M, acts_as (train_covariance gp) M.
Proof.
elim=> {n gp} [n xs t|n us P|n gp m ys t _ [M HM]].
- by exists (invmx (kmat cov xs t)).
- by eexists; apply: explained_acts.
- exact: block_symmetric_acts HM.
Qed.

(* ---- leave one group out ---- *)
Lemma held_out_conditional n k m (f : 'I_k -> 'I_n) (g : 'I_m -> 'I_n) (prior : joint F n) (truth : marginal F n) :
  let A := j_cov prior + diag (m_var truth) in
  symmetric (j_cov prior) -> complementary f g -> A \in unitmx -> mxsub g g A \in unitmx ->
  let out := leave_one_group_out (@held_out_joint F) prior truth f in
  conditional (rowsub f (j_mean prior)) (rowsub g (j_mean prior))
    (mxsub f f A) (mxsub f g (j_cov prior)) (mxsub g g A) (rowsub g (m_mean truth)) (j_mean out) (j_cov out).
Proof.
move=> A Ps fg Au Gu out.
have As : symmetric A by rewrite /symmetric linearD /= Ps symmetric_diag.
have [_ H] := held_out_joint_correct (m_mean truth) (j_mean prior) fg Au Gu As.
have E : mxsub f g A = mxsub f g (j_cov prior).
  by rewrite mxsubD mxsub_diag_off ?addr0 //; case: fg => _ [_ []].
by rewrite -E.
Qed.

Lemma held_out_types k (B : 'M[F]_k) y v :
  held_out_marginal B y v = joint_marginal (held_out_joint B y v) /\ held_out_mean B y v = j_mean (held_out_joint B y v).
Proof. by []. Qed.

Lemma one_complement n (i : 'I_n) m (g : 'I_m -> 'I_n) :
  injective g -> (forall b, g b <> i) -> (forall j, j <> i -> exists b, g b = j) -> complementary (fun _ : 'I_1 => i) g.
Proof.
move=> gi gn gc; split; first by move=> a b _; rewrite !ord1.
split => //; split; first by move=> _ b /esym /gn.
move=> j; case: (eqVneq j i) => [->|/eqP /gc]; [left; by exists ord0|by right].
Qed.

Lemma mx11_inv (a : 'M[F]_1) : a \in unitmx -> invmx a = ((a 0 0)^-1)%:M.
Proof.
rewrite unitmxE det_mx11 unitfE => a0.
have E : a *m ((a 0 0)^-1)%:M = 1%:M by rewrite [a in a *m _]mx11_scalar -scalar_mxM mulfV.
by have [_ ->] := unit_of_right E.
Qed.

Lemma leave_one_out_correct n m (prior : joint F n) (truth : marginal F n) (i : 'I_n) (g : 'I_m -> 'I_n) :
  let A := j_cov prior + diag (m_var truth) in
  symmetric (j_cov prior) ->
  injective g -> (forall b, g b <> i) -> (forall j, j <> i -> exists b, g b = j) ->
  A \in unitmx -> mxsub g g A \in unitmx ->
  let out := leave_one_out_conditional prior truth in
  let f := fun _ : 'I_1 => i in
  conditional (rowsub f (j_mean prior)) (rowsub g (j_mean prior))
    (mxsub f f A) (mxsub f g (j_cov prior)) (mxsub g g A) (rowsub g (m_mean truth))
    (rowsub f (m_mean out)) (mxsub f f (diag (m_var out))).
Proof.
move=> A Ps gi gn gc Au Gu out f.
have fg := one_complement gi gn gc.
have As : symmetric A by rewrite /symmetric linearD /= Ps symmetric_diag.
have [Uu _] := held_out_joint_correct (m_mean truth) (j_mean prior) fg Au Gu As.
have := held_out_conditional Ps fg Au Gu.
rewrite /leave_one_group_out /held_out /held_out_joint /= /inverse_block -/A (mx11_inv Uu) /out /leave_one_out_conditional -/A.
set M1 := _ - _ *m _; set M2 := (_)%:M.
have -> : M1 = rowsub f (m_mean truth - \col_i0 (ldlt A (m_mean truth - j_mean prior) i0 0 * leave_one_out_conditional_variance A i0 0)).
  apply/colP => a; rewrite /M1 mul_scalar_mx !mxE; congr (_ - _).
  by rewrite mulrC.
have -> // : M2 = mxsub f f (diag (leave_one_out_conditional_variance A)).
by apply/matrixP => a b; rewrite !mxE !ord1 !eqxx.
Qed.

(* ---- gp cross validation is refitting ---- *)
Lemma gp_cross_validated_refit n k m (f : 'I_k -> 'I_n) (g : 'I_m -> 'I_n) (xs : 'I_n -> feature X) (t : marginal F n) :
  complementary f g -> kmat cov xs t \in unitmx -> kmat cov (xs \o g) (marginal_subset g t) \in unitmx ->
  (forall a b, cov (as_measurement (xs (g b))) (as_measurement (xs (f a))) = cov (xs (g b)) (as_measurement (xs (f a)))) ->
  let out := gp_cross_validated cov mu (@held_out_joint F) xs t f in
  let refit := predict_joint cov mu (fit cov mu (xs \o g) (marginal_subset g t)) (as_measurement (X:=X) \o (xs \o f)) in
  j_mean out = j_mean refit /\ j_cov out = j_cov refit + diag (rowsub f (m_var t)).
Proof.
move=> fg Au Gu hc out refit.
set ms := as_measurement (X:=X) \o xs.
have Ksym : symmetric (cov_mx cov ms ms) by exact: cov_mx_tr.
have fi : injective f by case: fg.
have gi : injective g by case: fg => _ [].
have EG : mxsub g g (kmat cov xs t) = kmat cov (xs \o g) (marginal_subset g t).
  by rewrite /kmat mxsubD mxsub_diag //; congr (_ + _); apply/matrixP => i j; rewrite !mxE.
have Gu' : mxsub g g (kmat cov xs t) \in unitmx by rewrite EG.
have Gsym : symmetric (kmat cov (xs \o g) (marginal_subset g t)) by exact: train_symmetric.
have Hc : conditional (rowsub f (mean_v mu ms)) (rowsub g (mean_v mu ms)) (mxsub f f (kmat cov xs t)) (mxsub f g (cov_mx cov ms ms)) (kmat cov (xs \o g) (marginal_subset g t)) (rowsub g (m_mean t)) (j_mean out) (j_cov out).
  by rewrite -EG; exact: (@held_out_conditional _ _ _ _ _ (prior cov mu xs) t).
move/(conditional_formula _ _ _ _ _ _ _ Gu Gsym): Hc => [-> ->].
have [fx [sA iA]] := fit_like Gu.
have [_ H] := (solves_inv _ _).1 sA.
have Ei : information (fit cov mu (xs \o g) (marginal_subset g t)) = invmx (kmat cov (xs \o g) (marginal_subset g t)) *m (rowsub g (m_mean t) - rowsub g (mean_v mu ms)).
  by rewrite /fit /make_fit /= /ldlt; congr (_ *m (_ - _)); rewrite -mean_v_sub.
have ER := predict_joint_eq cov mu (as_measurement (X:=X) \o (xs \o f)) H.
rewrite -/refit Ei in ER; rewrite ER /j_mean /j_cov.
have EC : mxsub f g (cov_mx cov ms ms) = (cov_mx cov (xs \o g) (as_measurement (X:=X) \o (xs \o f)))^T.
  by apply/matrixP => a b; rewrite !mxE cov_sym hc.
rewrite EC trmxK; split; first by rewrite addrC mulmxA; congr (_ + _); apply/colP => a; rewrite !mxE.
rewrite mxsubD mxsub_diag //.
have -> : mxsub f f (cov_mx cov ms ms) = cov_mx cov (as_measurement (X:=X) \o (xs \o f)) (as_measurement (X:=X) \o (xs \o f)).
  by apply/matrixP => a b; rewrite !mxE.
zgroup.
Qed.

(* ---- conditional gaussian ---- *)
Lemma conditional_gaussian_correct n k p (prior_ : joint F n) (truth_ : marginal F n) (g : 'I_k -> 'I_n) (f : 'I_p -> 'I_n) :
  symmetric (j_cov prior_) ->
  let Sgg := mxsub g g (j_cov prior_) + diag (rowsub g (m_var truth_)) in
  Sgg \in unitmx ->
  let out := conditional_joint prior_ truth_ g f in
  conditional (rowsub f (j_mean prior_)) (rowsub g (j_mean prior_)) (mxsub f f (j_cov prior_)) (mxsub f g (j_cov prior_)) Sgg
    (rowsub g (m_mean truth_)) (j_mean out) (j_cov out).
Proof.
move=> Ps Sgg Su out.
have Ss : symmetric Sgg by rewrite /symmetric linearD /= symmetric_diag mxsub_tr Ps.
apply/conditional_formula => //.
rewrite /out /conditional_joint /gp_joint_prediction /gp_mean_prediction /= /subset_m /subset_v /ldlt -/Sgg.
rewrite mxsub_tr Ps; split; first by rewrite addrC mulmxA.
by rewrite mxsub_tr Ps mulmxA.
Qed.
Lemma conditional_types n k p (prior_ : joint F n) (truth_ : marginal F n) (g : 'I_k -> 'I_n) (f : 'I_p -> 'I_n) :
  conditional_marginal prior_ truth_ g f = joint_marginal (conditional_joint prior_ truth_ g f) /\
  conditional_mean prior_ truth_ g f = j_mean (conditional_joint prior_ truth_ g f).
Proof.
split => //; rewrite /conditional_marginal /conditional_joint.
have -> : m_var (marginal_subset f (joint_marginal prior_)) = \col_i (j_cov (joint_subset f prior_)) i i.
  by apply/colP => i; rewrite !mxE.
by rewrite marginal_of_joint.
Qed.
End Features.
End Field.

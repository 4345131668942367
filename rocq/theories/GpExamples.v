(* Concrete instances and the remaining lemmas of GpProps.v. *)
From mathcomp Require Import all_ssreflect all_algebra.
From Verif Require Import GpModel GpSpec GpHistory GpProofs PsdProofs MxTac GpProofs2 GpProofs3 GpProofs4.
Set Implicit Arguments.
Unset Strict Implicit.
Unset Printing Implicit Defensive.
Import Order.TTheory GRing.Theory Num.Theory.
Local Open Scope ring_scope.

Lemma block_symmetric_C_solves (F : fieldType) n m (s : solver F n) (A : 'M[F]_n) (B : 'M[F]_(n, m)) (C : 'M[F]_m) :
  solves s A -> symmetric A -> block_mx A B B^T C \in unitmx ->
  solves (block_symmetric_solve (build_block_symmetric_C s B C)) (block_mx A B B^T C).
Proof.
move=> sA As; have [Au _] := (solves_inv _ _).1 sA; rewrite schur_unit // => Su.
exact: solves_block_C.
Qed.
Lemma block_symmetric_S_solves (F : fieldType) n m (s : solver F n) (A : 'M[F]_n) (B : 'M[F]_(n, m)) (C S : 'M[F]_m) :
  solves s A -> symmetric A -> S = C - B^T *m invmx A *m B -> S \in unitmx ->
  solves (block_symmetric_solve (build_block_symmetric_S s B S)) (block_mx A B B^T C).
Proof.
move=> sA As ES Su; have := solves_block_S B sA As Su.
by rewrite {2}ES subrK.
Qed.
Lemma direct_inverse_solves (F : fieldType) n (A : 'M[F]_n) : A \in unitmx -> solves (direct_inverse (invmx A)) A.
Proof. by move=> Au; apply/solves_inv. Qed.

Lemma predict_subset_reachable (F : fieldType) X (cov : feature X -> feature X -> F) mu n p k (gp : gp_fit F X n)
    (xs : 'I_p -> feature X) (idx : 'I_k -> 'I_p) :
  reachable cov mu gp ->
  let joint := predict_joint cov mu gp xs in
  let some := predict_joint cov mu gp (fun i => xs (idx i)) in
  (forall i, j_mean some i 0 = j_mean joint (idx i) 0) /\
  (forall i j, j_cov some i j = j_cov joint (idx i) (idx j)).
Proof.
move=> /reachable_acts [M H] joint some.
have E : some = joint_subset idx joint by exact: (predict_subset cov mu xs idx H).
by rewrite E; split => [i|i j]; rewrite /= mxE.
Qed.

Lemma fit_from_prediction_reachable (F : fieldType) X (cov : feature X -> feature X -> F) mu n (gp : gp_fit F X n) :
  (forall x y, cov x y = cov y x) -> reachable cov mu gp ->
  cov_mx cov (train_features gp) (train_features gp) \in unitmx ->
  let rebuilt := fit_from_prediction cov mu (train_features gp) (predict_joint cov mu gp (train_features gp)) in
  forall p (zs : 'I_p -> feature X), predict_joint cov mu rebuilt zs = predict_joint cov mu gp zs.
Proof. by move=> hs /reachable_acts [M H] Ku r p zs; apply: (fit_from_prediction_same mu hs Ku H). Qed.

Lemma leave_one_out_scalar (F : fieldType) n m (prior : joint F n) (truth : marginal F n) (i : 'I_n) (others : 'I_m -> 'I_n) :
  symmetric (j_cov prior) ->
  injective others -> (forall b, others b <> i) -> (forall j, j <> i -> exists b, others b = j) ->
  let A := j_cov prior + diag_mx (m_var truth)^T in
  A \in unitmx -> mxsub others others A \in unitmx ->
  let out := leave_one_out_conditional prior truth in
  conditional (j_mean prior i 0)%:M (rowsub others (j_mean prior))
    (A i i)%:M (\row_b j_cov prior i (others b)) (mxsub others others A) (rowsub others (m_mean truth))
    (m_mean out i 0)%:M (m_var out i 0)%:M.
Proof.
move=> Ps oi on oc A Au Gu out.
have := leave_one_out_correct Ps oi on oc Au Gu.
rewrite -/out -/A; set f := fun _ : 'I_1 => i; cbv zeta.
have E1 : forall v : 'cV[F]_n, rowsub f v = (v i 0)%:M :> 'M_1 by move=> v; apply/matrixP => a b; rewrite !mxE !ord1 eqxx.
have E2 : forall M : 'M[F]_n, mxsub f f M = (M i i)%:M :> 'M_1 by move=> v; apply/matrixP => a b; rewrite !mxE !ord1 eqxx.
rewrite !E1 !E2.
have -> : mxsub f others (j_cov prior) = \row_b j_cov prior i (others b) by apply/matrixP => a b; rewrite !mxE.
have -> // : diag (m_var out) i i = m_var out i 0 by rewrite !mxE eqxx.
Qed.

Lemma held_out_pd (R : realFieldType) n k m (group : 'I_k -> 'I_n) (others : 'I_m -> 'I_n)
    (prior : joint R n) (truth : marginal R n) :
  complementary group others ->
  let A := j_cov prior + diag_mx (m_var truth)^T in
  pd A ->
  let out := leave_one_group_out (@held_out_joint R) prior truth group in
  conditional (rowsub group (j_mean prior)) (rowsub others (j_mean prior))
    (mxsub group group A) (mxsub group others (j_cov prior)) (mxsub others others A)
    (rowsub others (m_mean truth)) (j_mean out) (j_cov out) /\ pd (j_cov out).
Proof.
move=> fg A Ap out; have [gi [oi _]] := fg.
have Ps : symmetric (j_cov prior).
  case: (Ap) => + _; rewrite /symmetric /A linearD /= tr_diag_mx => /addIr; exact.
split; first by apply: held_out_conditional => //; apply: pd_unit => //; apply: pd_mxsub.
by apply: pd_inv; apply: pd_mxsub => //; apply: pd_inv.
Qed.

Lemma leave_one_out_pd (R : realFieldType) n m (prior : joint R n) (truth : marginal R n) (i : 'I_n) (others : 'I_m -> 'I_n) :
  injective others -> (forall b, others b <> i) -> (forall j, j <> i -> exists b, others b = j) ->
  let A := j_cov prior + diag_mx (m_var truth)^T in
  pd A ->
  let out := leave_one_out_conditional prior truth in
  conditional (j_mean prior i 0)%:M (rowsub others (j_mean prior))
    (A i i)%:M (\row_b j_cov prior i (others b)) (mxsub others others A) (rowsub others (m_mean truth))
    (m_mean out i 0)%:M (m_var out i 0)%:M /\ 0 < m_var out i 0.
Proof.
move=> oi on oc A Ap out.
have Ps : symmetric (j_cov prior).
  case: (Ap) => + _; rewrite /symmetric /A linearD /= tr_diag_mx => /addIr; exact.
split; first by apply: leave_one_out_scalar => //; apply: pd_unit => //; apply: pd_mxsub.
by rewrite /out /= !mxE invr_gt0; apply/pd_diag_gt0/pd_inv.
Qed.

Lemma gp_cross_validated_means (F : fieldType) X (cov : feature X -> feature X -> F) mu n k m
    (group : 'I_k -> 'I_n) (others : 'I_m -> 'I_n) (xs : 'I_n -> feature X) (t : marginal F n) :
  (forall x y, cov x y = cov y x) ->
  complementary group others ->
  kmat cov xs t \in unitmx -> kmat cov (xs \o others) (marginal_subset others t) \in unitmx ->
  (forall a b, cov (as_measurement (xs (others b))) (as_measurement (xs (group a))) = cov (xs (others b)) (xs (group a)) /\
               cov (xs (others b)) (as_measurement (xs (group a))) = cov (xs (others b)) (xs (group a))) ->
  (forall a, mu (as_measurement (xs (group a))) = mu (xs (group a))) ->
  gp_cross_validated cov mu (@held_out_mean F) xs t group =
  predict_mean cov mu (fit cov mu (xs \o others) (marginal_subset others t)) (xs \o group).
Proof.
move=> hs fg Au Gu hc hm.
have hc' : forall a b, cov (as_measurement (xs (others b))) (as_measurement (xs (group a))) = cov (xs (others b)) (as_measurement (xs (group a))).
  by move=> a b; have [-> ->] := hc a b.
have [E _] := gp_cross_validated_refit mu hs fg Au Gu hc'.
have -> : gp_cross_validated cov mu (@held_out_mean F) xs t group = j_mean (gp_cross_validated cov mu (@held_out_joint F) xs t group) by [].
rewrite E /predict_joint /predict_mean /=; congr (gp_mean_prediction _ _ + _).
- by apply: eq_cov_mx => i j /=; have [_ ->] := hc j i.
- by apply: eq_mean_v => i /=; rewrite hm.
Qed.

Lemma psd_sub_le (R : realFieldType) n (A B : 'M[R]_n) j : psd (A - B) -> B j j <= A j j.
Proof. by move=> H; have := psd_diag_ge0 j H; rewrite !mxE subr_ge0. Qed.
Lemma update_shrinks_marginal (R : realFieldType) X (cov : feature X -> feature X -> R) mu n m p
    (xs : 'I_n -> feature X) t (ys : 'I_m -> feature X) u (zs : 'I_p -> feature X) :
  (forall x y, cov x y = cov y x) ->
  agree_new cov mu xs ys -> pd (kmat cov (concat_f xs ys) (concat_t t u)) ->
  let before := fit cov mu xs t in
  let after := update cov mu before ys u in
  psd (j_cov (predict_joint cov mu before zs) - j_cov (predict_joint cov mu after zs)) /\
  forall j, m_var (predict_marginal cov mu after zs) j 0 <= m_var (predict_marginal cov mu before zs) j 0.
Proof.
move=> hs ha Mp b a; have H := update_shrinks hs zs ha Mp; split => // j.
have [-> _] := predict_agree cov mu a zs; have [-> _] := predict_agree cov mu b zs.
by have := psd_sub_le j H; rewrite /joint_marginal ![m_var _]/= ![(\col_i _) j 0]mxE.
Qed.

Lemma conditional_is_gp (F : fieldType) X (cov : feature X -> feature X -> F) mu n k p (xs : 'I_n -> feature X) (t : marginal F n)
    (fit_indices : 'I_k -> 'I_n) (predict_indices : 'I_p -> 'I_n) :
  (forall x y, cov (as_measurement x) (as_measurement y) = cov x y) -> (forall x, mu (as_measurement x) = mu x) ->
  conditional_joint (prior cov mu xs) t fit_indices predict_indices =
  predict_joint cov mu (fit cov mu (xs \o fit_indices) (marginal_subset fit_indices t)) (xs \o predict_indices).
Proof.
move=> hc hm; rewrite /conditional_joint /predict_joint /conditional_fit /fit /make_fit /=.
rewrite /subset_m /subset_v -!cov_mx_sub -!mean_v_sub.
have -> : cov_mx cov ((as_measurement (X:=X) \o xs) \o fit_indices) ((as_measurement (X:=X) \o xs) \o predict_indices) = cov_mx cov (xs \o fit_indices) (xs \o predict_indices) by apply: eq_cov_mx => i j; rewrite /= hc.
have -> : cov_mx cov ((as_measurement (X:=X) \o xs) \o predict_indices) ((as_measurement (X:=X) \o xs) \o predict_indices) = cov_mx cov (xs \o predict_indices) (xs \o predict_indices) by apply: eq_cov_mx => i j; rewrite /= hc.
have -> // : mean_v mu ((as_measurement (X:=X) \o xs) \o predict_indices) = mean_v mu (xs \o predict_indices) by apply: eq_mean_v => i; rewrite /= hm.
Qed.

Lemma held_out_is_conditional (F : fieldType) n k m (group : 'I_k -> 'I_n) (others : 'I_m -> 'I_n)
    (prior : joint F n) (truth : marginal F n) :
  symmetric (j_cov prior) -> complementary group others ->
  let A := j_cov prior + diag_mx (m_var truth)^T in
  A \in unitmx -> mxsub others others A \in unitmx ->
  let held_out := leave_one_group_out (@held_out_joint F) prior truth group in
  let conditioned := conditional_joint prior truth others group in
  j_mean held_out = j_mean conditioned /\ j_cov held_out = j_cov conditioned + diag_mx (rowsub group (m_var truth))^T.
Proof.
move=> Ps fg A Au Gu ho co; have [gi [oi _]] := fg.
have EG : mxsub others others A = mxsub others others (j_cov prior) + diag (rowsub others (m_var truth)).
  by rewrite mxsubD mxsub_diag.
have Gs : symmetric (mxsub others others A).
  by rewrite EG /symmetric linearD /= symmetric_diag mxsub_tr Ps.
have /(conditional_formula _ _ _ _ _ _ _ Gu Gs) [-> ->] := held_out_conditional Ps fg Au Gu.
have Gu' := Gu; have Gs' := Gs; rewrite EG in Gu' Gs'.
have /(conditional_formula _ _ _ _ _ _ _ Gu' Gs') [E1 E2] := conditional_gaussian_correct group Ps Gu'.
rewrite -/co in E1 E2; rewrite E1 E2 -/A EG; split => //.
rewrite mxsubD (mxsub_diag _ gi); zgroup.
Qed.

(* ---- instances ---- *)
Lemma pd_scalar (R : realFieldType) n (c : R) : 0 < c -> pd (c%:M : 'M[R]_n).
Proof.
move=> c0; have -> : c%:M = diag_mx (\col_i c : 'cV[R]_n)^T by apply/matrixP => i j; rewrite !mxE.
by apply: pd_diag => i; rewrite mxE.
Qed.
Lemma psd_gram (R : realFieldType) n m (G : 'M[R]_(n, m)) : psd (G *m G^T).
Proof.
have -> : G *m G^T = (G^T)^T *m 1%:M *m G^T by rewrite trmxK mulmx1.
by apply: psd_congr; apply: pd_psd; apply: pd_scalar; exact: ltr01.
Qed.

Definition value (f : feature bool) : bool := match f with Bare b | Measured b => b end.
Definition ex_cov (x y : feature bool) : rat := if value x == value y then 2%:R else 1.
Definition ex_mu (x : feature bool) : rat := if value x then 3%:R else 1.
Definition ex_xs : 'I_1 -> feature bool := fun _ => Bare true.
Definition ex_ys : 'I_1 -> feature bool := fun _ => Bare false.
Definition ex_t : marginal rat_fieldType 1 := Marginal (const_mx 5%:R) (const_mx 1).
Definition ex_prior : joint rat_fieldType 3 := Joint (\col_i (i%:R)) (1%:M + const_mx 1).
Definition ex_truth : marginal rat_fieldType 3 := Marginal (const_mx 2%:R) (const_mx 1).

Lemma ex_cov_sym x y : ex_cov x y = ex_cov y x.
Proof. by rewrite /ex_cov eq_sym. Qed.
Lemma ex_cov_meas x y : ex_cov (as_measurement x) (as_measurement y) = ex_cov x y.
Proof. by case: x; case: y. Qed.
Lemma ex_mu_meas x : ex_mu (as_measurement x) = ex_mu x.
Proof. by case: x. Qed.
Lemma ex_cov_psd k (us : 'I_k -> feature bool) : psd (cov_mx ex_cov us us).
Proof.
set G : 'M[rat]_(k, 1 + (1 + 1)) := row_mx (const_mx 1) (row_mx (\col_i (value (us i))%:R) (\col_i (~~ value (us i))%:R)).
have -> : cov_mx ex_cov us us = G *m G^T; last exact: psd_gram.
rewrite /G !tr_row_mx !mul_row_col; apply/matrixP => i j; rewrite !mxE !big_ord1 !mxE /ex_cov.
by case: (value (us i)); case: (value (us j)).
Qed.

Lemma ex_kmat1 (xs : 'I_1 -> feature bool) : kmat ex_cov xs ex_t = 3%:R%:M.
Proof. by apply/matrixP => i j; rewrite !mxE !ord1 /ex_cov eqxx !mulr1n. Qed.
Lemma ex_kmat2 : pd (kmat ex_cov (concat_f ex_xs ex_ys) (concat_t ex_t ex_t)).
Proof.
rewrite kmat_concat; last exact: ex_cov_sym.
rewrite !ex_kmat1; apply: block_pd; first exact: pd_scalar.
rewrite invmx_scalar -mulmxA mul_scalar_mx -scalemxAr.
set c := cov_mx _ _ _.
have -> : c^T *m c = 1%:M by apply/matrixP => i j; rewrite !mxE big_ord1 !mxE !ord1 eqxx.
by rewrite scalemx1 -raddfB /=; apply: pd_scalar.
Qed.
Lemma ex_hypotheses :
  (forall x y, ex_cov x y = ex_cov y x) /\ agree_new ex_cov ex_mu ex_xs ex_ys /\
  pd (kmat ex_cov (concat_f ex_xs ex_ys) (concat_t ex_t ex_t)) /\
  kmat ex_cov ex_xs ex_t \in unitmx /\ kmat ex_cov (concat_f ex_xs ex_ys) (concat_t ex_t ex_t) \in unitmx.
Proof.
split; first exact: ex_cov_sym.
split; first by split => [i j|]; [exact: ex_cov_meas|split => [i j|j]; [exact: ex_cov_meas|exact: ex_mu_meas]].
split; first exact: ex_kmat2.
by split; apply: pd_unit; [rewrite ex_kmat1; apply: pd_scalar|exact: ex_kmat2].
Qed.
Lemma ex_bare (b : bool) : cov_mx ex_cov (fun i : 'I_1 => Bare b) (fun i : 'I_1 => Bare b) = 2%:R%:M.
Proof. by apply/matrixP => i j; rewrite !mxE !ord1 /ex_cov eqxx. Qed.
Lemma ex_bare_unit : cov_mx ex_cov ex_xs ex_xs \in unitmx.
Proof. by rewrite ex_bare; apply: pd_unit; apply: pd_scalar. Qed.
Lemma ex_interp : cov_mx ex_cov (fun i : 'I_1 => Bare true) (fun i : 'I_1 => Bare true) \in unitmx /\
  forall x y, ex_cov (as_measurement x) (as_measurement y) = ex_cov x y.
Proof. by split; [exact: ex_bare_unit|exact: ex_cov_meas]. Qed.
Lemma ex_psd : (forall k (us : 'I_k -> feature bool), psd (cov_mx ex_cov us us)) /\ (forall i, 0 <= m_var ex_t i 0) /\
  pd (kmat ex_cov ex_xs ex_t) /\ pd (kmat ex_cov (concat_f ex_xs ex_ys) (concat_t ex_t ex_t)).
Proof.
split; first exact: ex_cov_psd.
split; first by move=> i; rewrite mxE.
by split; [rewrite ex_kmat1; apply: pd_scalar|exact: ex_kmat2].
Qed.
Lemma ex_prior_pd : pd (j_cov ex_prior + diag_mx (m_var ex_truth)^T).
Proof.
rewrite /= -addrA; apply: pdD; first exact: pd_scalar.
apply: psdD; last by apply: psd_diag => i; rewrite mxE.
have -> : const_mx 1 = const_mx 1 *m (const_mx 1 : 'M[rat]_(3, 1))^T :> 'M_3; last exact: psd_gram.
by apply/matrixP => i j; rewrite !mxE big_ord1 !mxE.
Qed.
Lemma lift_complement n (i : 'I_n.+1) : injective (lift i) /\ (forall b, lift i b <> i) /\ (forall j, j <> i -> exists b, lift i b = j).
Proof.
split; first exact: lift_inj.
split; first by move=> b /eqP; rewrite eq_sym (negbTE (neq_lift i b)).
by move=> j ji; case: (unliftP i j) => [b ->|/ji //]; exists b.
Qed.
Lemma ex_loo : pd (j_cov ex_prior + diag_mx (m_var ex_truth)^T) /\
  injective (lift (ord0 : 'I_3)) /\ (forall b, lift (ord0 : 'I_3) b <> ord0) /\ (forall j, j <> (ord0 : 'I_3) -> exists b, lift ord0 b = j).
Proof. by split; [exact: ex_prior_pd|exact: lift_complement]. Qed.
Lemma ex_logo : complementary (fun _ : 'I_1 => ord0 : 'I_3) (lift (ord0 : 'I_3)) /\ pd (j_cov ex_prior + diag_mx (m_var ex_truth)^T).
Proof.
split; last exact: ex_prior_pd.
by have [h1 [h2 h3]] := lift_complement (ord0 : 'I_3); apply: one_complement.
Qed.
Lemma ex_conditional : symmetric (j_cov ex_prior) /\
  mxsub (lift (ord0 : 'I_3)) (lift ord0) (j_cov ex_prior) + diag_mx (rowsub (lift (ord0 : 'I_3)) (m_var ex_truth))^T \in unitmx.
Proof.
split; first by rewrite /symmetric /= linearD /= tr_scalar_mx trmx_const.
have -> : mxsub (lift (ord0 : 'I_3)) (lift ord0) (j_cov ex_prior) + diag_mx (rowsub (lift (ord0 : 'I_3)) (m_var ex_truth))^T = mxsub (lift ord0) (lift ord0) (j_cov ex_prior + diag_mx (m_var ex_truth)^T).
  by rewrite mxsubD; congr (_ + _); rewrite -[RHS]/(mxsub _ _ (diag _)) mxsub_diag //; exact: lift_inj.
by apply: pd_unit; apply: pd_mxsub; [exact: lift_inj|exact: ex_prior_pd].
Qed.
Lemma C43_example_lemma :
  solves (block_symmetric_solve (build_block_symmetric_C
           (block_symmetric_solve (build_block_symmetric_C (ldlt (2%:M : 'M[rat]_1)) (1%:M : 'M_1) (2%:M : 'M_1)))
           (0 : 'M_(1 + 1, 1)) (5%:M : 'M_1)))
         (block_mx (block_mx 2%:M 1%:M (1%:M)^T 2%:M) (0 : 'M[rat]_(1 + 1, 1)) (0 : 'M_(1 + 1, 1))^T 5%:M).
Proof.
have p1 : pd (block_mx 2%:M 1%:M (1%:M)^T 2%:M : 'M[rat]_(1 + 1)).
  apply: block_pd; first exact: pd_scalar.
  by rewrite invmx_scalar trmx1 mul1mx mulmx1 -raddfB /=; apply: pd_scalar.
apply: block_symmetric_C_solves.
- apply: block_symmetric_C_solves; first by apply: solves_ldlt; apply: pd_unit; apply: pd_scalar.
  + by rewrite /symmetric tr_scalar_mx.
  + exact: pd_unit.
- by case: p1.
- apply: pd_unit; apply: block_pd => //; rewrite trmx0 !mul0mx subr0; exact: pd_scalar.
Qed.

(* ---- refutations ---- *)
Lemma gp_marginals_refuted :
  exists (xs : 'I_2 -> feature bool) (t : marginal rat_fieldType 2) (group others : 'I_1 -> 'I_2),
  complementary group others /\ pd (kmat ex_cov xs t) /\
  gp_cross_validated ex_cov ex_mu (@held_out_marginal rat_fieldType) xs t group <>
  predict_marginal ex_cov ex_mu (fit ex_cov ex_mu (xs \o others) (marginal_subset others t)) (xs \o group).
Proof.
exists (concat_f ex_xs ex_ys), (concat_t ex_t ex_t), (fun _ => ord0 : 'I_2), (lift (ord0 : 'I_2)).
have [h1 [h2 h3]] := lift_complement (ord0 : 'I_2).
have fg := one_complement h1 h2 h3.
split => //; split; first exact: ex_kmat2.
set xs := concat_f _ _; set t := concat_t _ _; set g := fun _ => _ in fg *.
have Au := pd_unit ex_kmat2.
have Gu : kmat ex_cov (xs \o lift ord0) (marginal_subset (lift ord0) t) \in unitmx.
  apply: pd_unit.
  have -> : kmat ex_cov (xs \o lift ord0) (marginal_subset (lift ord0) t) = mxsub (lift ord0) (lift ord0) (kmat ex_cov xs t).
    by rewrite /kmat mxsubD mxsub_diag //; congr (_ + _); apply/matrixP => i j; rewrite !mxE.
  by apply: pd_mxsub => //; exact: ex_kmat2.
have hc : forall a b, ex_cov (as_measurement (xs (lift ord0 b))) (as_measurement (xs (g a))) = ex_cov (xs (lift ord0 b)) (as_measurement (xs (g a))).
  by move=> a b; rewrite ex_cov_meas; case: (xs (lift _ _)); case: (xs (g a)).
have [_ E] := gp_cross_validated_refit ex_mu ex_cov_sym fg Au Gu hc.
move=> /(congr1 (fun d => m_var d 0 0)).
have -> : m_var (gp_cross_validated ex_cov ex_mu (@held_out_marginal rat_fieldType) xs t g) 0 0 = j_cov (gp_cross_validated ex_cov ex_mu (@held_out_joint rat_fieldType) xs t g) 0 0 by rewrite /= !mxE.
have [-> _] := predict_agree ex_cov ex_mu (fit ex_cov ex_mu (xs \o lift ord0) (marginal_subset (lift ord0) t)) (xs \o g).
rewrite E addmxE' [m_var _]/= [X in _ = X]mxE.
have -> : predict_joint ex_cov ex_mu (fit ex_cov ex_mu (xs \o lift ord0) (marginal_subset (lift ord0) t)) (as_measurement (X:=bool) \o (xs \o g)) = predict_joint ex_cov ex_mu (fit ex_cov ex_mu (xs \o lift ord0) (marginal_subset (lift ord0) t)) (xs \o g).
  rewrite !predict_fit.
  have -> : cov_mx ex_cov (xs \o lift ord0) (as_measurement (X:=bool) \o (xs \o g)) = cov_mx ex_cov (xs \o lift ord0) (xs \o g).
    by apply: eq_cov_mx => a b /=; rewrite -hc ex_cov_meas.
  have -> : cov_mx ex_cov (as_measurement (X:=bool) \o (xs \o g)) (as_measurement (X:=bool) \o (xs \o g)) = cov_mx ex_cov (xs \o g) (xs \o g).
    by apply: eq_cov_mx => a b /=; rewrite ex_cov_meas.
  by congr Joint; congr (_ + _); apply: eq_mean_v => a; rewrite /= ex_mu_meas.
set v := j_cov _ 0 0; rewrite -[in RHS](addr0 v) => /addrI.
by rewrite /diag !mxE eqxx mulr1n; case: split => a; rewrite mxE.
Qed.

Definition noisy (x y : feature bool) : rat :=
  (value x == value y)%:R * (1 + match x, y with Measured _, Measured _ => 1 | _, _ => 0 end).
Lemma noisy_sym x y : noisy x y = noisy y x.
Proof. by rewrite /noisy eq_sym; case: x; case: y. Qed.
Definition is_meas (f : feature bool) : bool := match f with Measured _ => true | _ => false end.
Lemma noisy_psd k (us : 'I_k -> feature bool) : psd (cov_mx noisy us us).
Proof.
set G : 'M[rat]_(k, 1 + (1 + (1 + 1))) := row_mx (\col_i (value (us i))%:R) (row_mx (\col_i (~~ value (us i))%:R)
  (row_mx (\col_i (value (us i) && is_meas (us i))%:R) (\col_i (~~ value (us i) && is_meas (us i))%:R))).
have -> : cov_mx noisy us us = G *m G^T; last exact: psd_gram.
rewrite /G !tr_row_mx !mul_row_col; apply/matrixP => i j; rewrite !mxE !big_ord1 !mxE /noisy.
by case: (us i) => [[]|[]]; case: (us j) => [[]|[]].
Qed.

Lemma update_noise_refuted :
  exists cov : feature bool -> feature bool -> rat,
  (forall x y, cov x y = cov y x) /\ (forall k (us : 'I_k -> feature bool), psd (cov_mx cov us us)) /\
  exists (xs ys : 'I_1 -> feature bool) (t : marginal rat_fieldType 1),
  pd (kmat cov (concat_f xs ys) (concat_t t t)) /\
  predict_joint cov (fun _ => 0) (update cov (fun _ => 0) (fit cov (fun _ => 0) xs t) ys t) ys <>
  predict_joint cov (fun _ => 0) (fit cov (fun _ => 0) (concat_f xs ys) (concat_t t t)) ys.
Proof.
exists noisy; split; first exact: noisy_sym.
split; first exact: noisy_psd.
set t : marginal rat_fieldType 1 := Marginal 0 0.
exists ex_xs, ex_ys, t.
have K1 : forall us : 'I_1 -> feature bool, kmat noisy us t = 2%:R%:M.
  by move=> us; apply/matrixP => i j; rewrite !mxE !ord1 /noisy eqxx /=; case: (us 0) => -[].
have B0 : cov_mx noisy (as_measurement (X:=bool) \o ex_xs) (as_measurement (X:=bool) \o ex_ys) = 0.
  by apply/matrixP => i j; rewrite !mxE /noisy /= mul0r.
have KM : kmat noisy (concat_f ex_xs ex_ys) (concat_t t t) = block_mx 2%:R%:M 0 0 2%:R%:M.
  by rewrite kmat_concat; [rewrite !K1 B0 trmx0|exact: noisy_sym].
have KMs : kmat noisy (concat_f ex_xs ex_ys) (concat_t t t) = 2%:R%:M by rewrite KM -scalar_mx_block.
split; first by rewrite KMs; apply: pd_scalar.
move=> /(congr1 (fun d => j_cov d 0 0)).
rewrite predict_fit KMs invmx_scalar.
set gp := fit noisy _ ex_xs t.
have Au : kmat noisy ex_xs t \in unitmx by rewrite K1; apply: pd_unit; apply: pd_scalar.
have Lf := fit_like (fun _ => 0) Au; case: Lf => fx [sA iA].
have C0 : cov_mx noisy (train_features gp) ex_ys = 0 by apply/matrixP => i j; rewrite !mxE /noisy /= mul0r.
have Y1 : cov_mx noisy ex_ys ex_ys = 1%:M by apply/matrixP => i j; rewrite !mxE !ord1.
have SU : S_of noisy (fun _ => 0) gp ex_ys t = 1%:M.
  have [_ H] := (solves_inv _ _).1 sA.
  rewrite /S_of (predict_joint_eq noisy (fun _ => 0) ex_ys H) [j_cov _]/= C0 trmx0 !mul0mx subr0 Y1.
  by rewrite /diag /= trmx0 linear0 addr0.
have As : symmetric (kmat noisy ex_xs t) by rewrite K1 /symmetric tr_scalar_mx.
have SUu : S_of noisy (fun _ => 0) gp ex_ys t \in unitmx by rewrite SU unitmx1.
have [sM _] := update_state sA As iA SUu.
have [_ HM] := (solves_inv _ _).1 sM.
rewrite (predict_joint_eq noisy (fun _ => 0) ex_ys HM) [j_cov _]/= [j_cov (Joint _ _)]/=.
have C1 : cov_mx noisy (concat_f ex_xs ex_ys) ex_ys = col_mx 0 1%:M.
  by rewrite cov_mx_join Y1; congr col_mx; apply/matrixP => i j; rewrite !mxE /noisy /= mul0r.
have EI : invmx (block_mx (kmat noisy ex_xs t) (cov_mx noisy (train_features gp) ex_ys) (cov_mx noisy (train_features gp) ex_ys)^T (cov_mx noisy ex_ys ex_ys + diag (m_var t))) = block_mx (2%:R^-1)%:M 0 0 1%:M.
  apply: (unit_of_right _).2.
  rewrite C0 trmx0 K1 Y1 /diag /= trmx0 linear0 addr0 mulmx_block !mul0mx !mulmx0 !addr0 !add0r mulmx1 -scalar_mxM mulfV //.
  by rewrite -scalar_mx_block.
rewrite EI C1 Y1 tr_col_mx trmx0 trmx1 mul_row_block !mul0mx !mul1mx !add0r mul_row_col mulmx0 mulmx1 add0r subrr.
rewrite mul_mx_scalar scale_row_mx mul_row_col mulmx0 add0r mulmx1 scalemx1 -raddfB /= !mxE eqxx.
by move/eqP.
Qed.

(* Integrals for C93. *)
From Coq Require Import Reals Lra Lia.
From Coquelicot Require Import Coquelicot.
Local Open Scope R_scope.

Lemma cont_RInt (f : R -> R) a b : (forall x, continuous f x) -> ex_RInt f a b.
Proof. intros H. apply (ex_RInt_continuous (V := R_CompleteNormedModule)). intros; apply H. Qed.

Lemma cont_2d_snd (f : R -> R -> R) u t : continuity_2d_pt f u t -> continuous (f u) t.
Proof.
  intros H. apply continuity_pt_filterlim. intros eps Heps. destruct (H (mkposreal eps Heps)) as [d Hd].
  exists d. split; [apply cond_pos|]. intros t' [_ Ht']. apply Hd; [|exact Ht']. rewrite Rminus_eq_0, Rabs_R0. apply cond_pos.
Qed.

(* an integral that depends on a parameter *)
Lemma continuous_param (f : R -> R -> R) a b x : a <= b -> (forall u t, continuity_2d_pt f u t) -> continuous (fun u => RInt (f u) a b) x.
Proof.
  intros Hab H.
  assert (forall u, ex_RInt (f u) a b) as Hi by (intros u; apply cont_RInt; intros t; apply cont_2d_snd, H).
  apply continuity_pt_filterlim. intros eps Heps.
  set (l := (b - a) + 1). assert (0 < l) as Hl by (unfold l; lra).
  assert (0 < eps / (2 * l)) as He by (apply Rdiv_lt_0_compat; lra).
  assert (forall t, a <= t <= b -> continuity_2d_pt (fun t u => f u t) t x) as Hsw.
  { intros t _ e. destruct (H x t e) as [d Hd]. exists d. intros u v Hu Hv. apply Hd; assumption. }
  destruct (uniform_continuity_2d_1d (fun t u => f u t) a b x Hsw (mkposreal _ He)) as [d Hd].
  exists d. split; [apply cond_pos|]. intros u [_ Hu]. unfold R_dist in *. cbn in Hu.
  unfold R_dist in Hu. cbn. unfold R_dist.
  change (Rabs (minus (RInt (f u) a b) (RInt (f x) a b)) < eps).
  rewrite <- RInt_minus by apply Hi.
  eapply Rle_lt_trans.
  - apply (abs_RInt_le_const (fun t => minus (f u t) (f x t)) a b (eps / (2 * l)) Hab).
    + apply (ex_RInt_minus (V := R_NormedModule)); apply Hi.
    + intros t Ht. apply Rlt_le. apply (Hd t x t u); try assumption.
      * pose proof (cond_pos d). lra.
      * apply Rabs_lt_between in Hu. lra.
      * rewrite Rminus_eq_0, Rabs_R0. apply cond_pos.
  - apply (Rmult_lt_reg_r (2 * l)); [lra|].
    replace ((b - a) * (eps / (2 * l)) * (2 * l)) with (eps * (b - a)) by (field; lra). unfold l. nra.
Qed.

(* ---- the stretch ---- *)
Section Stretch.
Variable a : R.
Hypothesis Ha : 1 < a.
Definition zf (p : R) : R := ((a - 1) * p + 1) ^ 2 / a.
(* the draw that gives the inverse stretch *)
Definition flip (p : R) : R := (a / ((a - 1) * p + 1) - 1) / (a - 1).
Lemma base_pos p : 0 <= p <= 1 -> 1 <= (a - 1) * p + 1 <= a.
Proof. intros H. split; nra. Qed.
Lemma zf_pos p : 0 <= p <= 1 -> 0 < zf p.
Proof. intros H. apply base_pos in H. unfold zf. apply Rdiv_lt_0_compat; [apply pow_lt|]; lra. Qed.
Lemma zf_range p : 0 <= p <= 1 -> / a <= zf p <= a.
Proof.
  intros H. apply base_pos in H. unfold zf, Rdiv. assert (0 < / a) by (apply Rinv_0_lt_compat; lra). split.
  - rewrite <- (Rmult_1_l (/ a)) at 1. apply Rmult_le_compat_r; [lra|]. nra.
  - apply (Rmult_le_reg_r a); [lra|]. rewrite Rmult_assoc, Rinv_l by lra. nra.
Qed.
Lemma zf_flip p : 0 <= p <= 1 -> zf (flip p) = / zf p.
Proof.
  intros H. apply base_pos in H. unfold zf, flip. field. split; [|split]; lra.
Qed.
Lemma flip_range p : 0 <= p <= 1 -> 0 <= flip p <= 1.
Proof.
  intros H. apply base_pos in H. unfold flip. assert (0 < / (a - 1)) by (apply Rinv_0_lt_compat; lra).
  assert (1 <= a / ((a - 1) * p + 1) <= a) as [H1 H2].
  { split; apply (Rmult_le_reg_r ((a - 1) * p + 1)); try lra; unfold Rdiv; rewrite Rmult_assoc, Rinv_l by lra; nra. }
  unfold Rdiv at 1 3. split.
  - apply Rmult_le_pos; lra.
  - apply (Rmult_le_reg_r (a - 1)); [lra|]. rewrite Rmult_assoc, Rinv_l by lra. lra.
Qed.
Lemma flip_derive p : 0 <= p <= 1 -> is_derive flip p (- / zf p).
Proof.
  intros H. apply base_pos in H. unfold flip, zf. auto_derive; [lra|]. field. split; [|split]; lra.
Qed.
Lemma flip_0 : flip 0 = 1.
Proof. unfold flip. field. lra. Qed.
Lemma flip_1 : flip 1 = 0.
Proof. unfold flip. field. lra. Qed.
Lemma zf_cont p : continuous zf p.
Proof. apply (ex_derive_continuous zf p). unfold zf. auto_derive. lra. Qed.
Lemma izf_cont p : 0 <= p <= 1 -> continuous (fun q => - / zf q) p.
Proof.
  intros H. apply (ex_derive_continuous (fun q => - / zf q) p). pose proof (zf_pos p H). unfold zf in *. auto_derive.
  intros E. apply (Rlt_irrefl 0). eapply Rlt_eq_compat; [reflexivity|exact H0|]. exact E.
Qed.

(* substituting the inverse stretch in the average over the draw *)
Lemma average_flip (K : R -> R) : (forall p, continuous K p) -> RInt (fun p => / zf p * K (flip p)) 0 1 = RInt K 0 1.
Proof.
  intros HK. pose proof (RInt_comp K flip (fun p => - / zf p) 0 1) as E.
  rewrite flip_0, flip_1 in E. rewrite <- (opp_RInt_swap K 1 0) by (apply ex_RInt_swap, cont_RInt, HK).
  rewrite <- E; cycle 1.
  - intros; apply HK.
  - intros x Hx. rewrite Rmin_left, Rmax_right in Hx by lra. split; [apply flip_derive, Hx|apply izf_cont, Hx].
  - rewrite <- RInt_opp.
    + apply RInt_ext. intros x _. unfold scal. cbn. unfold mult, opp. cbn. ring.
    + eapply ex_RInt_ext; [|eexists; apply (is_RInt_comp K flip (fun p => - / zf p) 0 1)].
      * intros x _. reflexivity.
      * intros; apply HK.
      * intros x Hx. rewrite Rmin_left, Rmax_right in Hx by lra. split; [apply flip_derive, Hx|apply izf_cont, Hx].
Qed.
End Stretch.

(* ---- integrals over symmetric intervals ---- *)
Lemma sym_diff (f : R -> R) A A' : (forall x, continuous f x) ->
  RInt f (- A') A' - RInt f (- A) A = RInt f (- A') (- A) + RInt f A A'.
Proof.
  intros Hf. assert (forall u v, ex_RInt f u v) as Hi by (intros; apply cont_RInt, Hf).
  rewrite <- (RInt_Chasles f (- A') (- A) A') by apply Hi. rewrite <- (RInt_Chasles f (- A) A A') by apply Hi.
  unfold plus; cbn. ring.
Qed.
Lemma ring_bound (f w : R -> R) C A A' : (forall x, continuous f x) -> (forall x, continuous w x) -> 0 < A <= A' ->
  (forall s, Rabs (f s) <= C * w s) ->
  Rabs (RInt f (- A') A' - RInt f (- A) A) <= C * (RInt w (- A') A' - RInt w (- A) A).
Proof.
  intros Hf Hw HA H. rewrite !sym_diff by assumption. rewrite Rmult_plus_distr_l.
  assert (forall u v, u <= v -> Rabs (RInt f u v) <= C * RInt w u v) as Hb.
  { intros u v Huv.
    apply (Rle_trans _ (RInt (fun s => C * w s) u v)).
    - eapply Rle_trans; [apply (abs_RInt_le f u v Huv); apply cont_RInt, Hf|].
      apply RInt_le; [exact Huv| | |intros; apply H].
      + apply cont_RInt. intros x. apply (continuous_comp f Rabs); [apply Hf|apply continuous_Rabs].
      + apply (ex_RInt_scal (V := R_NormedModule)), cont_RInt, Hw.
    - apply Req_le. apply (RInt_scal (V := R_CompleteNormedModule)). apply cont_RInt, Hw. }
  eapply Rle_trans; [apply Rabs_triang|]. apply Rplus_le_compat; apply Hb; lra.
Qed.
Lemma sym_mono (w : R -> R) A A' : (forall x, continuous w x) -> (forall s, 0 <= w s) -> 0 < A <= A' ->
  RInt w (- A) A <= RInt w (- A') A'.
Proof.
  intros Hw H0 HA. apply Rminus_le_0. rewrite sym_diff by assumption.
  apply Rplus_le_le_0_compat; apply RInt_ge_0; try lra; try (apply cont_RInt, Hw); intros; apply H0.
Qed.
Lemma ring_bound2 (f w : R -> R) C A A' L H : (forall x, continuous f x) -> (forall x, continuous w x) ->
  (forall s, 0 <= w s) -> 0 <= C -> 0 < L -> L <= A <= H -> L <= A' <= H -> (forall s, Rabs (f s) <= C * w s) ->
  Rabs (RInt f (- A') A' - RInt f (- A) A) <= C * (RInt w (- H) H - RInt w (- L) L).
Proof.
  intros Hf Hw H0 HC HL HA HA' Hb.
  destruct (Rle_dec A A') as [Hle|Hle].
  - eapply Rle_trans; [apply (ring_bound f w C); try assumption; lra|]. apply Rmult_le_compat_l; [exact HC|].
    pose proof (sym_mono w L A Hw H0). pose proof (sym_mono w A' H Hw H0). lra.
  - rewrite <- Rabs_Ropp, Ropp_minus_distr.
    eapply Rle_trans; [apply (ring_bound f w C); try assumption; lra|]. apply Rmult_le_compat_l; [exact HC|].
    pose proof (sym_mono w L A' Hw H0). pose proof (sym_mono w A H Hw H0). lra.
Qed.

(* ---- the two averages ---- *)
Lemma cont2_comp (f : R -> R) (g : R -> R -> R) u t : (forall x, continuous f x) -> continuity_2d_pt g u t ->
  continuity_2d_pt (fun u t => f (g u t)) u t.
Proof. intros Hf Hg. apply continuity_1d_2d_pt_comp; [|exact Hg]. apply continuity_pt_filterlim, Hf. Qed.
Lemma Rmin_abs x y : Rmin x y = (x + y - Rabs (x - y)) * / 2.
Proof. unfold Rmin. destruct (Rle_dec x y); [rewrite Rabs_left1 by lra|rewrite Rabs_right by lra]; lra. Qed.
Lemma cont2_min (f g : R -> R -> R) u t : continuity_2d_pt f u t -> continuity_2d_pt g u t ->
  continuity_2d_pt (fun u t => Rmin (f u t) (g u t)) u t.
Proof.
  intros Hf Hg. apply (continuity_2d_pt_ext (fun u t => (f u t + g u t - Rabs (f u t - g u t)) * / 2)).
  - intros; symmetry; apply Rmin_abs.
  - apply continuity_2d_pt_mult; [|apply continuity_2d_pt_const].
    apply continuity_2d_pt_minus; [apply continuity_2d_pt_plus; assumption|].
    apply (cont2_comp Rabs); [intros; apply continuous_Rabs|]. apply continuity_2d_pt_minus; assumption.
Qed.

Section Balance.
Variable a : R.
Hypothesis Ha : 1 < a.
Variables w psi : R -> R.
Hypothesis Hw : forall x, continuous w x.
Hypothesis Hpsi : forall x, continuous psi x.
Hypothesis Hw0 : forall x, 0 <= w x.
Variables B M : R.
Hypothesis HB : forall x, Rabs (psi x) <= B.
Hypothesis HM : 0 < M.
Notation z := (zf a).
Definition m2 (c r : R) : R := Rmin (w r) (w (c * r)).
Definition Jf (p : R) : R := RInt (fun r => m2 (z p) r * psi (z p * r)) (- M) M.
Definition Kf (p : R) : R := RInt (fun r => m2 (z p) r * psi r) (- M) M.

Lemma cont2_z u t : continuity_2d_pt (fun p r => z p * r) u t.
Proof.
  apply continuity_2d_pt_mult; [|apply continuity_2d_pt_id2].
  apply (cont2_comp z (fun p _ => p)); [apply zf_cont|apply continuity_2d_pt_id1].
Qed.
Lemma cont2_m u t : continuity_2d_pt (fun p r => m2 (z p) r) u t.
Proof.
  unfold m2. apply cont2_min.
  - apply (cont2_comp w (fun _ r => r)); [exact Hw|apply continuity_2d_pt_id2].
  - apply (cont2_comp w (fun p r => z p * r)); [exact Hw|apply cont2_z].
Qed.
Lemma cont2_J u t : continuity_2d_pt (fun p r => m2 (z p) r * psi (z p * r)) u t.
Proof.
  apply continuity_2d_pt_mult; [apply cont2_m|]. apply (cont2_comp psi (fun p r => z p * r)); [exact Hpsi|apply cont2_z].
Qed.
Lemma cont2_K u t : continuity_2d_pt (fun p r => m2 (z p) r * psi r) u t.
Proof.
  apply continuity_2d_pt_mult; [apply cont2_m|]. apply (cont2_comp psi (fun _ r => r)); [exact Hpsi|apply continuity_2d_pt_id2].
Qed.
Lemma J_cont p : continuous Jf p.
Proof. apply (continuous_param (fun p r => m2 (z p) r * psi (z p * r))); [lra|apply cont2_J]. Qed.
Lemma K_cont p : continuous Kf p.
Proof. apply (continuous_param (fun p r => m2 (z p) r * psi r)); [lra|apply cont2_K]. Qed.

Lemma m_cont c x : continuous (m2 c) x.
Proof.
  unfold m2. apply (continuous_ext (fun r => (w r + w (c * r) - Rabs (w r - w (c * r))) * / 2)).
  { intros; symmetry; apply Rmin_abs. }
  assert (continuous (fun r => w (c * r)) x) as Hc.
  { apply (continuous_comp (fun r => c * r) w); [|apply Hw]. apply (continuous_mult (fun _ => c) (fun r : R => r)); [apply continuous_const|apply continuous_id]. }
  apply (continuous_mult (fun r => w r + w (c * r) - Rabs (w r - w (c * r)))); [|apply continuous_const].
  apply (continuous_minus (V := R_NormedModule) (fun r => w r + w (c * r))).
  - apply (continuous_plus (V := R_NormedModule) w); [apply Hw|exact Hc].
  - apply (continuous_comp (fun r => w r - w (c * r)) Rabs); [|apply continuous_Rabs].
    apply (continuous_minus (V := R_NormedModule) w); [apply Hw|exact Hc].
Qed.
Lemma m_bound c s : Rabs (m2 c s * psi s) <= B * w s.
Proof.
  rewrite Rabs_mult, Rmult_comm. unfold m2. rewrite (Rabs_pos_eq (Rmin _ _)) by (apply Rmin_glb; apply Hw0).
  apply Rmult_le_compat; [apply Rabs_pos|apply Rmin_glb; apply Hw0|apply HB|apply Rmin_l].
Qed.
Lemma B_pos : 0 <= B.
Proof. eapply Rle_trans; [apply Rabs_pos|apply (HB 0)]. Qed.

Lemma J_subst p : 0 <= p <= 1 -> Jf p = / z p * RInt (fun s => m2 (/ z p) s * psi s) (- (z p * M)) (z p * M).
Proof.
  intros Hp. pose proof (zf_pos a Ha p Hp) as Hz.
  pose proof (RInt_comp_lin (fun s => m2 (/ z p) s * psi s) (z p) 0 (- M) M) as E.
  rewrite Rplus_0_r, <- Ropp_mult_distr_r, Rplus_0_r in E. rewrite <- E.
  - unfold Jf. rewrite <- (RInt_scal (V := R_CompleteNormedModule)).
    + apply RInt_ext. intros r _. unfold scal; cbn; unfold mult; cbn. rewrite Rplus_0_r.
      replace (m2 (/ z p) (z p * r)) with (m2 (z p) r); [field; lra|].
      unfold m2. rewrite <- Rmult_assoc, Rinv_l, Rmult_1_l by lra. apply Rmin_comm.
    + apply (ex_RInt_comp_lin (fun s => m2 (/ z p) s * psi s)). rewrite <- Ropp_mult_distr_r, !Rplus_0_r.
      apply cont_RInt. intros x. apply (continuous_mult (m2 (/ z p)) psi); [apply m_cont|apply Hpsi].
  - apply cont_RInt. intros x. apply (continuous_mult (m2 (/ z p)) psi); [apply m_cont|apply Hpsi].
Qed.

Lemma JK p : 0 <= p <= 1 -> Rabs (Jf p - / z p * Kf (flip a p)) <= a * B * (RInt w (- (a * M)) (a * M) - RInt w (- (M / a)) (M / a)).
Proof.
  intros Hp. rewrite J_subst by exact Hp. unfold Kf. rewrite zf_flip by assumption.
  pose proof (zf_pos a Ha p Hp) as Hz. pose proof (zf_range a Ha p Hp) as [Hl Hu].
  assert (0 < / a) as Hia by (apply Rinv_0_lt_compat; lra).
  rewrite <- Rmult_minus_distr_l, Rabs_mult, (Rabs_pos_eq (/ z p)) by (apply Rlt_le, Rinv_0_lt_compat, Hz).
  rewrite Rmult_assoc. apply Rmult_le_compat.
  - apply Rlt_le, Rinv_0_lt_compat, Hz.
  - apply Rabs_pos.
  - replace a with (/ / a) at 2 by apply Rinv_inv. apply Rinv_le_contravar; [exact Hia|exact Hl].
  - assert (/ a < 1) as Hi1 by (rewrite <- Rinv_1; apply Rinv_lt_contravar; lra).
    apply (ring_bound2 (fun s => m2 (/ z p) s * psi s) w B); try assumption.
    + intros x. apply (continuous_mult (m2 (/ z p)) psi); [apply m_cont|apply Hpsi].
    + apply B_pos.
    + apply Rdiv_lt_0_compat; lra.
    + unfold Rdiv. split; nra.
    + unfold Rdiv. split; nra.
    + intros; apply m_bound.
Qed.

(* what the accepted moves bring in is what they take away, up to the mass near the ends *)
Theorem balance : Rabs (RInt Jf 0 1 - RInt Kf 0 1) <= a * B * (RInt w (- (a * M)) (a * M) - RInt w (- (M / a)) (M / a)).
Proof.
  rewrite <- (average_flip a Ha Kf K_cont).
  assert (ex_RInt Jf 0 1) as H1 by apply cont_RInt, J_cont.
  assert (ex_RInt (fun p => / z p * Kf (flip a p)) 0 1) as H2.
  { apply (ex_RInt_continuous (V := R_CompleteNormedModule)). intros p Hp. rewrite Rmin_left, Rmax_right in Hp by lra.
    apply (continuous_mult (fun p => / z p)).
    - apply (continuous_ext (fun q => - (- / z q))); [intros; apply Ropp_involutive|]. apply (continuous_opp (V := R_NormedModule) (fun q => - / z q)), izf_cont; assumption.
    - apply (continuous_comp (flip a) Kf); [|apply K_cont]. apply (ex_derive_continuous (flip a)). eexists. apply flip_derive; assumption. }
  change (Rabs (minus (RInt Jf 0 1) (RInt (fun p => / z p * Kf (flip a p)) 0 1)) <= a * B * (RInt w (- (a * M)) (a * M) - RInt w (- (M / a)) (M / a))).
  rewrite <- (RInt_minus (V := R_CompleteNormedModule)) by assumption.
  replace (a * B * _) with ((1 - 0) * (a * B * (RInt w (- (a * M)) (a * M) - RInt w (- (M / a)) (M / a)))) by ring.
  apply (abs_RInt_le_const (fun p => minus (Jf p) (/ z p * Kf (flip a p)))); [lra| |].
  - apply (ex_RInt_minus (V := R_NormedModule)); assumption.
  - intros p Hp. apply JK, Hp.
Qed.
End Balance.

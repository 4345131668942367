(* The power series of the arc sine: its coefficients are not negative. For C94; no code is modelled here. *)
From Coq Require Import Reals Lra Lia.
From Coquelicot Require Import Coquelicot.
Local Open Scope R_scope.

Fixpoint b (k : nat) : R := match k with O => 1 | S k' => b k' * ((2 * INR k' + 1) / (2 * INR k' + 2)) end.
Definition a (k : nat) : R := b k / (2 * INR k + 1).
Lemma b_S k : b (S k) = b k * ((2 * INR k + 1) / (2 * INR k + 2)).
Proof. reflexivity. Qed.
Lemma b_range k : 0 < b k <= 1.
Proof.
  induction k as [|k IH]; [cbn; lra|]. rewrite b_S. pose proof (pos_INR k) as Hk.
  assert (0 < (2 * INR k + 1) / (2 * INR k + 2) <= 1) as [H1 H2].
  { split; [apply Rdiv_lt_0_compat; lra|]. apply (Rmult_le_reg_r (2 * INR k + 2)); [lra|].
    unfold Rdiv. rewrite Rmult_assoc, Rinv_l by lra. lra. }
  split; [apply Rmult_lt_0_compat; lra|]. nra.
Qed.
Lemma a_range k : 0 < a k <= 1.
Proof.
  pose proof (b_range k) as Hb. pose proof (pos_INR k) as Hk. unfold a. split; [apply Rdiv_lt_0_compat; lra|].
  apply (Rmult_le_reg_r (2 * INR k + 1)); [lra|]. unfold Rdiv. rewrite Rmult_assoc, Rinv_l by lra. lra.
Qed.

Lemma radius (c : nat -> R) u : (forall k, 0 < c k <= 1) -> Rabs u < 1 -> Rbar_lt (Rabs u) (CV_radius c).
Proof.
  intros Hc Hu. set (r := (Rabs u + 1) / 2). pose proof (Rabs_pos u) as Hu0.
  apply (Rbar_lt_le_trans _ (Finite r)); [cbn; unfold r; lra|].
  apply (proj1 (CV_radius_bounded c)).
  exists 1. intros n. rewrite Rabs_mult. assert (0 <= r <= 1) as Hr by (unfold r; lra).
  rewrite Rabs_pos_eq by (specialize (Hc n); lra). rewrite (Rabs_pos_eq (r ^ n)) by (apply pow_le; lra).
    assert (r ^ n <= 1) by (rewrite <- (pow1 n); apply pow_incr; lra). pose proof (pow_le r n (proj1 Hr)). specialize (Hc n). nra.
Qed.
Notation Sb := (PSeries b).
Notation Sa := (PSeries a).
Lemma inside c u : (forall k, 0 < c k <= 1) -> Rabs u < 1 -> ex_pseries c u.
Proof. intros Hc Hu. apply CV_radius_inside, radius; assumption. Qed.
Lemma inside_derive c u : (forall k, 0 < c k <= 1) -> Rabs u < 1 -> ex_pseries (PS_derive c) u.
Proof. intros Hc Hu. apply CV_radius_inside. rewrite CV_radius_derive. apply radius; assumption. Qed.

Lemma ode u : Rabs u < 1 -> 2 * (1 - u) * PSeries (PS_derive b) u = Sb u.
Proof.
  intros Hu. pose proof (inside_derive b u b_range Hu) as Hd.
  replace (2 * (1 - u) * PSeries (PS_derive b) u) with (2 * (PSeries (PS_derive b) u - u * PSeries (PS_derive b) u)) by ring.
  rewrite <- PSeries_incr_1. rewrite <- PSeries_minus; [|exact Hd|apply ex_pseries_incr_1, Hd].
  rewrite <- PSeries_scal. apply PSeries_ext. intros [|n].
  - unfold PS_scal, PS_minus, PS_plus, PS_opp, PS_incr_1, PS_derive, scal, plus, opp, zero. cbn. unfold mult. cbn. lra.
  - unfold PS_scal, PS_minus, PS_plus, PS_opp, PS_incr_1, PS_derive. unfold scal, plus, opp. cbn [Ring.sort AbelianGroup.plus].
    cbn -[INR b]. unfold mult. cbn -[INR b]. rewrite (b_S (S n)). rewrite !S_INR. pose proof (pos_INR n). field. lra.
Qed.
Lemma Sb_derive u : Rabs u < 1 -> is_derive Sb u (PSeries (PS_derive b) u).
Proof. intros Hu. apply is_derive_PSeries, radius; [apply b_range|exact Hu]. Qed.
Lemma Sb_0 : Sb 0 = 1.
Proof. rewrite PSeries_0. reflexivity. Qed.
Lemma Sb_square u : 0 <= u < 1 -> Sb u * Sb u * (1 - u) = 1.
Proof.
  intros Hu. destruct (Req_dec u 0) as [->|Hne]; [rewrite Sb_0; ring|].
  rewrite <- (eq_is_derive (fun x => Sb x * Sb x * (1 - x)) 0 u).
  - rewrite Sb_0. ring.
  - intros t Ht. assert (Rabs t < 1) as Ht1 by (rewrite Rabs_pos_eq; lra).
    pose proof (Sb_derive t Ht1) as D.
    evar_last.
    + apply (is_derive_mult (fun x => Sb x * Sb x) (fun x => 1 - x)); [apply (is_derive_mult Sb Sb); [exact D|exact D|intros; apply Rmult_comm]| |intros; apply Rmult_comm].
      apply (is_derive_minus (V := R_NormedModule) (fun _ => 1) (fun x => x)); [apply is_derive_const|apply is_derive_id].
    + unfold plus, mult, minus, opp, zero, one. cbn. rewrite <- (ode t Ht1). ring.
  - lra.
Qed.
Lemma Sb_pos u : 0 <= u < 1 -> 0 < Sb u.
Proof.
  intros Hu. assert (Rabs u < 1) as Hu1 by (rewrite Rabs_pos_eq; lra).
  apply (Rlt_le_trans _ (Sb 0)); [rewrite Sb_0; lra|]. unfold PSeries. apply Series_le.
  - intros n. pose proof (b_range n). split; [apply Rmult_le_pos; [lra|apply pow_le; lra]|].
    apply Rmult_le_compat_l; [lra|]. apply pow_incr; lra.
  - apply ex_pseries_R, inside; [apply b_range|exact Hu1].
Qed.

Lemma Sb_value u : 0 <= u < 1 -> Sb u = / sqrt (1 - u).
Proof.
  intros Hu. pose proof (Sb_pos u Hu) as Hp. pose proof (Sb_square u Hu) as Hs.
  assert (0 < sqrt (1 - u)) as Hq by (apply sqrt_lt_R0; lra).
  assert (sqrt (1 - u) = / Sb u) as ->; [|symmetry; apply Rinv_inv].
  apply sqrt_lem_1; [lra|apply Rlt_le, Rinv_0_lt_compat, Hp|].
  apply (Rmult_eq_reg_l (Sb u * Sb u)); [|nra]. rewrite Hs. field. lra.
Qed.

(* the odd series *)
Definition arc (t : R) : R := t * Sa (t * t).
Lemma arc_coefficients u : Rabs u < 1 -> Sa u + 2 * u * PSeries (PS_derive a) u = Sb u.
Proof.
  intros Hu. pose proof (inside_derive a u a_range Hu) as Hd.
  replace (2 * u * PSeries (PS_derive a) u) with (2 * (u * PSeries (PS_derive a) u)) by ring.
  rewrite <- PSeries_incr_1, <- PSeries_scal.
  assert (ex_pseries (PS_incr_1 (PS_derive a)) u) as He by apply ex_pseries_incr_1, Hd.
  rewrite <- PSeries_plus; [|apply inside; [apply a_range|exact Hu]|apply ex_pseries_scal; [apply Rmult_comm|exact He]].
  apply PSeries_ext. intros [|n].
  - unfold PS_scal, PS_plus, PS_incr_1, PS_derive, scal, plus, zero, a. cbn. unfold mult. cbn. field.
  - unfold PS_scal, PS_plus, PS_incr_1, PS_derive, scal, plus. cbn -[INR b a]. unfold mult. cbn -[INR b a].
    unfold a. pose proof (pos_INR (S n)). field. lra.
Qed.
Lemma sq_small t : Rabs t < 1 -> 0 <= t * t < 1.
Proof.
  intros Ht. split; [apply Rle_0_sqr|]. apply Rabs_def2 in Ht. nra.
Qed.
Lemma arc_derive t : Rabs t < 1 -> is_derive arc t (/ sqrt (1 - t * t)).
Proof.
  intros Ht. pose proof (sq_small t Ht) as Hs. assert (Rabs (t * t) < 1) as Hs1 by (rewrite Rabs_pos_eq; lra).
  rewrite <- Sb_value by exact Hs. rewrite <- arc_coefficients by exact Hs1.
  assert (is_derive (fun t => t * t) t (2 * t)) as D1 by (auto_derive; [exact I|ring]).
  assert (is_derive Sa (t * t) (PSeries (PS_derive a) (t * t))) as D2 by (apply is_derive_PSeries, radius; [apply a_range|exact Hs1]).
  pose proof (is_derive_comp Sa (fun t => t * t) t _ _ D2 D1) as D3.
  pose proof (is_derive_mult (fun t => t) (fun t => Sa (t * t)) t _ _ (is_derive_id t) D3 Rmult_comm) as D4.
  unfold plus, mult, scal, one in D4. cbn in D4. unfold mult in D4. cbn in D4. unfold arc.
  replace (Sa (t * t) + 2 * (t * t) * PSeries (PS_derive a) (t * t)) with (1 * Sa (t * t) + t * (2 * t * PSeries (PS_derive a) (t * t))) by ring.
  exact D4.
Qed.
Lemma asin_derive t : Rabs t < 1 -> is_derive asin t (/ sqrt (1 - t * t)).
Proof.
  intros Ht. apply Rabs_def2 in Ht. assert (-1 < t < 1) as Hr by lra.
  apply is_derive_Reals. destruct (derivable_pt_asin t Hr) as [l Hl] eqn:E.
  pose proof (derive_pt_asin t Hr) as D. rewrite E in D. cbn in D. unfold Rdiv, Rsqr in D. rewrite Rmult_1_l in D. subst l. exact Hl.
Qed.
Theorem asin_series t : Rabs t < 1 -> asin t = t * Sa (t * t).
Proof.
  intros Ht. change (asin t = arc t).
  assert (forall x y, x < y -> Rabs x < 1 -> Rabs y < 1 -> asin x - arc x = asin y - arc y) as Hc.
  { intros x y Hxy Hx Hy. apply (eq_is_derive (fun t => asin t - arc t) x y); [|exact Hxy].
    intros s Hs. apply Rabs_def2 in Hx. apply Rabs_def2 in Hy. assert (Rabs s < 1) as Hs1 by (apply Rabs_def1; lra).
    evar_last; [apply (is_derive_minus (V := R_NormedModule) asin arc); [apply asin_derive, Hs1|apply arc_derive, Hs1]|].
    apply (minus_eq_zero (G := R_AbelianGroup)). }
  assert (asin 0 - arc 0 = 0) as H0 by (rewrite asin_0; unfold arc; ring).
  assert (Rabs 0 < 1) as Z by (rewrite Rabs_R0; lra).
  destruct (Rtotal_order t 0) as [H|[->|H]].
  - specialize (Hc t 0 H Ht Z). lra.
  - lra.
  - specialize (Hc 0 t H Z Ht). lra.
Qed.
(* ... with partial sums *)
Lemma Sa_cv u : Rabs u < 1 -> Un_cv (sum_f_R0 (fun k => a k * u ^ k)) (Sa u).
Proof.
  intros Hu. apply is_series_Reals. apply (Series_correct (fun k => a k * u ^ k)).
  apply ex_pseries_R, inside; [apply a_range|exact Hu].
Qed.

(* continuity at the ends *)
Lemma asin_scaled_cv t : Rabs t <= 1 -> Un_cv (fun m => asin ((1 - / (INR m + 1)) * t)) (asin t).
Proof.
  intros Ht.
  assert (Un_cv (fun m => (1 - / (INR m + 1))) 1) as Hr.
  { intros eps He. destruct (archimed_cor1 eps He) as [N [HN HN0]]. exists N. intros m Hm. unfold R_dist.
    replace (1 - / (INR m + 1) - 1) with (- / (INR m + 1)) by ring. rewrite Rabs_Ropp.
    pose proof (pos_INR m). rewrite Rabs_pos_eq by (apply Rlt_le, Rinv_0_lt_compat; lra).
    eapply Rle_lt_trans; [|exact HN]. apply Rinv_le_contravar; [apply lt_0_INR; exact HN0|]. apply le_INR in Hm. lra. }
  assert (Un_cv (fun m => (1 - / (INR m + 1)) * t) t) as Hrt.
  { pose proof (CV_mult _ (fun _ => t) 1 t Hr) as C. rewrite Rmult_1_l in C. apply C. intros eps He. exists O. intros. unfold R_dist. rewrite Rminus_eq_0, Rabs_R0. exact He. }
  assert (forall m, 0 <= 1 - / (INR m + 1) < 1) as Hm1.
  { intros m. pose proof (pos_INR m). assert (0 < / (INR m + 1)) by (apply Rinv_0_lt_compat; lra).
    assert (/ (INR m + 1) <= 1) by (rewrite <- Rinv_1; apply Rinv_le_contravar; lra). lra. }
  destruct (Rle_lt_or_eq_dec _ _ Ht) as [Hlt|He].
  - apply (continuity_seq asin (fun m => (1 - / (INR m + 1)) * t) t); [|exact Hrt].
    apply derivable_continuous_pt. eexists. apply is_derive_Reals, asin_derive, Hlt.
  - (* t = 1 or t = -1 *)
    assert (Un_cv (fun m => asin (1 - / (INR m + 1))) (PI / 2)) as H1.
    { intros eps Heps. set (e := Rmin eps (PI / 2)). pose proof PI_RGT_0 as HP.
      assert (0 < e <= PI / 2) as He0 by (unfold e; split; [apply Rmin_glb_lt; lra|apply Rmin_r]).
      assert (sin (PI / 2 - e) < 1) as Hs.
      { rewrite <- sin_PI2. apply sin_increasing_1; lra. }
      destruct (Hr (1 - sin (PI / 2 - e)) ltac:(lra)) as [N HN]. exists N. intros m Hm. specialize (HN m Hm). unfold R_dist in *.
      specialize (Hm1 m). rewrite Rabs_left in HN by lra.
      pose proof (asin_bound_lt (1 - / (INR m + 1)) ltac:(lra)) as [Hb1 Hb2].
      rewrite Rabs_left by lra.
      assert (PI / 2 - e < asin (1 - / (INR m + 1))) as Hlt; [|unfold e in Hlt; pose proof (Rmin_l eps (PI / 2)); lra].
      apply sin_increasing_0; try lra. rewrite sin_asin by lra. lra. }
    unfold Rabs in He. destruct (Rcase_abs t).
    + assert (t = -1) as -> by lra. replace (-1) with (- (1)) by ring. rewrite asin_opp, asin_1.
      intros eps Heps. destruct (H1 eps Heps) as [N HN]. exists N. intros m Hm. specialize (HN m Hm). unfold R_dist in *.
      rewrite <- Ropp_mult_distr_r, Rmult_1_r, asin_opp. rewrite <- Rabs_Ropp.
      replace (- (- asin (1 - / (INR m + 1)) - - (PI / 2))) with (asin (1 - / (INR m + 1)) - PI / 2) by ring. exact HN.
    + subst t. rewrite asin_1. intros eps Heps. destruct (H1 eps Heps) as [N HN]. exists N. intros m Hm. rewrite Rmult_1_r. apply HN, Hm.
Qed.

(* The derivation of Matern length scales does not converge for some requests (C67). *)
From Coq Require Import Reals Ranalysis5 Lra Psatz Lia.
From Verif Require Import Base BaseProofs ExtRealModel RadialModel RadialSpec RadialProofs NewtonProofs MaternProofs
  ExpBounds NewtonCycle MaternCycle.
Local Open Scope R_scope.

Definition bottom : R := 10 ^ 7 / 2 ^ 21.
Definition a0 s := kk s / bottom.
Definition W0 s := WW s (a0 s).
Definition q0 s := a0 s ^ 2 * MM s (a0 s) / W0 s.
(* the target, relative to the log of the prior: the Newton step from bottom ends at 3/100 *)
Definition T0 s := - a0 s + 1 / 2 * ln (W0 s) + q0 s * (1 - 3 / 100 / bottom).

Lemma bottom_val : bottom = 10000000 / 2097152. Proof. unfold bottom. simpl. lra. Qed.

Section Numbers.
Variable s : shape.
Hypothesis Hs : is_matern s.
Lemma numbers : 1 / 3 <= a0 s <= 1 / 2 /\ 15 / 100 <= W0 s <= 22 / 100 /\ 8 / 10 <= q0 s <= 98 / 100 /\
  - (49 / 100) <= T0 s <= - (21 / 100).
Proof.
  assert (E18 : 5987 / 1000 <= exp (18 / 10)) by (pose proof (exp_lower6 (18 / 10) ltac:(lra)); simpl in *; lra).
  assert (L18 : forall w, 17 / 100 <= w -> - (18 / 10) <= ln w).
  { intros w Hw. rewrite <- (ln_exp (- (18 / 10))). apply ln_le_iff; [apply exp_pos|lra|].
    assert (exp (18 / 10) * exp (- (18 / 10)) = 1) by (rewrite <- exp_plus, Rplus_opp_r, exp_0; auto).
    pose proof (exp_pos (- (18 / 10))). nra. }
  assert (B : 1 - 3 / 100 / bottom = 993708544 / 1000000000) by (rewrite bottom_val; lra).
  unfold T0, q0. rewrite B. clear B. unfold W0, a0.
  destruct Hs as [-> | ->].
  - pose proof sqrt3_bounds as K. set (a := kk Matern32 / bottom).
    assert (A : 3632 / 10000 <= a <= 3633 / 10000) by (unfold a; rewrite bottom_val; simpl kk; lra).
    assert (E1 : 20656 / 10000 <= exp (2 * a)).
    { pose proof (exp_lower6 (7264 / 10000) ltac:(lra)) as E.
      apply Rle_trans with (exp (7264 / 10000)); [simpl in E; lra|].
      apply exp_mono; lra. }
    assert (E2 : exp (2 * a) <= 207 / 100).
    { apply Rle_trans with (exp (7266 / 10000)).
      - apply exp_mono; lra.
      - apply exp_upper; lra. }
    assert (W : 206 / 1000 <= WW Matern32 a <= 215 / 1000) by (unfold WW; simpl PP; nra).
    assert (Q : 83 / 100 <= a ^ 2 * MM Matern32 a / WW Matern32 a <= 88 / 100).
    { simpl MM. set (w := WW Matern32 a) in *. assert (N : 1797 / 10000 <= a ^ 2 * (1 + a) <= 180 / 1000) by nra.
      split; apply (Rmult_le_reg_r w); try lra.
      - unfold Rdiv at 2. rewrite Rmult_assoc, Rinv_l by lra. lra.
      - unfold Rdiv at 1. rewrite Rmult_assoc, Rinv_l by lra. lra. }
    assert (U : ln (WW Matern32 a) <= - (15 / 10)).
    { rewrite <- (ln_exp (- (15 / 10))). apply ln_le_iff; [lra|apply exp_pos|].
      pose proof (exp_neg_lower5 (3 / 4) ltac:(lra)) as E. replace (- (15 / 10)) with (- (3 / 4) + - (3 / 4)) by lra.
      rewrite exp_plus. simpl in E. nra. }
    pose proof (L18 (WW Matern32 a) ltac:(lra)). lra.
  - pose proof sqrt5_bounds as K. set (a := kk Matern52 / bottom).
    assert (A : 4689 / 10000 <= a <= 46895 / 100000) by (unfold a; rewrite bottom_val; simpl kk; lra).
    assert (E1 : 25535 / 10000 <= exp (2 * a)).
    { pose proof (exp_lower6 (9378 / 10000) ltac:(lra)) as E.
      apply Rle_trans with (exp (9378 / 10000)); [simpl in E; lra|].
      apply exp_mono; lra. }
    assert (E2 : exp (2 * a) <= 2561 / 1000).
    { apply Rle_trans with (exp (9379 / 10000)).
      - apply exp_mono; lra.
      - apply exp_upper; simpl; lra. }
    assert (P : 15421 / 10000 <= PP Matern52 a <= 15423 / 10000) by (simpl PP; nra).
    assert (W : 174 / 1000 <= WW Matern52 a <= 184 / 1000) by (unfold WW; nra).
    assert (Q : 895 / 1000 <= a ^ 2 * MM Matern52 a / WW Matern52 a <= 96 / 100).
    { simpl MM. simpl PP in P. set (w := WW Matern52 a) in *.
      assert (N0 : 21986 / 100000 <= a ^ 2 <= 21992 / 100000) by nra.
      assert (N1 : 755 / 1000 <= (1 + a) / 3 * (1 + a + a * (a * 1) / 3) <= 7552 / 10000) by (simpl in P; nra).
      assert (N : 1659 / 10000 <= a ^ 2 * ((1 + a) / 3 * (1 + a + a * (a * 1) / 3)) <= 1661 / 10000) by nra.
      replace (a * (a * 1)) with (a ^ 2) in N by ring.
      split; apply (Rmult_le_reg_r w); try lra.
      - unfold Rdiv at 2. rewrite Rmult_assoc, Rinv_l by lra. lra.
      - unfold Rdiv at 1. rewrite Rmult_assoc, Rinv_l by lra. lra. }
    assert (U : ln (WW Matern52 a) <= - (16 / 10)).
    { rewrite <- (ln_exp (- (16 / 10))). apply ln_le_iff; [lra|apply exp_pos|].
      pose proof (exp_neg_lower5 (8 / 10) ltac:(lra)) as E. replace (- (16 / 10)) with (- (8 / 10) + - (8 / 10)) by lra.
      rewrite exp_plus. simpl in E. nra. }
    pose proof (L18 (WW Matern52 a) ltac:(lra)). lra.
Qed.
(* at 9 *)
Lemma numbers9 : - (kk s / 9) + 1 / 2 * ln (WW s (kk s / 9)) <= - (155 / 100).
Proof.
  assert (E29 : 5 / 100 <= exp (- (28 / 10))).
  { pose proof (exp_neg_lower5 (7 / 10) ltac:(lra)) as E. replace (- (28 / 10)) with (- (7 / 10) + - (7 / 10) + (- (7 / 10) + - (7 / 10))) by lra.
    rewrite !exp_plus. simpl in E. assert (496 / 1000 <= exp (- (7 / 10))) by lra.
    set (e := exp (- (7 / 10))) in *. assert (246 / 1000 <= e * e) by nra. nra. }
  assert (L : forall w, 0 < w <= 5 / 100 -> ln w <= - (28 / 10)).
  { intros w Hw. rewrite <- (ln_exp (- (28 / 10))). apply ln_le_iff; [lra|apply exp_pos|lra]. }
  pose proof (WW_pos s (kk s / 9)) as W0. pose proof (kk_bounds s) as K. specialize (W0 ltac:(lra)).
  assert (W : WW s (kk s / 9) <= 5 / 100).
  { destruct Hs as [-> | ->]; clear W0.
    - pose proof sqrt3_bounds as KK. simpl kk in *. set (a := sqrt 3 / 9). assert (A : 19244 / 100000 <= a <= 19246 / 100000) by (unfold a; lra).
      assert (E2 : exp (2 * a) <= 147 / 100).
      { apply Rle_trans with (exp (38492 / 100000)).
        - apply exp_mono; lra.
        - apply exp_upper; simpl; lra. }
      unfold WW. simpl PP. nra.
    - pose proof sqrt5_bounds as KK. simpl kk in *. set (a := sqrt 5 / 9). assert (A : 24844 / 100000 <= a <= 24846 / 100000) by (unfold a; lra).
      assert (E2 : exp (2 * a) <= 16446 / 10000).
      { apply Rle_trans with (exp (49692 / 100000)).
        - apply exp_mono; lra.
        - apply exp_upper; simpl; lra. }
      unfold WW. simpl PP. assert (12690 / 10000 <= 1 + a + a * (a * 1) / 3) by nra. nra. }
  specialize (L _ (conj W0 W)). lra.
Qed.
End Numbers.

Lemma T0_form s : T0 s = - a0 s + 1 / 2 * ln (W0 s) + q0 s * (1 - 3 / 100 / bottom). Proof. reflexivity. Qed.
Lemma exp_diff a b : a <= b -> exp b - exp a <= (b - a) * exp b.
Proof.
  intros H. pose proof (exp_pos b). assert (E : exp a = exp (- (b - a)) * exp b) by (rewrite <- exp_plus; f_equal; ring).
  assert (1 + - (b - a) <= exp (- (b - a))) by (destruct (Req_dec (b - a) 0) as [->|N]; [rewrite Ropp_0, exp_0; lra|
    apply Rlt_le, exp_ineq1; lra]). nra.
Qed.
Lemma PP_incr s a b : 0 <= a -> a <= b -> PP s a <= PP s b.
Proof. intros A B. destruct s; simpl PP; nra. Qed.
Lemma MM_incr s a b : 0 <= a -> a <= b -> MM s a <= MM s b.
Proof.
  intros A B. pose proof (PP_incr Matern52 a b A B) as P. pose proof (PP_pos Matern52 a A) as P1. simpl PP in P, P1.
  destruct s; simpl MM; try lra; nra.
Qed.
Lemma MM_rel s a b d : 0 <= a -> a <= b -> b <= a * (1 + d) -> 0 <= d <= 1 / 10 -> MM s b <= MM s a * (1 + 4 * d).
Proof.
  intros A B C D.
  assert (H1 : 1 + b <= (1 + a) * (1 + d)) by nra.
  assert (Q : b ^ 2 <= a ^ 2 * (1 + d) ^ 2) by (simpl; nra).
  assert (H2 : 1 + b + b ^ 2 / 3 <= (1 + a + a ^ 2 / 3) * (1 + d) ^ 2).
  { assert (1 + d <= (1 + d) ^ 2) by nra. assert (0 <= a ^ 2) by nra. nra. }
  assert (H3 : (1 + d) ^ 3 <= 1 + 4 * d) by (simpl; nra).
  assert (P0 : 0 <= 1 + b + b ^ 2 / 3) by nra. assert (P1 : 0 <= 1 + a + a ^ 2 / 3) by nra.
  assert (G : (1 + b) / 3 * (1 + b + b ^ 2 / 3) <= (1 + a) / 3 * (1 + a + a ^ 2 / 3) * (1 + 4 * d)).
  { apply Rle_trans with ((1 + a) * (1 + d) / 3 * ((1 + a + a ^ 2 / 3) * (1 + d) ^ 2)).
    - apply Rmult_le_compat; auto; lra.
    - replace ((1 + a) * (1 + d) / 3 * ((1 + a + a ^ 2 / 3) * (1 + d) ^ 2)) with ((1 + a) / 3 * (1 + a + a ^ 2 / 3) * (1 + d) ^ 3) by field.
      apply Rmult_le_compat_l; auto. apply Rmult_le_pos; lra. }
  destruct s; simpl MM; try exact G; nra.
Qed.
Lemma PP_diff s a b : 0 <= a -> a <= b -> b <= 1 / 2 -> PP s b ^ 2 - PP s a ^ 2 <= 6 * (b - a).
Proof.
  intros A B C. pose proof (PP_incr s a b A B) as I. assert (L : PP s b - PP s a <= 4 / 3 * (b - a)) by (destruct s; simpl PP; nra).
  assert (U : PP s b <= 16 / 10) by (destruct s; simpl PP; nra). pose proof (PP_pos s a A). nra.
Qed.

Section Refute.
Variables (s : shape) (prior : R).
Hypothesis Hs : is_matern s.
Hypothesis Hprior : 0 < prior.
Notation f := (log_noise s prior).
Notation slope := (log_slope s).
Definition TT : R := ln prior + T0 s.

Lemma hit_part x : bottom <= x <= bottom + 2 * / 10 ^ 7 ->
  / 10 ^ 7 < x - (TT - f x) / slope x <= 6 / 100 /\ 1 / 10 <= TT - f x.
Proof.
  intros H. pose proof bottom_val as B. assert (Hlo : / 10 ^ 7 = 1 / 10000000) by (simpl; lra). rewrite Hlo in *.
  assert (X : 0 < x) by lra. assert (B0 : 0 < bottom) by lra.
  destruct (numbers s Hs) as (NA & NW & NQ & NT).
  pose proof (kk_bounds s) as K.
  set (a := kk s / x).
  assert (Aeq : a * x = kk s) by (unfold a; field; lra). assert (A0eq : a0 s * bottom = kk s) by (unfold a0; field; lra).
  assert (Apos : 0 < a) by (apply arg_pos; auto).
  set (d := 1 / 10000000) in *.
  assert (AL : a <= a0 s) by (apply (Rmult_le_reg_r x); nra).
  assert (AU : a0 s <= a * (1 + d)).
  { apply (Rmult_le_reg_r bottom); auto. rewrite A0eq, <- Aeq. assert (x <= (1 + d) * bottom) by (unfold d in *; lra). nra. }
  assert (AD : a0 s - a <= d) by (unfold d in *; nra).
  pose proof (MM_incr s a (a0 s) ltac:(lra) AL) as M1.
  pose proof (MM_rel s a (a0 s) d ltac:(lra) AL AU ltac:(unfold d; lra)) as M2.
  pose proof (MM_pos s a ltac:(lra)) as M0.
  (* W *)
  assert (E3 : exp (2 * a0 s) <= 3).
  { apply Rle_trans with (exp 1); [apply exp_mono; lra|]. apply exp_le_3. }
  assert (W2 : - (6 * d) <= W0 s - WW s a <= 6 * d).
  { unfold W0, WW. pose proof (exp_diff (2 * a) (2 * a0 s) ltac:(lra)).
    pose proof (PP_incr s a (a0 s) ltac:(lra) AL). pose proof (PP_pos s a ltac:(lra)). pose proof (exp_pos (2 * a0 s)).
    pose proof (PP_diff s a (a0 s) ltac:(lra) AL ltac:(lra)). pose proof (exp_mono (2 * a) (2 * a0 s) ltac:(lra)). nra. }
  assert (Wlo : 14 / 100 <= WW s a <= 23 / 100) by (unfold d in *; lra).
  set (q := a ^ 2 * MM s a / WW s a).
  assert (Qeq : q * WW s a = a ^ 2 * MM s a) by (unfold q; field; lra).
  assert (Q0eq : q0 s * W0 s = a0 s ^ 2 * MM s (a0 s)) by (unfold q0; field; lra).
  assert (Qd : 0 <= q0 s * W0 s - q * WW s a <= 8 * d * (a ^ 2 * MM s a)).
  { rewrite Qeq, Q0eq. assert (a ^ 2 <= a0 s ^ 2) by nra. assert (S2 : a0 s ^ 2 <= a ^ 2 * (1 + 3 * d)).
    { apply Rle_trans with ((a * (1 + d)) ^ 2); [apply pow_incr; lra|]. assert (0 <= a ^ 2) by nra.
      replace ((a * (1 + d)) ^ 2) with (a ^ 2 * (1 + 2 * d + d * d)) by ring. apply Rmult_le_compat_l; auto. unfold d; lra. }
    assert (0 <= a ^ 2) by nra. split; [nra|].
    assert (a0 s ^ 2 * MM s (a0 s) <= a ^ 2 * (1 + 3 * d) * (MM s a * (1 + 4 * d))) by (apply Rmult_le_compat; nra).
    assert (0 <= a ^ 2 * MM s a) by nra.
    assert (a ^ 2 * (1 + 3 * d) * (MM s a * (1 + 4 * d)) <= a ^ 2 * MM s a * (1 + 8 * d)); [|lra].
    replace (a ^ 2 * (1 + 3 * d) * (MM s a * (1 + 4 * d))) with (a ^ 2 * MM s a * ((1 + 3 * d) * (1 + 4 * d))) by ring.
    apply Rmult_le_compat_l; auto. unfold d. lra. }
  assert (Aq : a ^ 2 * MM s a <= WW s a) by (apply MM_W; auto).
  assert (q1 : 0 < q <= 1).
  { assert (0 < a ^ 2 * MM s a) by (apply Rmult_lt_0_compat; [apply pow_lt; auto|lra]). split; nra. }
  assert (Qc : - (100 * d) <= q0 s - q <= 100 * d) by (unfold d in *; nra).
  (* ln *)
  assert (Ld : - (50 * d) <= ln (W0 s) - ln (WW s a) <= 50 * d).
  { assert (LN : forall u v, 14 / 100 <= u -> 14 / 100 <= v -> ln u - ln v <= (u - v) / v).
    { intros u v Hu Hv. assert (ln u = ln v + ln (u / v)) by (rewrite <- ln_mult; [f_equal; field; lra|lra|apply Rmult_lt_0_compat; [lra|apply Rinv_0_lt_compat; lra]]).
      assert (ln (u / v) <= u / v - 1).
      { assert (P : 0 < u / v) by (apply Rmult_lt_0_compat; [lra|apply Rinv_0_lt_compat; lra]).
        destruct (Req_dec (u / v) 1) as [->|N]; [rewrite ln_1; lra|].
        assert (N2 : ln (u / v) <> 0) by (intros Z; apply N; rewrite <- (exp_ln (u / v)) by auto; rewrite Z; apply exp_0).
        pose proof (exp_ineq1 (ln (u / v)) N2) as EI. rewrite exp_ln in EI by auto. lra. }
      replace ((u - v) / v) with (u / v - 1) by (field; lra). lra. }
    pose proof (LN (W0 s) (WW s a) ltac:(lra) ltac:(lra)) as L1. pose proof (LN (WW s a) (W0 s) ltac:(lra) ltac:(lra)) as L2.
    assert (D1 : (W0 s - WW s a) / WW s a <= 50 * d).
    { apply (Rmult_le_reg_r (WW s a)); [lra|]. unfold Rdiv. rewrite Rmult_assoc, Rinv_l by lra. unfold d in *. lra. }
    assert (D2 : (WW s a - W0 s) / W0 s <= 50 * d).
    { apply (Rmult_le_reg_r (W0 s)); [lra|]. unfold Rdiv. rewrite Rmult_assoc, Rinv_l by lra. unfold d in *. lra. }
    lra. }
  set (c := 3 / 100 / bottom). assert (C : 629 / 100000 <= c <= 63 / 10000) by (unfold c; rewrite B; lra).
  assert (TF : exists th, - (30 * d) <= th <= 30 * d /\ TT - f x = q0 s * (1 - c) + th).
  { exists ((a - a0 s) + 1 / 2 * (ln (W0 s) - ln (WW s a))). split; [lra|].
    unfold TT. rewrite T0_form, log_noise_form by auto. fold a. fold c. lra. }
  destruct TF as [th [Hth TF]].
  assert (SX : slope x = q / x) by (apply (Rmult_eq_reg_l x); [|lra]; rewrite slope_bound by auto; fold a; fold q; field; lra).
  rewrite SX, TF. split; [|unfold d in *; nra].
  replace (x - (q0 s * (1 - c) + th) / (q / x)) with (x * (((q - q0 s) + q0 s * c - th) / q)) by (field; lra).
  set (v := ((q - q0 s) + q0 s * c - th) / q).
  assert (V : v * q = (q - q0 s) + q0 s * c - th) by (unfold v; field; lra).
  assert (QB : 79 / 100 <= q <= 99 / 100) by (unfold d in *; lra).
  assert (VL : 48 / 10000 <= v). { apply (Rmult_le_reg_r q); [lra|]. rewrite V. unfold d in *. nra. }
  assert (VU : v <= 8 / 1000). { apply (Rmult_le_reg_r q); [lra|]. rewrite V. unfold d in *. nra. }
  unfold d in *. nra.
Qed.

Definition request : R := prior * exp (T0 s).
Lemma request_log : ln request = TT.
Proof. unfold request, TT. rewrite ln_mult, ln_exp; auto. apply exp_pos. Qed.
Lemma request_bounds : prior / 2 < request < prior.
Proof.
  destruct (numbers s Hs) as (_ & _ & _ & NT). unfold request. pose proof (exp_pos (T0 s)).
  assert (exp (T0 s) < 1) by (rewrite <- exp_0; apply exp_increasing; lra).
  assert (51 / 100 < exp (T0 s)).
  { pose proof (exp_mono (- (49 / 100)) (T0 s) ltac:(lra)). pose proof (exp_ineq1 (- (49 / 100)) ltac:(lra)). lra. }
  nra.
Qed.
Lemma nine : log_noise s prior 9 <= ln prior - 155 / 100.
Proof. rewrite log_noise_form by (auto; lra). pose proof (numbers9 s Hs). lra. Qed.
Lemma flat_hyp x : / 10 ^ 7 <= x <= 6 / 100 -> 0 < slope x /\ 10 ^ 7 * slope x <= f x - TT /\ 1 / 10 <= f x - TT.
Proof.
  intros H. pose proof min_pos. destruct (numbers s Hs) as (_ & _ & _ & NT).
  destruct (flat_part s prior Hs Hprior x ltac:(lra)) as [A B].
  split; [apply slope_pos; lra|]. unfold TT. lra.
Qed.
Lemma steep_hyp x : 9 <= x <= 10 ^ 7 -> 0 < slope x /\ x * slope x <= TT - f x /\ 1 / 10 <= TT - f x.
Proof.
  intros H. destruct (numbers s Hs) as (_ & _ & _ & NT). pose proof nine as N.
  pose proof (log_noise_decreasing s prior Hprior 9 x ltac:(lra) ltac:(lra)).
  pose proof (slope_le s Hs x ltac:(lra)). split; [apply slope_pos; lra|]. unfold TT. lra.
Qed.
Lemma upper_end : log_noise s prior (10 ^ 7) <= ln prior - 9.
Proof.
  rewrite (log_noise_formula s prior (prior / 2)) by (auto; try apply pow_lt; lra).
  assert (P : 0 < 10 ^ 7) by (apply pow_lt; lra). assert (P1 : 1 <= 10 ^ 7) by (simpl; lra).
  pose proof (small_noise s Hs (10 ^ 7) P1) as S.
  pose proof (denom_pos s (10 ^ 7) P) as D. set (u := 1 - rho s (1 / 10 ^ 7) * rho s (1 / 10 ^ 7)) in *.
  pose proof (kk_bounds s) as K.
  assert (U : u <= exp (Ropp 18)).
  { apply Rle_trans with (/ 3 ^ 18).
    - eapply Rle_trans; [exact S|]. replace (kk s / 10 ^ 7) with (kk s * / 10 ^ 7) by auto. rewrite Rpow_mult_distr.
      assert (kk s ^ 2 <= 6) by (simpl; nra). assert (0 <= kk s ^ 2) by (simpl; nra). simpl in *. nra.
    - rewrite exp_Ropp. apply Rinv_le_contravar; [apply exp_pos|]. replace 18 with (INR 18) by (simpl; ring).
      rewrite <- exp1_pow. apply pow_incr. split; [apply Rlt_le, exp_pos|apply exp_le_3]. }
  assert (ln u <= Ropp 18) by (rewrite <- (ln_exp (Ropp 18)); apply ln_le_iff; auto; apply exp_pos). lra.
Qed.
Lemma lower_end : ln prior - 1 / 50 <= log_noise s prior (/ 10 ^ 7).
Proof. apply flat_part; auto. split; [apply min_pos|simpl; lra]. Qed.
Lemma start_bounds : / 10 ^ 7 <= guess0 s prior request <= 6 / 100.
Proof.
  destruct (numbers s Hs) as (_ & _ & _ & NT). pose proof upper_end as UE. pose proof lower_end as LE.
  assert (TTv : TT = ln prior + T0 s) by auto. pose proof request_log as RL.
  split; [apply guess0_bounds; rewrite RL; lra|].
  assert (LP : log_noise s prior (/ 10 ^ 7) <= ln prior).
  { pose proof min_pos as P. rewrite (log_noise_formula s prior (prior / 2)) by (auto; lra). pose proof (denom_pos s (/ 10 ^ 7) P) as D.
    pose proof (rho_in s (/ 10 ^ 7) P) as Rr. set (u := 1 - _) in *. assert (u <= 1) by (unfold u; nra).
    assert (ln u <= ln 1) by (apply ln_le_iff; lra). rewrite ln_1 in *. lra. }
  unfold guess0. rewrite RL. set (al := _ / _).
  assert (AL : al <= 6 / 100).
  { unfold al. apply (Rmult_le_reg_r (log_noise s prior (/ 10 ^ 7) - log_noise s prior (10 ^ 7))); [lra|].
    unfold Rdiv at 1. rewrite Rmult_assoc, Rinv_l by lra. lra. }
  assert (L10 : ln (10 ^ 7) <= 7 * (5 / 2)).
  { rewrite <- (ln_exp (7 * (5 / 2))). apply ln_le_iff; [apply pow_lt; lra|apply exp_pos|].
    pose proof (exp_lower6 (5 / 2) ltac:(lra)) as E. replace (7 * (5 / 2)) with (5/2 + (5/2 + (5/2 + (5/2 + (5/2 + (5/2 + 5/2)))))) by lra.
    rewrite !exp_plus. replace (exp (5 / 2) * (exp (5 / 2) * (exp (5 / 2) * (exp (5 / 2) * (exp (5 / 2) * (exp (5 / 2) * exp (5 / 2)))))))
      with (exp (5 / 2) ^ 7) by ring. apply pow_incr. simpl in E. lra. }
  assert (LI : ln (/ 10 ^ 7) = - ln (10 ^ 7)) by (apply ln_Rinv, pow_lt; lra).
  assert (L0 : 0 <= ln (10 ^ 7)) by (rewrite <- ln_1; apply ln_le_iff; [lra|apply pow_lt; lra|simpl; lra]).
  apply Rle_trans with (exp (ln (/ 10 ^ 7) + 3)).
  - apply exp_mono. rewrite LI. nra.
  - rewrite exp_plus, exp_ln by apply min_pos. replace 3 with (1 + (1 + 1)) by ring. rewrite !exp_plus.
    pose proof exp_le_3. pose proof (exp_pos 1). assert (exp 1 * exp 1 <= 9) by nra.
    assert (exp 1 * (exp 1 * exp 1) <= 27) by nra. simpl. lra.
Qed.

Lemma right_scale : exists x, 6 / 100 <= x <= 9 /\ log_noise s prior x = TT.
Proof.
  destruct (flat_hyp (6 / 100) ltac:(simpl; lra)) as (_ & _ & A). destruct (steep_hyp 9 ltac:(simpl; lra)) as (_ & _ & B).
  destruct (f_interv_is_interv (fun x => - log_noise s prior x) (6 / 100) 9 (- TT)) as [x [H1 H2]]; [lra|lra| |exists x; split; [auto|lra]].
  intros x Hx. apply continuity_pt_opp. apply derivable_continuous_pt. exists (- log_slope s x).
  apply (log_noise_deriv s prior (prior / 2)); auto; lra.
Qed.

Theorem cycle (ref : R) : 0 < ref -> exists inc ell right, prior / 2 < inc < prior /\
  0 < right < 10 * ref /\ noise_after s ref right prior = inc /\
  derive_of s (XFin ref) (XFin prior) (XFin inc) = Ok (XFin ell) /\
  10 ^ 5 * ref < ell /\ noise_after s ref ell prior < inc / 1000.
Proof.
  intros Hr. pose proof request_bounds as RB. assert (R0 : 0 < request) by lra. assert (R1 : request < prior) by lra.
  destruct (derive_matern s ref prior request Hs Hr R0 R1) as [ell (E & _ & _ & _ & O)].
  pose proof request_log as RL. pose proof min_pos as P. assert (P2 : 0 < 10 ^ 7) by (apply pow_lt; lra).
  assert (TTv : TT = ln prior + T0 s) by auto. destruct (numbers s Hs) as (_ & _ & _ & NT).
  assert (NE : forall x, 0 < x -> noise_after s ref (x * ref) prior = exp (log_noise s prior x)).
  { intros x Hx. rewrite (scaled_noise s ref prior Hr x Hx). unfold log_noise. rewrite exp_ln; auto. apply (noise_pos s prior request); auto. }
  assert (RE : request = exp TT) by (rewrite <- RL, exp_ln; auto).
  destruct O as [r [-> N]].
  { rewrite NE, RE by auto. apply exp_increasing. pose proof lower_end. lra. }
  { rewrite NE, RE by auto. apply exp_increasing. pose proof upper_end. lra. }
  rewrite RL in N.
  pose proof (cycle_result TT (log_noise s prior) (log_slope s) (/ 10 ^ 7) (10 ^ 7) (guess0 s prior request) bottom eq_refl eq_refl eq_refl
    flat_hyp steep_hyp hit_part start_bounds r N) as RR.
  destruct right_scale as [x [X1 X2]].
  exists request, (r * ref), (x * ref). split; [auto|]. split; [nra|]. split; [rewrite NE, X2 by lra; auto|].
  split; [auto|]. split; [simpl; nra|].
  rewrite (scaled_noise s ref prior Hr r) by lra. rewrite (noise_formula s prior request) by (auto; lra).
  pose proof (small_noise s Hs r ltac:(lra)) as SN.
  assert (SQ : sqrt (1 - rho s (1 / r) * rho s (1 / r)) <= 1 / 10000).
  { rewrite <- (sqrt_pow2 (1 / 10000)) by lra. apply sqrt_le_1_alt. eapply Rle_trans; [exact SN|].
    pose proof (kk_bounds s) as K. assert (I : / r <= / 156250) by (apply Rinv_le_contravar; lra).
    assert (I0 : 0 < / r) by (apply Rinv_0_lt_compat; lra).
    assert (kk s / r <= 2 / 100000) by (unfold Rdiv at 1; nra). assert (0 <= kk s / r) by (unfold Rdiv; nra). simpl; nra. }
  nra.
Qed.
End Refute.

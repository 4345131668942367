(* The derivation of Matern length scales does not converge for some requests (C67). *)
From Coq Require Import Reals Lra Psatz Lia.
From Verif Require Import Base BaseProofs ExtRealModel RadialModel RadialSpec RadialProofs NewtonProofs MaternProofs
  ExpBounds NewtonCycle.
Local Open Scope R_scope.

Definition kk (s : shape) : R := match s with Matern32 => sqrt 3 | _ => sqrt 5 end.
Definition PP (s : shape) (a : R) : R := match s with Matern32 => 1 + a | _ => 1 + a + a ^ 2 / 3 end.
Definition MM (s : shape) (a : R) : R := match s with Matern32 => 1 + a | _ => (1 + a) / 3 * (1 + a + a ^ 2 / 3) end.
Definition WW (s : shape) (a : R) : R := exp (2 * a) - PP s a ^ 2.

Lemma sqrt3_bounds : 1732 / 1000 <= sqrt 3 <= 17321 / 10000.
Proof.
  split.
  - rewrite <- (sqrt_pow2 (1732 / 1000)) by lra. apply sqrt_le_1_alt. lra.
  - rewrite <- (sqrt_pow2 (17321 / 10000)) by lra. apply sqrt_le_1_alt. lra.
Qed.
Lemma sqrt5_bounds : 2236 / 1000 <= sqrt 5 <= 22361 / 10000.
Proof.
  split.
  - rewrite <- (sqrt_pow2 (2236 / 1000)) by lra. apply sqrt_le_1_alt. lra.
  - rewrite <- (sqrt_pow2 (22361 / 10000)) by lra. apply sqrt_le_1_alt. lra.
Qed.
Lemma kk_bounds s : 1732 / 1000 <= kk s <= 22361 / 10000.
Proof. pose proof sqrt3_bounds. pose proof sqrt5_bounds. destruct s; simpl; lra. Qed.

Lemma PP_pos s a : 0 <= a -> 1 <= PP s a.
Proof. intros H. pose proof (pow2_ge_0 a). destruct s; simpl PP; lra. Qed.
Lemma PP_lt s a : 0 < a -> PP s a < exp a.
Proof.
  intros H. pose proof (exp_lower6 a ltac:(lra)) as E.
  assert (0 < a ^ 2) by (apply pow_lt; auto). assert (0 < a ^ 3) by (apply pow_lt; auto). assert (0 < a ^ 4) by (apply pow_lt; auto).
  assert (0 < a ^ 5) by (apply pow_lt; auto). assert (0 < a ^ 6) by (apply pow_lt; auto).
  destruct s; simpl PP; lra.
Qed.
Lemma exp_double a : exp (2 * a) = exp a ^ 2.
Proof. replace (2 * a) with (a + a) by ring. rewrite exp_plus. ring. Qed.
Lemma WW_pos s a : 0 < a -> 0 < WW s a.
Proof.
  intros H. unfold WW. rewrite exp_double. pose proof (PP_lt s a H). pose proof (PP_pos s a ltac:(lra)). nra.
Qed.
Lemma MM_pos s a : 0 <= a -> 1 / 3 <= MM s a.
Proof.
  intros H. pose proof (PP_pos Matern52 a H) as P. simpl PP in P. destruct s; simpl MM; try lra; nra.
Qed.
Lemma MM_W s a : 0 < a -> a ^ 2 * MM s a <= WW s a.
Proof.
  intros H. pose proof (exp_lower6 (2 * a) ltac:(lra)) as E. unfold WW.
  assert (0 < a ^ 2) by (apply pow_lt; auto). assert (0 < a ^ 3) by (apply pow_lt; auto). assert (0 < a ^ 4) by (apply pow_lt; auto).
  assert (0 < a ^ 5) by (apply pow_lt; auto). assert (0 < a ^ 6) by (apply pow_lt; auto).
  rewrite !Rpow_mult_distr in E. simpl (2 ^ _) in E. rewrite !Rmult_1_r in E.
  destruct s; simpl PP; simpl MM; nra.
Qed.

Section Shape.
Variables (s : shape) (prior : R).
Hypothesis Hs : is_matern s.
Hypothesis Hprior : 0 < prior.

Lemma rho_form r : 0 < r -> rho s (1 / r) = PP s (kk s / r) * exp (- (kk s / r)).
Proof.
  intros H. destruct Hs as [-> | ->]; simpl.
  - replace (sqrt 3 * (1 / r)) with (sqrt 3 / r) by (field; lra). auto.
  - replace (sqrt 5 * (1 / r)) with (sqrt 5 / r) by (field; lra). f_equal. f_equal.
    replace (sqrt 5 / r * (sqrt 5 / r * 1)) with (sqrt 5 * sqrt 5 * (1 / r * (1 / r * 1))) by (field; lra).
    rewrite sqrt_sqrt by lra. field; lra.
Qed.
Lemma denom_form r : 0 < r -> 1 - rho s (1 / r) * rho s (1 / r) = exp (- (2 * (kk s / r))) * WW s (kk s / r).
Proof.
  intros H. rewrite rho_form by auto. unfold WW. set (a := kk s / r). rewrite Rmult_minus_distr_l, <- exp_plus.
  replace (- (2 * a) + 2 * a) with 0 by ring. rewrite exp_0. replace (- (2 * a)) with (- a + - a) by ring. rewrite exp_plus. ring.
Qed.
Lemma arg_pos r : 0 < r -> 0 < kk s / r.
Proof. intros H. pose proof (kk_bounds s). apply Rmult_lt_0_compat; [lra|apply Rinv_0_lt_compat; auto]. Qed.
Lemma log_noise_form r : 0 < r -> log_noise s prior r = ln prior + (- (kk s / r) + 1 / 2 * ln (WW s (kk s / r))).
Proof.
  intros H. rewrite (log_noise_formula s prior (prior / 2)) by (auto; lra). rewrite denom_form by auto.
  rewrite ln_mult, ln_exp; [lra|apply exp_pos|apply WW_pos, arg_pos; auto].
Qed.
Lemma log_slope_form r : 0 < r ->
  log_slope s r = (kk s / r) ^ 3 * MM s (kk s / r) / (kk s * WW s (kk s / r)).
Proof.
  intros H. unfold log_slope. rewrite denom_form by auto. rewrite rho_form by auto.
  pose proof (WW_pos s _ (arg_pos r H)) as W. pose proof (kk_bounds s) as K. set (w := WW s (kk s / r)) in *.
  replace (- (2 * (kk s / r))) with (- (kk s / r) + - (kk s / r)) by ring. rewrite exp_plus.
  pose proof (exp_pos (- (kk s / r))) as E.
  replace (matern_slope s r) with ((kk s / r) ^ 3 * MM s (kk s / r) / PP s (kk s / r) / kk s * exp (- (kk s / r))).
  - pose proof (PP_pos s (kk s / r) ltac:(pose proof (arg_pos r H); lra)). field. repeat split; lra.
  - pose proof (PP_pos s (kk s / r) ltac:(pose proof (arg_pos r H); lra)) as Q.
    destruct Hs as [-> | ->]; simpl matern_slope; unfold m32_slope, m52_slope; simpl kk in *; simpl PP in *; simpl MM.
    + replace (sqrt 3 * (1 / r)) with (sqrt 3 / r) by (field; lra).
      set (e := exp (- (sqrt 3 / r))). replace (3 * e / (r * r * r)) with (sqrt 3 * sqrt 3 * e / (r * r * r)) by (rewrite sqrt_sqrt by lra; auto).
      field. repeat split; try lra.
    + replace (sqrt 5 * (1 / r)) with (sqrt 5 / r) by (field; lra).
      set (e := exp (- (sqrt 5 / r))).
      set (p := 1 + sqrt 5 / r + (sqrt 5 / r) * ((sqrt 5 / r) * 1) / 3) in *.
      replace (5 / 3 * (1 + sqrt 5 / r) * e / (r * r * r)) with (sqrt 5 * sqrt 5 / 3 * (1 + sqrt 5 / r) * e / (r * r * r)) by (rewrite sqrt_sqrt by lra; auto).
      replace (1 + sqrt 5 / r + (sqrt 5 / r) ^ 2 / 3) with p by (unfold p; simpl; ring).
      field. repeat split; try lra.
Qed.
Lemma slope_pos r : 0 < r -> 0 < log_slope s r.
Proof. intros H. apply (log_slope_pos s); auto. Qed.
Lemma log_noise_decreasing a b : 0 < a -> a <= b -> log_noise s prior b <= log_noise s prior a.
Proof.
  intros A [B|<-]; [|lra]. assert (Hi : 0 < prior / 2) by lra. assert (Hp : prior / 2 < prior) by lra.
  rewrite !(log_noise_formula s prior (prior / 2)) by (auto; lra).
  pose proof (denom_pos s a A) as D1. pose proof (denom_pos s b ltac:(lra)) as D2.
  pose proof (rho_in s a A) as R1. pose proof (rho_in s b ltac:(lra)) as R2.
  assert (rho s (1 / a) < rho s (1 / b)).
  { apply rho_decreasing; unfold Rdiv; rewrite !Rmult_1_l; [apply Rlt_le, Rinv_0_lt_compat; lra|].
    apply Rinv_lt_contravar; [apply Rmult_lt_0_compat; lra|auto]. }
  assert (ln (1 - rho s (1 / b) * rho s (1 / b)) <= ln (1 - rho s (1 / a) * rho s (1 / a))); [|lra].
  apply ln_le_iff; auto. nra.
Qed.

Lemma exp1_pow n : exp 1 ^ n = exp (INR n).
Proof.
  induction n as [|n IH]; [simpl; rewrite exp_0; auto|]. rewrite S_INR, exp_plus, <- IH. simpl. ring.
Qed.
Lemma exp28 : 10 ^ 12 <= exp 28.
Proof.
  pose proof (exp_lower6 1 ltac:(lra)) as E. assert (27 / 10 <= exp 1) by (simpl in E; lra).
  replace 28 with (INR 28) by (simpl; ring). rewrite <- exp1_pow.
  apply Rle_trans with ((27 / 10) ^ 28); [lra|]. apply pow_incr. lra.
Qed.

(* where the length scale is much shorter than the distance the noise is flat *)
Lemma flat_part x : 0 < x <= 6 / 100 ->
  10 ^ 7 * log_slope s x <= 1 / 10 /\ ln prior - 1 / 50 <= log_noise s prior x.
Proof.
  intros H. rewrite log_slope_form, log_noise_form by lra. pose proof (kk_bounds s) as K.
  set (a := kk s / x).
  assert (A : 28 <= a).
  { unfold a. apply (Rmult_le_reg_r x); [lra|]. unfold Rdiv. rewrite Rmult_assoc, Rinv_l by lra. lra. }
  assert (E28 : 10 ^ 12 <= exp a).
  { apply Rle_trans with (exp 28); [apply exp28|]. destruct A as [A|<-]; [apply Rlt_le, exp_increasing; auto|lra]. }
  pose proof (exp_lower6 a ltac:(lra)) as E.
  assert (a2 : 784 <= a ^ 2) by nra. assert (a3 : a ^ 3 = a * a ^ 2) by ring. assert (a4 : a ^ 4 = a ^ 2 * a ^ 2) by ring.
  assert (0 < a ^ 3) by (apply pow_lt; lra). assert (0 < a ^ 4) by (apply pow_lt; lra). assert (0 < a ^ 5) by (apply pow_lt; lra).
  assert (a6 : a ^ 6 = a ^ 3 * a ^ 3) by ring. assert (0 < a ^ 6) by (apply pow_lt; lra).
  assert (P10 : 10 * PP s a <= exp a) by (destruct s; simpl PP; nra).
  pose proof (PP_pos s a ltac:(lra)) as P1.
  assert (W : 99 / 100 * exp a ^ 2 <= WW s a) by (unfold WW; rewrite exp_double; nra).
  assert (M : MM s a <= a ^ 3) by (pose proof (MM_pos s a ltac:(lra)); destruct s; simpl MM; nra).
  pose proof (MM_pos s a ltac:(lra)) as M0. pose proof (exp_pos a) as Ep.
  assert (W0 : 0 < WW s a) by nra.
  split.
  - assert (B : a ^ 3 * MM s a <= 720 * exp a).
    { apply Rle_trans with (a ^ 3 * a ^ 3); [apply Rmult_le_compat_l; lra|]. rewrite <- a6. lra. }
    assert (C : a ^ 3 * MM s a / (kk s * WW s a) <= 720 * exp a / (99 / 100 * exp a ^ 2)).
    { apply Rmult_le_compat; [nra|apply Rlt_le, Rinv_0_lt_compat; nra|auto|].
      apply Rinv_le_contravar; nra. }
    replace (720 * exp a / (99 / 100 * exp a ^ 2)) with (72000 / 99 / exp a) in C by (field; lra).
    assert (/ exp a <= / 10 ^ 12) by (apply Rinv_le_contravar; [simpl; lra|auto]).
    unfold Rdiv in C at 3. simpl in *. lra.
  - assert (L : ln (99 / 100 * exp a ^ 2) <= ln (WW s a)) by (apply ln_le_iff; nra).
    rewrite ln_mult in L by nra. replace (exp a ^ 2) with (exp (2 * a)) in L by apply exp_double. rewrite ln_exp in L.
    assert (- (2 / 100) <= ln (99 / 100)).
    { rewrite <- (ln_exp (- (2 / 100))). apply ln_le_iff; [apply exp_pos|lra|].
      pose proof (exp_ineq1 (2 / 100) ltac:(lra)). pose proof (exp_pos (- (2 / 100))).
      assert (exp (2 / 100) * exp (- (2 / 100)) = 1) by (rewrite <- exp_plus, Rplus_opp_r, exp_0; auto). nra. }
    lra.
Qed.
(* beyond it a step is longer than x / (x slope) >= x *)
Lemma slope_bound x : 0 < x -> x * log_slope s x = (kk s / x) ^ 2 * MM s (kk s / x) / WW s (kk s / x).
Proof.
  intros H. rewrite log_slope_form by auto. pose proof (kk_bounds s). pose proof (WW_pos s _ (arg_pos x H)). field_simplify_eq.
  - ring.
  - repeat split; lra.
Qed.
Lemma slope_le x : 0 < x -> x * log_slope s x <= 1.
Proof.
  intros H. rewrite slope_bound by auto. pose proof (WW_pos s _ (arg_pos x H)) as W. pose proof (MM_W s _ (arg_pos x H)).
  apply (Rmult_le_reg_r (WW s (kk s / x))); auto. unfold Rdiv at 1. rewrite Rmult_assoc, Rinv_l; lra.
Qed.
(* upper end: the noise is tiny *)
Lemma small_noise x : 1 <= x -> 1 - rho s (1 / x) * rho s (1 / x) <= 2 * (kk s / x) ^ 2.
Proof.
  intros H. rewrite rho_form by lra. set (a := kk s / x). assert (A : 0 < a) by (apply arg_pos; lra).
  pose proof (PP_lt s a A) as L. pose proof (exp_ineq1 (- a) ltac:(lra)) as E.
  assert (Q : 1 + a <= PP s a) by (pose proof (pow2_ge_0 a); destruct s; simpl PP; lra).
  pose proof (exp_pos (- a)) as Ep.
  assert (B : 1 - a ^ 2 <= PP s a * exp (- a)).
  { destruct (Rle_lt_dec 1 a) as [G|G]; [assert (0 <= PP s a * exp (- a)) by (apply Rmult_le_pos; lra); nra|].
    apply Rle_trans with ((1 + a) * (1 - a)); [nra|]. apply Rmult_le_compat; lra. }
  set (c := PP s a * exp (- a)) in *. assert (0 <= c) by (apply Rmult_le_pos; lra). nra.
Qed.
End Shape.

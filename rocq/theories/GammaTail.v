(* The complementary incomplete gamma function, from above. *)
From Coq Require Import Reals ZArith List Bool Lra Lia.
From Coquelicot Require Import Coquelicot.
From Verif Require Import Base ExtRealModel ExtRealProofs DistanceModel DistanceProofs RadialModel ChiSquaredModel ChiSquaredSpec
  IncompleteGammaProofs QuadratureProofs GammaExample FractionBound.
Import ListNotations.
Local Open Scope R_scope.

Lemma decreasing f f' x y : x <= y -> (forall t, x <= t <= y -> is_derive f t (f' t)) -> (forall t, x <= t <= y -> f' t <= 0) -> f y <= f x.
Proof.
  intros L D N. destruct (Req_dec x y) as [->|E]; [lra|]. destruct (MVT_cor2 f f' x y ltac:(lra)) as [t [E' T]].
  - intros t T. apply is_derive_Reals. auto.
  - specialize (N t ltac:(lra)). nra.
Qed.
(* a function that falls at least as fast as the mass grows bounds the remaining mass *)
Lemma tail_by a g f f' z : 0 < a -> 0 < z -> is_gamma a g -> (forall t, z <= t -> 0 <= f t) -> (forall t, z <= t -> is_derive f t (f' t)) ->
  (forall t, z <= t -> exp ((a - 1) * ln t - t) + f' t <= 0) -> g - lower_gamma a z <= f z.
Proof.
  intros a0 z0 [_ G] P D N. assert (U : g <= lower_gamma a z + f z); [|lra]. apply G. intros y [t [t0 ->]].
  destruct (Rle_dec t z) as [L|L]; [pose proof (mass_increasing a t z a0 t0 L); specialize (P z ltac:(lra)); lra|]. apply Rnot_le_lt in L.
  pose proof (decreasing (fun t => lower_gamma a t + f t) (fun t => exp ((a - 1) * ln t - t) + f' t) z t ltac:(lra)) as Q.
  specialize (P t ltac:(lra)). apply Rle_trans with (lower_gamma a t + f t); [lra|]. apply Q.
  - intros x X. apply (is_derive_plus (V := R_NormedModule)); [apply lower_gamma_derive; lra | apply D; lra].
  - intros x X. apply N. lra.
Qed.
Lemma density_shift a t : 0 < t -> exp ((a - 1) * ln t - t) = exp (a * ln t - t) / t.
Proof. intros t0. replace ((a - 1) * ln t - t) with (a * ln t - t + - ln t) by ring. rewrite exp_plus, exp_Ropp, exp_ln by auto. reflexivity. Qed.
Lemma tail_one a g z : 1 <= a -> a - 1 < z -> 0 < z -> is_gamma a g -> g - lower_gamma a z <= exp (a * ln z - z) / (z - a + 1).
Proof.
  intros a1 az z0 G.
  apply (tail_by a g (fun t => exp (a * ln t - t) / (t - a + 1))
    (fun t => exp (a * ln t - t) * ((a / t - 1) / (t - a + 1) - 1 / (t - a + 1) ^ 2))); auto; try lra.
  - intros t T. apply Rle_mult_inv_pos; [left; apply exp_pos | lra].
  - intros t T. auto_derive; [repeat split; lra|]. unfold Rminus. field. lra.
  - intros t T. rewrite density_shift by lra. pose proof (exp_pos (a * ln t - t)) as E. set (x := exp _) in *. clearbody x.
    replace (x / t + x * ((a / t - 1) / (t - a + 1) - 1 / (t - a + 1) ^ 2)) with (- (x * (a - 1) / (t * (t - a + 1) ^ 2))) by (field; lra).
    assert (0 <= x * (a - 1) / (t * (t - a + 1) ^ 2)); [|lra]. apply Rle_mult_inv_pos; [apply Rmult_le_pos; lra|].
    apply Rmult_lt_0_compat; [lra | apply pow_lt; lra].
Qed.
Lemma tail_two a g z : 0 < a <= 1 -> 0 < z -> is_gamma a g -> g - lower_gamma a z <= exp (a * ln z - z) / z.
Proof.
  intros a1 z0 G.
  apply (tail_by a g (fun t => exp (a * ln t - t) / t) (fun t => exp (a * ln t - t) * ((a / t - 1) / t - 1 / t ^ 2))); auto; try lra.
  - intros t T. apply Rle_mult_inv_pos; [left; apply exp_pos | lra].
  - intros t T. auto_derive; [repeat split; lra|]. unfold Rminus. field. lra.
  - intros t T. rewrite density_shift by lra. pose proof (exp_pos (a * ln t - t)) as E. set (x := exp _) in *. clearbody x.
    replace (x / t + x * ((a / t - 1) / t - 1 / t ^ 2)) with (- (x * (1 - a) / t ^ 2)) by (field; lra).
    assert (0 <= x * (1 - a) / t ^ 2); [|lra]. apply Rle_mult_inv_pos; [apply Rmult_le_pos; lra|]. apply pow_lt; lra.
Qed.
(* the mass between z and 1 *)
Lemma mass_below_one a z : 0 < a <= 1 -> 0 < z <= 1 -> lower_gamma a 1 - lower_gamma a z <= - ln z.
Proof.
  intros a1 z1. pose proof (decreasing (fun t => lower_gamma a t - ln t) (fun t => exp ((a - 1) * ln t - t) - / t) z 1 ltac:(lra)) as Q.
  cbv beta in Q. rewrite ln_1 in Q. assert (lower_gamma a 1 - 0 <= lower_gamma a z - ln z); [|lra]. apply Q.
  - intros t T. apply (is_derive_minus (V := R_NormedModule)); [apply lower_gamma_derive; lra|]. auto_derive; [lra|]. ring.
  - intros t T. rewrite density_shift by lra. assert (L : ln t <= 0) by (rewrite <- ln_1; apply ln_le; lra).
    assert (exp (a * ln t - t) <= 1). { rewrite <- exp_0. assert (a * ln t - t < 0) by nra. left. apply exp_increasing. auto. }
    assert (0 < / t) by (apply Rinv_0_lt_compat; lra). unfold Rdiv. nra.
Qed.

(* ---- the gamma function from below ---- *)
Lemma gamma_above a g z : is_gamma a g -> 0 < z -> lower_gamma a z <= g.
Proof. intros [U _] z0. apply U. exists z. auto. Qed.
Lemma series_first a z : 0 < a -> 0 < z -> / a <= lower_gamma_series a z.
Proof.
  intros a0 z0. rewrite series_H. unfold H. rewrite Series_incr_1 by (apply ex_H; auto).
  assert (0 <= Series (fun k => hc a 0 1 (S k) * z ^ S k)).
  { replace 0 with (Series (fun k => 0 * 0)) by (rewrite Series_scal_l; ring). apply Series_le.
    - intros k. split; [lra|]. rewrite Rmult_0_l. apply Rmult_le_pos; [left; apply hc_pos; auto | apply pow_le; lra].
    - apply (ex_series_incr_1 (V := R_NormedModule) (fun k => hc a 0 1 k * z ^ k)). apply ex_H; auto. }
  unfold hc in *. simpl in *. unfold Rdiv in *. replace (/ a) with (1 * / (1 * (a + 0)) * 1) by (field; lra). lra.
Qed.
Lemma series_four a z : 0 < a -> 0 < z -> sum_f_R0 (fun k => / rising a (S k) * z ^ k) 3 <= lower_gamma_series a z.
Proof.
  intros a0 z0. assert (X : ex_series (fun k => / rising a (S k) * z ^ k)).
  { pose proof (ex_H a a0 z z0 0 1 ltac:(lia)) as E. eapply ex_series_ext; [|exact E]. intros k. unfold hc. cbn [bn]. rewrite Nat.add_1_r. unfold Rdiv. rewrite Rmult_1_l. reflexivity. }
  unfold lower_gamma_series. rewrite (Series_incr_n _ 4) by (auto; lia). simpl pred.
  assert (0 <= Series (fun k => / rising a (S (4 + k)) * z ^ (4 + k))); [|lra].
  replace 0 with (Series (fun k => 0 * 0)) by (rewrite Series_scal_l; ring). apply Series_le.
  - intros k. split; [lra|]. rewrite Rmult_0_l. apply Rmult_le_pos; [left; apply Rinv_0_lt_compat, ph_pos; auto | apply pow_le; lra].
  - apply (ex_series_incr_n (V := R_NormedModule) (fun k => / rising a (S k) * z ^ k) 4). exact X.
Qed.
Definition sigma (i : R) : R := 1 + i / (i + 1) + i / (i + 1) * (i / (i + 2)) + i / (i + 1) * (i / (i + 2)) * (i / (i + 3)).
Lemma frac_mono i a k : 0 <= i <= a -> 0 < k -> 0 <= i / (i + k) <= a / (a + k).
Proof.
  intros I k0. split; [apply Rle_mult_inv_pos; lra|]. apply (Rmult_le_reg_r ((i + k) * (a + k))); [apply Rmult_lt_0_compat; lra|].
  replace (i / (i + k) * ((i + k) * (a + k))) with (i * (a + k)) by (field; lra). replace (a / (a + k) * ((i + k) * (a + k))) with (a * (i + k)) by (field; lra). nra.
Qed.
Lemma sigma_mono i a : 0 <= i <= a -> 1 <= sigma i <= sigma a.
Proof.
  intros I. pose proof (frac_mono i a 1 I ltac:(lra)) as F1. pose proof (frac_mono i a 2 I ltac:(lra)) as F2. pose proof (frac_mono i a 3 I ltac:(lra)) as F3.
  unfold sigma. assert (G : 0 <= i / (i + 1) * (i / (i + 2)) <= a / (a + 1) * (a / (a + 2))).
  { split; [apply Rmult_le_pos; lra | apply Rmult_le_compat; lra]. }
  assert (0 <= i / (i + 1) * (i / (i + 2)) * (i / (i + 3)) <= a / (a + 1) * (a / (a + 2)) * (a / (a + 3))).
  { split; [apply Rmult_le_pos; lra | apply Rmult_le_compat; lra]. }
  lra.
Qed.
Lemma gamma_lower i a g : 0 <= i <= a -> 0 < a -> is_gamma a g -> exp (a * ln a - a) * (sigma i / a) <= g.
Proof.
  intros I a0 G. apply Rle_trans with (lower_gamma a a); [|apply gamma_above; auto]. unfold lower_gamma.
  apply Rmult_le_compat_l; [left; apply exp_pos|]. eapply Rle_trans; [|apply series_four; auto].
  apply Rle_trans with (sigma a / a); [apply Rmult_le_compat_r; [left; apply Rinv_0_lt_compat; auto | apply sigma_mono; auto]|].
  right. unfold sigma. simpl. field. repeat split; lra.
Qed.
Lemma exponent_mono a b z : 0 < a <= b -> b <= z -> a * (ln z - ln a) + a <= b * (ln z - ln b) + b.
Proof.
  intros A B. pose proof (decreasing (fun t => - (t * (ln z - ln t) + t)) (fun t => - (ln z - ln t)) a b ltac:(lra)) as Q. cbv beta in Q.
  assert (- (b * (ln z - ln b) + b) <= - (a * (ln z - ln a) + a)); [|lra]. apply Q.
  - intros t T. auto_derive; [lra|]. field. lra.
  - intros t T. assert (ln t <= ln z) by (apply ln_le; lra). lra.
Qed.

(* ---- the complement from the cut on ---- *)
Lemma ratio_tail a g z : 0 < a -> is_gamma a g -> 0 < g -> (g - lower_gamma a z) / g = 1 - lower_gamma a z / g.
Proof. intros. field. lra. Qed.
Lemma complement_cut (i z1 m : nat) a g : (1 <= i)%nat -> INR i < a <= INR i + 1 -> (z1 = m + S i)%nat -> is_gamma a g ->
  1 - lower_gamma a (INR z1) / g <= (INR z1 / (INR i + 1)) ^ S i * / (27 / 10) ^ m * ((INR i + 1) / ((INR z1 - INR i) * sigma (INR i))).
Proof.
  intros i1 A Z G. assert (i1' : 1 <= INR i) by (change 1 with (INR 1); apply le_INR; auto). assert (a0 : 0 < a) by lra.
  assert (ZI : INR z1 = INR m + INR i + 1) by (rewrite Z, plus_INR, S_INR; ring). pose proof (pos_INR m) as m0.
  assert (z0 : 0 < INR z1) by lra. pose proof (gamma_pos a g a0 G) as g0.
  pose proof (tail_one a g (INR z1) ltac:(lra) ltac:(lra) z0 G) as T. pose proof (gamma_lower (INR i) a g ltac:(lra) a0 G) as L.
  pose proof (sigma_mono (INR i) a ltac:(lra)) as [S1 _].
  replace (1 - lower_gamma a (INR z1) / g) with ((g - lower_gamma a (INR z1)) / g) by (field; lra).
  pose proof (exponent_mono a (INR i + 1) (INR z1) ltac:(lra) ltac:(lra)) as EM.
  assert (E : exp (a * ln (INR z1) - INR z1) <= (INR z1 / (INR i + 1)) ^ S i * / (27 / 10) ^ m * exp (a * ln a - a)).
  { replace (a * ln (INR z1) - INR z1) with ((a * (ln (INR z1) - ln a) + a - INR z1) + (a * ln a - a)) by ring. rewrite exp_plus.
    apply Rmult_le_compat_r; [left; apply exp_pos|].
    apply Rle_trans with (exp (INR (S i) * (ln (INR z1 / (INR i + 1))) + - INR m)).
    - assert (Q : a * (ln (INR z1) - ln a) + a - INR z1 <= INR (S i) * ln (INR z1 / (INR i + 1)) + - INR m).
      { unfold Rdiv. rewrite ln_mult, ln_Rinv, S_INR by (try apply Rinv_0_lt_compat; lra). lra. }
      destruct Q as [Q|Q]; [left; apply exp_increasing; auto | rewrite Q; lra].
    - rewrite exp_plus, exp_mult_nat, exp_ln by (apply Rdiv_lt_0_compat; lra). apply Rmult_le_compat_l; [apply pow_le; apply Rle_mult_inv_pos; lra|].
      apply exp_neg. lra. }
  set (X := (INR z1 / (INR i + 1)) ^ S i * / (27 / 10) ^ m) in *. assert (X0 : 0 < X).
  { unfold X. apply Rmult_lt_0_compat; [apply pow_lt, Rdiv_lt_0_compat; lra | apply Rinv_0_lt_compat, pow_lt; lra]. }
  pose proof (exp_pos (a * ln a - a)) as e0. set (e := exp (a * ln a - a)) in *. assert (e10 := exp_pos (a * ln (INR z1) - INR z1)). set (e1 := exp (a * ln (INR z1) - INR z1)) in *.
  set (s := sigma (INR i)) in *. clearbody X e e1 s. set (w := INR z1) in *. clearbody w. set (r := INR i) in *. clearbody r.
  set (q := lower_gamma a w) in *. clearbody q.
  apply (Rmult_le_reg_r g); auto. replace ((g - q) / g * g) with (g - q) by (field; lra).
  apply Rle_trans with (e1 / (w - a + 1)); auto. apply Rle_trans with (X * ((r + 1) / ((w - r) * s)) * (e * (s / a))).
  2:{ apply Rmult_le_compat_l; auto. apply Rmult_le_pos; [lra|]. apply Rle_mult_inv_pos; [lra|]. apply Rmult_lt_0_compat; lra. }
  replace (X * ((r + 1) / ((w - r) * s)) * (e * (s / a))) with (X * e * ((r + 1) / (w - r) / a)) by (field; lra).
  unfold Rdiv at 1. apply Rmult_le_compat; auto; [lra | left; apply Rinv_0_lt_compat; lra|].
  replace (/ (w - a + 1)) with (1 / (w - a + 1)) by (unfold Rdiv; ring). apply (Rmult_le_reg_r ((w - a + 1) * (w - r) * a)); [repeat apply Rmult_lt_0_compat; lra|].
    replace (1 / (w - a + 1) * ((w - a + 1) * (w - r) * a)) with ((w - r) * a) by (field; lra).
    replace ((r + 1) / (w - r) / a * ((w - a + 1) * (w - r) * a)) with ((r + 1) * (w - a + 1)) by (field; lra). nra.
Qed.

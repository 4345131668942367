From Coq Require Import Reals Lra Psatz.
From Verif Require Import Base BaseProofs ExtRealModel DistanceModel DistanceProofs RadialModel RadialSpec.
Local Open Scope R_scope.

Ltac rb := repeat match goal with
  | |- context [Rltb ?a ?b] => first
      [ rewrite (proj2 (Rltb_true a b)) by lra | rewrite (proj2 (Rltb_false a b)) by lra ]
  | |- context [Rleb ?a ?b] => first
      [ rewrite (proj2 (Rleb_true a b)) by lra | rewrite (proj2 (Rleb_false a b)) by lra ]
  | |- context [Reqb ?a ?b] => first
      [ rewrite (proj2 (Reqb_true a b)) by lra | rewrite (proj2 (Reqb_false a b)) by lra ]
  end.

Lemma covariance_value s d ell sigma :
  covariance_of s (XFin d) (XFin ell) (XFin sigma) =
  if Rle_dec ell 0 then Ok (XFin 0)
  else if Rlt_dec d 0 then Abort else Ok (XFin (sigma ^ 2 * rho s (d / ell))).
Proof.
  destruct (Rle_dec ell 0) as [L|L].
  { destruct s; simpl; unfold squared_exponential_covariance, exponential_covariance,
      matern_32_covariance, matern_52_covariance; simpl; rb; auto. }
  destruct (Rlt_dec d 0) as [D|D].
  { destruct s; simpl; unfold squared_exponential_covariance, exponential_covariance,
      matern_32_covariance, matern_52_covariance; simpl; rb; auto. }
  assert (Q : 0 <= d / ell) by (apply Rmult_le_pos; [lra|apply Rlt_le, Rinv_0_lt_compat; lra]).
  destruct s; simpl; unfold squared_exponential_covariance, exponential_covariance,
      matern_32_covariance, matern_52_covariance; simpl; rb; simpl; rb; simpl; rb; simpl.
  - do 2 f_equal. f_equal; [ring|]. f_equal. ring.
  - do 2 f_equal. f_equal; [ring|]. rewrite Rabs_right by lra. auto.
  - do 2 f_equal. unfold Rdiv. rewrite (Rmult_assoc (sqrt 3)). ring.
  - do 2 f_equal. assert (S5 : sqrt 5 * sqrt 5 = 5) by (apply sqrt_sqrt; lra).
    unfold Rdiv. rewrite (Rmult_assoc (sqrt 5)). fold (d / ell).
    replace (5 * (d / ell * (d / ell * 1))) with (sqrt 5 * (d / ell) * (sqrt 5 * (d / ell))) by (rewrite <- S5 at 3; ring).
    ring.
Qed.
Lemma covariance_nan s ell sigma : 0 < ell -> covariance_of s XNaN (XFin ell) (XFin sigma) = Abort.
Proof.
  intros L. destruct s; simpl; unfold squared_exponential_covariance, exponential_covariance,
      matern_32_covariance, matern_52_covariance; simpl; rb; auto.
Qed.

(* ---- shapes ---- *)
Lemma rho_0 s : rho s 0 = 1.
Proof. destruct s; simpl; rewrite ?Rmult_0_l, ?Rmult_0_r, ?Ropp_0, exp_0; lra. Qed.
Lemma sqrt3_pos : 0 < sqrt 3. Proof. apply sqrt_lt_R0; lra. Qed.
Lemma sqrt5_pos : 0 < sqrt 5. Proof. apply sqrt_lt_R0; lra. Qed.
Lemma exp_cubic x : 0 < x -> 1 + x + x * x / 3 < exp x.
Proof.
  intros H. pose proof (exp_ineq1 (x / 4) ltac:(lra)) as E.
  replace x with (x / 4 + x / 4 + (x / 4 + x / 4)) at 4 by field. rewrite !exp_plus.
  set (e := exp (x / 4)) in *.
  assert (E2 : (1 + x / 4) * (1 + x / 4) < e * e) by nra.
  assert ((1 + x / 4) * (1 + x / 4) * ((1 + x / 4) * (1 + x / 4)) < e * e * (e * e)) by nra.
  assert (0 <= x * x * x) by (repeat apply Rmult_le_pos; lra).
  assert (0 <= x * x * x * x) by (repeat apply Rmult_le_pos; lra).
  assert ((1 + x / 4) * (1 + x / 4) * ((1 + x / 4) * (1 + x / 4)) =
    1 + x + 3 * (x * x) / 8 + x * x * x / 16 + x * x * x * x / 256) by field. nra.
Qed.
Lemma poly_exp_decreasing (p : R -> R) a b : a < b ->
  p b < p a * exp (b - a) -> p b * exp (- b) < p a * exp (- a).
Proof.
  intros L H. replace (- a) with ((b - a) + - b) by ring. rewrite exp_plus, <- Rmult_assoc.
  apply Rmult_lt_compat_r; auto. apply exp_pos.
Qed.
Lemma m3_decreasing a b : 0 <= a -> a < b -> (1 + b) * exp (- b) < (1 + a) * exp (- a).
Proof.
  intros A L. apply (poly_exp_decreasing (fun x => 1 + x)); auto.
  pose proof (exp_ineq1 (b - a) ltac:(lra)). nra.
Qed.
Lemma m5_decreasing a b : 0 <= a -> a < b ->
  (1 + b + b * b / 3) * exp (- b) < (1 + a + a * a / 3) * exp (- a).
Proof.
  intros A L. apply (poly_exp_decreasing (fun x => 1 + x + x * x / 3)); auto.
  pose proof (exp_cubic (b - a) ltac:(lra)) as E. set (h := b - a) in *.
  assert (Hh : 0 < h) by (unfold h; lra). replace b with (a + h) by (unfold h; ring).
  apply Rle_lt_trans with ((1 + a + a * a / 3) * (1 + h + h * h / 3)); [|nra].
  assert (0 <= a * h) by nra. assert (0 <= a * a * h) by nra. assert (0 <= h * h) by nra.
  assert (0 <= a * (h * h)) by nra. assert (0 <= a * a * (h * h)) by nra. nra.
Qed.
Lemma rho_decreasing s a b : 0 <= a -> a < b -> rho s b < rho s a.
Proof.
  intros A L. pose proof sqrt3_pos. pose proof sqrt5_pos. destruct s; simpl.
  - apply exp_increasing. nra.
  - apply exp_increasing. lra.
  - apply m3_decreasing; [apply Rmult_le_pos; lra|nra].
  - assert (S5 : sqrt 5 * sqrt 5 = 5) by (apply sqrt_sqrt; lra).
    replace (5 * (b * (b * 1)) / 3) with (sqrt 5 * b * (sqrt 5 * b) / 3)
      by (replace (sqrt 5 * b * (sqrt 5 * b)) with (sqrt 5 * sqrt 5 * b * b) by ring; rewrite S5; field).
    replace (5 * (a * (a * 1)) / 3) with (sqrt 5 * a * (sqrt 5 * a) / 3)
      by (replace (sqrt 5 * a * (sqrt 5 * a)) with (sqrt 5 * sqrt 5 * a * a) by ring; rewrite S5; field).
    apply m5_decreasing; [apply Rmult_le_pos; lra|nra].
Qed.
Lemma rho_pos s r : 0 <= r -> 0 < rho s r.
Proof.
  intros H. pose proof sqrt3_pos. pose proof sqrt5_pos. destruct s; simpl; try apply exp_pos;
    apply Rmult_lt_0_compat; auto using exp_pos.
  - nra.
  - assert (0 <= sqrt 5 * r) by nra. assert (0 <= r * (r * 1)) by nra. lra.
Qed.
Lemma rho_le1 s r : 0 <= r -> rho s r <= 1.
Proof.
  intros [H|<-]; [|rewrite rho_0; lra]. pose proof (rho_decreasing s 0 r (Rle_refl 0) H). rewrite rho_0 in H0. lra.
Qed.
Lemma rho_lt1 s r : 0 < r -> rho s r < 1.
Proof. intros H. rewrite <- (rho_0 s). apply rho_decreasing; lra. Qed.

(* ---- process noise ---- *)
Lemma pne_value (func : xr -> outcome xr) d k0 kd : func (lit 0) = Ok (XFin k0) -> func (XFin d) = Ok (XFin kd) ->
  0 < k0 -> kd * kd <= k0 * k0 ->
  process_noise_equivalent func (XFin d) = Ok (XFin (conditional_std k0 kd)).
Proof.
  intros E1 E2 H K. unfold process_noise_equivalent. rewrite E1. simpl. rewrite E2. simpl. rb. simpl.
  assert (kd * kd / k0 <= k0).
  { apply (Rmult_le_reg_r k0); auto. unfold Rdiv. rewrite Rmult_assoc, Rinv_l by lra. nra. }
  rewrite (proj2 (Rltb_false _ _)) by lra. auto.
Qed.
Lemma noise_sq s d ell sigma : 0 <= d -> 0 < ell -> 0 < sigma ->
  noise_after s d ell sigma = sigma * sqrt (1 - rho s (d / ell) ^ 2).
Proof.
  intros D L S. unfold noise_after, conditional_std.
  replace (sigma ^ 2 - sigma ^ 2 * rho s (d / ell) * (sigma ^ 2 * rho s (d / ell)) / sigma ^ 2)
    with (sigma * sigma * (1 - rho s (d / ell) ^ 2)) by (field; lra).
  assert (0 <= d / ell) by (apply Rmult_le_pos; [lra|apply Rlt_le, Rinv_0_lt_compat; lra]).
  pose proof (rho_pos s _ H). pose proof (rho_le1 s _ H).
  rewrite sqrt_mult; [|nra|nra]. rewrite sqrt_square by lra. auto.
Qed.
(* the noise decides the length scale *)
Lemma noise_inj s d a b sigma : 0 < d -> 0 < a -> 0 < b -> 0 < sigma ->
  noise_after s d a sigma = noise_after s d b sigma -> a = b.
Proof.
  intros D A B S E. rewrite !noise_sq in E by lra.
  apply Rmult_eq_reg_l in E; [|lra].
  assert (Qa : 0 < d / a) by (apply Rmult_lt_0_compat; [lra|apply Rinv_0_lt_compat; lra]).
  assert (Qb : 0 < d / b) by (apply Rmult_lt_0_compat; [lra|apply Rinv_0_lt_compat; lra]).
  pose proof (rho_pos s (d / a) ltac:(lra)). pose proof (rho_pos s (d / b) ltac:(lra)).
  pose proof (rho_le1 s (d / a) ltac:(lra)). pose proof (rho_le1 s (d / b) ltac:(lra)).
  apply sqrt_inj in E; [|nra|nra].
  assert (R1 : rho s (d / a) = rho s (d / b)) by nra.
  assert (D1 : d / a = d / b).
  { destruct (Rtotal_order (d / a) (d / b)) as [L|[L|L]]; auto;
      [pose proof (rho_decreasing s _ _ (Rlt_le _ _ Qa) L) | pose proof (rho_decreasing s _ _ (Rlt_le _ _ Qb) L)]; lra. }
  apply (f_equal (fun q => d / q)) in D1.
  replace (d / (d / a)) with a in D1 by (field; lra). replace (d / (d / b)) with b in D1 by (field; lra). auto.
Qed.

Section Derive.
Variables ref prior inc : R.
Hypothesis Href : 0 < ref.

Lemma valid_value : valid_args_for_derive_length_scale (XFin ref) (XFin prior) (XFin inc) =
  Ok (Rltb 0 inc && Rltb 0 prior && Rltb inc prior).
Proof. unfold valid_args_for_derive_length_scale, xgtb, assert_then. simpl. rb. auto. Qed.
Lemma fallback_large : inc <= 0 \/ prior <= 0 ->
  fallback_length_scale_for_invalid_args (XFin ref) (XFin prior) (XFin inc) = Ok (XFin (10 ^ 7 * ref)).
Proof.
  intros H. unfold fallback_length_scale_for_invalid_args. simpl.
  destruct (Rleb inc 0) eqn:E1; auto. apply Rleb_false in E1. rb. auto.
Qed.
Lemma fallback_small : 0 < prior -> prior <= inc ->
  fallback_length_scale_for_invalid_args (XFin ref) (XFin prior) (XFin inc) = Ok (XFin (/ 10 ^ 7 * ref)).
Proof.
  intros P H. unfold fallback_length_scale_for_invalid_args, assert_then, xgtb, xgeb. simpl. rb. simpl.
  assert (1 <= inc / prior).
  { apply (Rmult_le_reg_r prior); auto. unfold Rdiv. rewrite Rmult_assoc, Rinv_l by lra. lra. }
  rb. auto.
Qed.
Lemma derive_large s : inc <= 0 \/ prior <= 0 ->
  derive_of s (XFin ref) (XFin prior) (XFin inc) = Ok (XFin (10 ^ 7 * ref)).
Proof.
  intros H. assert (V : Rltb 0 inc && Rltb 0 prior && Rltb inc prior = false).
  { destruct (Rltb 0 inc) eqn:E1; auto. destruct (Rltb 0 prior) eqn:E2; auto.
    apply Rltb_true in E1, E2. lra. }
  destruct s; simpl; unfold derive_squared_exponential_length_scale, derive_exponential_length_scale,
    derive_matern_32_length_scale, derive_matern_52_length_scale, derive_length_scale;
    rewrite valid_value, V; apply fallback_large; auto.
Qed.
Lemma derive_small s : 0 < prior -> prior <= inc ->
  derive_of s (XFin ref) (XFin prior) (XFin inc) = Ok (XFin (/ 10 ^ 7 * ref)).
Proof.
  intros P H. assert (V : Rltb 0 inc && Rltb 0 prior && Rltb inc prior = false).
  { rewrite (proj2 (Rltb_false inc prior)) by auto. apply andb_false_r. }
  destruct s; simpl; unfold derive_squared_exponential_length_scale, derive_exponential_length_scale,
    derive_matern_32_length_scale, derive_matern_52_length_scale, derive_length_scale;
    rewrite valid_value, V; apply fallback_small; auto.
Qed.

Hypothesis Hinc : 0 < inc.
Hypothesis Hprior : inc < prior.
Lemma valid_true : Rltb 0 inc && Rltb 0 prior && Rltb inc prior = true.
Proof. rb. auto. Qed.
Let ratio := inc / prior.
Lemma ratio_bounds : 0 < ratio < 1.
Proof.
  unfold ratio. split.
  - apply Rmult_lt_0_compat; auto. apply Rinv_0_lt_compat; lra.
  - apply (Rmult_lt_reg_r prior); [lra|]. unfold Rdiv. rewrite Rmult_assoc, Rinv_l by lra. lra.
Qed.
Lemma log_neg : ln (1 - ratio * ratio) < 0.
Proof. pose proof ratio_bounds. rewrite <- ln_1. apply ln_increasing; nra. Qed.

Lemma derive_se_value : derive_squared_exponential_length_scale (XFin ref) (XFin prior) (XFin inc) =
  Ok (XFin (sqrt 2 * ref / sqrt (- ln (1 - ratio * ratio)))).
Proof.
  pose proof ratio_bounds. pose proof log_neg.
  unfold derive_squared_exponential_length_scale, assert_then, xgtb. rewrite valid_value, valid_true. simpl.
  rb. simpl. fold ratio. rb. simpl.
  rewrite (proj2 (Rltb_true 0 (1 + - (ratio * ratio)))) by nra. simpl.
  change (1 + - (ratio * ratio)) with (1 - ratio * ratio).
  assert (0 < sqrt (- ln (1 - ratio * ratio))) by (apply sqrt_lt_R0; lra).
  rb. simpl. rb. auto.
Qed.
Lemma derive_exp_value : derive_exponential_length_scale (XFin ref) (XFin prior) (XFin inc) =
  Ok (XFin (- 2 * ref / ln (1 - ratio * ratio))).
Proof.
  pose proof ratio_bounds. pose proof log_neg.
  unfold derive_exponential_length_scale, assert_then, xgtb. rewrite valid_value, valid_true. simpl.
  rb. simpl. fold ratio. rb. simpl.
  rewrite (proj2 (Rltb_true 0 (1 + - (ratio * ratio)))) by nra. simpl.
  change (1 + - (ratio * ratio)) with (1 - ratio * ratio). rb. auto.
Qed.
Lemma half_log : exp (ln (1 - ratio * ratio) / 2) ^ 2 = 1 - ratio * ratio.
Proof.
  pose proof ratio_bounds. simpl. rewrite Rmult_1_r, <- exp_plus.
  replace (ln (1 - ratio * ratio) / 2 + ln (1 - ratio * ratio) / 2) with (ln (1 - ratio * ratio)) by field.
  apply exp_ln. nra.
Qed.
Lemma noise_of_ratio s ell : 0 < ell -> rho s (ref / ell) = exp (ln (1 - ratio * ratio) / 2) ->
  noise_after s ref ell prior = inc.
Proof.
  intros L E. pose proof ratio_bounds. rewrite noise_sq, E, half_log by lra.
  replace (1 - (1 - ratio * ratio)) with (ratio * ratio) by ring.
  rewrite sqrt_square by lra. unfold ratio. field. lra.
Qed.
Lemma derive_closed s ell : s = SquaredExponential \/ s = Exponential ->
  derive_of s (XFin ref) (XFin prior) (XFin inc) = Ok (XFin ell) -> 0 < ell /\ noise_after s ref ell prior = inc.
Proof.
  pose proof log_neg as LN. intros [-> | ->]; simpl.
  - rewrite derive_se_value. intros E. injection E as <-.
    assert (P : 0 < sqrt (- ln (1 - ratio * ratio))) by (apply sqrt_lt_R0; lra).
    assert (P2 : 0 < sqrt 2) by (apply sqrt_lt_R0; lra).
    assert (L : 0 < sqrt 2 * ref / sqrt (- ln (1 - ratio * ratio))).
    { repeat apply Rmult_lt_0_compat; auto. apply Rinv_0_lt_compat; auto. }
    split; auto. apply noise_of_ratio; auto. simpl. f_equal.
    set (q := sqrt (- ln (1 - ratio * ratio))) in *.
    assert (Q : q * q = - ln (1 - ratio * ratio)) by (apply sqrt_sqrt; lra).
    assert (T : sqrt 2 * sqrt 2 = 2) by (apply sqrt_sqrt; lra).
    replace (ref / (sqrt 2 * ref / q) * (ref / (sqrt 2 * ref / q) * 1)) with (q * q / (sqrt 2 * sqrt 2)) by (field; lra).
    rewrite Q, T. field.
  - rewrite derive_exp_value. intros E. injection E as <-.
    assert (L : 0 < -2 * ref / ln (1 - ratio * ratio)).
    { replace (-2 * ref / ln (1 - ratio * ratio)) with (2 * ref / (- ln (1 - ratio * ratio))) by (field; lra).
      apply Rmult_lt_0_compat; [lra|apply Rinv_0_lt_compat; lra]. }
    split; auto. apply noise_of_ratio; auto. simpl. f_equal. field. split; lra.
Qed.
Lemma derive_closed_ok s : s = SquaredExponential \/ s = Exponential ->
  exists ell, derive_of s (XFin ref) (XFin prior) (XFin inc) = Ok (XFin ell).
Proof. intros [-> | ->]; simpl; [rewrite derive_se_value|rewrite derive_exp_value]; eauto. Qed.
End Derive.

Lemma derive_bad_reference s ref prior inc : ref <= 0 ->
  derive_of s (XFin ref) (XFin prior) (XFin inc) = Abort.
Proof.
  intros H. destruct s; simpl; unfold derive_squared_exponential_length_scale, derive_exponential_length_scale,
    derive_matern_32_length_scale, derive_matern_52_length_scale, derive_length_scale,
    valid_args_for_derive_length_scale, assert_then, xgtb; simpl; rb; auto.
Qed.

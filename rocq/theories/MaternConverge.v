(* For small requests the derivation of Matern length scales converges (C67). *)
From Coq Require Import Reals Lra Psatz Lia.
From Coquelicot Require Import Coquelicot.
From Verif Require Import Base BaseProofs ExtRealModel RadialModel RadialSpec RadialProofs NewtonProofs MaternProofs
  ExpBounds MaternCycle MaternCycle2.
Local Open Scope R_scope.

Lemma exp_upper4 y : 0 <= y <= 1 -> exp y <= 1 + y + y ^ 2 / 2 + y ^ 3 / 6 + y ^ 4 / 12.
Proof.
  intros H. apply exp_upper; auto.
  assert (E : (1 + y + y ^ 2 / 2 + y ^ 3 / 6 + y ^ 4 / 12) * (1 - y + y ^ 2 / 2 - y ^ 3 / 6 + y ^ 4 / 24 - y ^ 5 / 120) - 1 =
    y ^ 4 * ((1 / 24 - y / 20 + 11 / 720 * y ^ 2) + y ^ 2 * (1 - y) / 90 + y ^ 4 * (1 / 480 - y / 1440))) by field.
  assert (0 <= y ^ 2) by (apply pow_le; lra). assert (0 <= y ^ 4) by (apply pow_le; lra).
  assert (0 <= 1 / 24 - y / 20 + 11 / 720 * y ^ 2) by (pose proof (pow2_ge_0 (y - 18 / 11)); simpl in *; lra).
  assert (0 <= y ^ 2 * (1 - y) / 90) by nra. assert (0 <= y ^ 4 * (1 / 480 - y / 1440)) by nra. nra.
Qed.

Definition dPP (s : shape) (a : R) : R := match s with Matern32 => 1 | _ => 1 + 2 * a / 3 end.
Lemma WW_deriv s a : derivable_pt_lim (WW s) a (2 * exp (2 * a) - 2 * PP s a * dPP s a).
Proof.
  apply is_derive_Reals. unfold WW. destruct s; simpl PP; simpl dPP; auto_derive; auto; field.
Qed.
(* log W - 3 log a decreases, log W - 2 log a increases *)
Lemma W_deriv_upper s a : 0 < a <= 1 / 2 -> a * (2 * exp (2 * a) - 2 * PP s a * dPP s a) <= 3 * WW s a.
Proof.
  intros H. pose proof (exp_lower6 (2 * a) ltac:(lra)) as E. unfold WW.
  assert (a2 : 0 <= a ^ 2) by (apply pow_le; lra). assert (a3 : 0 <= a ^ 3) by (apply pow_le; lra). assert (a4 : 0 <= a ^ 4) by (apply pow_le; lra).
  assert (E4 : 1 + 2 * a + 2 * a ^ 2 + 4 / 3 * a ^ 3 <= exp (2 * a)) by (assert (0 <= a ^ 5) by (apply pow_le; lra); assert (0 <= a ^ 6) by (apply pow_le; lra); simpl in *; lra).
  assert (L : (3 - 2 * a) * (1 + 2 * a + 2 * a ^ 2 + 4 / 3 * a ^ 3) <= (3 - 2 * a) * exp (2 * a)) by (apply Rmult_le_compat_l; lra).
  assert (a4b : a ^ 4 <= a ^ 2 / 4) by (replace (a ^ 4) with (a ^ 2 * (a * a)) by ring; nra).
  destruct s; simpl PP; simpl dPP; nra.
Qed.
Lemma W_deriv_lower s a : 0 < a <= 1 / 2 -> 2 * WW s a <= a * (2 * exp (2 * a) - 2 * PP s a * dPP s a).
Proof.
  intros H. pose proof (exp_neg_lower5 (2 * a) ltac:(lra)) as E. unfold WW.
  assert (a2 : 0 < a ^ 2) by (apply pow_lt; lra). assert (a3 : 0 < a ^ 3) by (apply pow_lt; lra). assert (a4 : 0 < a ^ 4) by (apply pow_lt; lra).
  assert (I : exp (2 * a) * exp (- (2 * a)) = 1) by (rewrite <- exp_plus, Rplus_opp_r, exp_0; auto).
  pose proof (exp_pos (2 * a)) as P.
  assert (G : (1 - a) * exp (2 * a) <= PP s a * (PP s a - a * dPP s a)); [|nra].
  assert (Q : 1 - a <= PP s a * (PP s a - a * dPP s a) * exp (- (2 * a))).
  { assert (N : 0 <= PP s a * (PP s a - a * dPP s a)).
    { apply Rmult_le_pos; [pose proof (PP_pos s a ltac:(lra)); lra|]. destruct s; simpl PP; simpl dPP; nra. }
    apply Rle_trans with (PP s a * (PP s a - a * dPP s a) * (1 - 2 * a + 2 * a ^ 2 - 4 / 3 * a ^ 3 + 2 / 3 * a ^ 4 - 4 / 15 * a ^ 5)).
    - clear E I P. assert (a4b : a ^ 4 <= a ^ 3 / 2) by (replace (a ^ 4) with (a ^ 3 * a) by ring; nra).
      assert (a5b : a ^ 5 <= a ^ 3 / 4) by (replace (a ^ 5) with (a ^ 3 * (a * a)) by ring; nra).
      assert (a6b : 0 <= a ^ 6 <= a ^ 3 / 8) by (split; [apply pow_le; lra|]; replace (a ^ 6) with (a ^ 3 * (a * a * a)) by ring; assert (a * a * a <= 1 / 8) by nra; nra).
      assert (a7b : 0 <= a ^ 7 <= a ^ 3 / 16) by (split; [apply pow_le; lra|]; replace (a ^ 7) with (a ^ 6 * a) by ring; nra).
      assert (a8b : 0 <= a ^ 8 <= a ^ 3 / 32) by (split; [apply pow_le; lra|]; replace (a ^ 8) with (a ^ 7 * a) by ring; nra).
      assert (a9b : 0 <= a ^ 9 <= a ^ 3 / 64) by (split; [apply pow_le; lra|]; replace (a ^ 9) with (a ^ 8 * a) by ring; nra).
      assert (0 <= a ^ 5) by (apply pow_le; lra).
      destruct s; simpl PP; simpl dPP; ring_simplify; lra.
    - apply Rmult_le_compat_l; auto. simpl in *. lra. }
  apply (Rmult_le_reg_r (exp (- (2 * a)))); [apply exp_pos|]. rewrite Rmult_assoc, I. lra.
Qed.
Lemma lnW_deriv s (c : R) a : 0 < a ->
  derivable_pt_lim (fun x => ln (WW s x) - c * ln x) a ((2 * exp (2 * a) - 2 * PP s a * dPP s a) / WW s a - c / a).
Proof.
  intros H. pose proof (WW_pos s a H) as W.
  apply (derivable_pt_lim_minus (fun x => ln (WW s x)) (fun x => c * ln x)).
  - replace ((2 * exp (2 * a) - 2 * PP s a * dPP s a) / WW s a) with (/ WW s a * (2 * exp (2 * a) - 2 * PP s a * dPP s a)) by (field; lra).
    apply (derivable_pt_lim_comp (WW s) ln); [apply WW_deriv|apply derivable_pt_lim_ln; auto].
  - apply (derivable_pt_lim_scal ln c). apply derivable_pt_lim_ln; auto.
Qed.
Lemma W_cube s a b : 0 < a -> a <= b -> b <= 1 / 2 -> WW s b * a ^ 3 <= WW s a * b ^ 3.
Proof.
  intros A [B|<-] C; [|lra].
  destruct (MVT_cor2 (fun x => ln (WW s x) - 3 * ln x) (fun x => (2 * exp (2 * x) - 2 * PP s x * dPP s x) / WW s x - 3 / x) a b B)
    as [c [E Hc]]. { intros c Hc. apply lnW_deriv. lra. }
  pose proof (W_deriv_upper s c ltac:(lra)) as U. pose proof (WW_pos s c ltac:(lra)) as Wc.
  assert (D : (2 * exp (2 * c) - 2 * PP s c * dPP s c) / WW s c - 3 / c <= 0).
  { apply (Rmult_le_reg_r (c * WW s c)); [apply Rmult_lt_0_compat; lra|].
    replace (((2 * exp (2 * c) - 2 * PP s c * dPP s c) / WW s c - 3 / c) * (c * WW s c)) with (c * (2 * exp (2 * c) - 2 * PP s c * dPP s c) - 3 * WW s c) by (field; lra).
    lra. }
  assert (L : ln (WW s b) - 3 * ln b <= ln (WW s a) - 3 * ln a) by nra.
  pose proof (WW_pos s a A) as Wa. pose proof (WW_pos s b ltac:(lra)) as Wb.
  assert (P : forall x, 0 < x -> 3 * ln x = ln (x ^ 3)) by (intros x Hx; simpl; rewrite Rmult_1_r, !ln_mult by (auto; apply Rmult_lt_0_compat; auto); ring).
  rewrite !P in L by lra. assert (0 < a ^ 3) by (apply pow_lt; lra). assert (0 < b ^ 3) by (apply pow_lt; lra).
  apply ln_le_iff; [apply Rmult_lt_0_compat; auto|apply Rmult_lt_0_compat; auto|]. rewrite !ln_mult by auto. lra.
Qed.
Lemma W_square s a b : 0 < a -> a <= b -> b <= 1 / 2 -> WW s a * b ^ 2 <= WW s b * a ^ 2.
Proof.
  intros A [B|<-] C; [|lra].
  destruct (MVT_cor2 (fun x => ln (WW s x) - 2 * ln x) (fun x => (2 * exp (2 * x) - 2 * PP s x * dPP s x) / WW s x - 2 / x) a b B)
    as [c [E Hc]]. { intros c Hc. apply lnW_deriv. lra. }
  pose proof (W_deriv_lower s c ltac:(lra)) as U. pose proof (WW_pos s c ltac:(lra)) as Wc.
  assert (D : 0 <= (2 * exp (2 * c) - 2 * PP s c * dPP s c) / WW s c - 2 / c).
  { apply (Rmult_le_reg_r (c * WW s c)); [apply Rmult_lt_0_compat; lra|].
    replace (((2 * exp (2 * c) - 2 * PP s c * dPP s c) / WW s c - 2 / c) * (c * WW s c)) with (c * (2 * exp (2 * c) - 2 * PP s c * dPP s c) - 2 * WW s c) by (field; lra).
    lra. }
  assert (L : ln (WW s a) - 2 * ln a <= ln (WW s b) - 2 * ln b) by nra.
  pose proof (WW_pos s a A) as Wa. pose proof (WW_pos s b ltac:(lra)) as Wb.
  assert (P : forall x, 0 < x -> 2 * ln x = ln (x ^ 2)) by (intros x Hx; simpl; rewrite Rmult_1_r, !ln_mult by auto; ring).
  rewrite !P in L by lra. assert (0 < a ^ 2) by (apply pow_lt; lra). assert (0 < b ^ 2) by (apply pow_lt; lra).
  apply ln_le_iff; [apply Rmult_lt_0_compat; auto|apply Rmult_lt_0_compat; auto|]. rewrite !ln_mult by auto. lra.
Qed.
Lemma MM_ratio s a b : 0 < a -> a <= b -> b <= 1 / 2 -> a * MM s b <= b * MM s a.
Proof.
  intros A B C. assert (G : a * ((1 + b) / 3 * (1 + b + b ^ 2 / 3)) <= b * ((1 + a) / 3 * (1 + a + a ^ 2 / 3))).
  { assert (E : b * ((1 + a) / 3 * (1 + a + a ^ 2 / 3)) - a * ((1 + b) / 3 * (1 + b + b ^ 2 / 3)) =
      (b - a) * (1 - 4 / 3 * (a * b) - a * b * (a + b) / 3) / 3) by field.
    assert (a * b <= 1 / 4) by nra. assert (0 <= a * b) by nra. assert (a * b * (a + b) <= 1 / 4) by nra. nra. }
  destruct s; simpl MM; try exact G; nra.
Qed.
Lemma q_lower s a : 0 < a <= 1 / 2 -> 3 / 4 * WW s a <= a ^ 2 * MM s a.
Proof.
  intros H. pose proof (exp_upper4 (2 * a) ltac:(lra)) as E. unfold WW.
  assert (a2 : 0 <= a ^ 2) by (apply pow_le; lra). assert (a3 : 0 <= a ^ 3) by (apply pow_le; lra).
  assert (a4b : 0 <= a ^ 4 <= a ^ 2 / 4) by (replace (a ^ 4) with (a ^ 2 * (a * a)) by ring; nra).
  assert (a5 : 0 <= a ^ 5) by (apply pow_le; lra).
  destruct s; simpl PP; simpl MM; simpl in E; ring_simplify; nra.
Qed.

Section Converge.
Variables (s : shape) (prior : R).
Hypothesis Hs : is_matern s.
Hypothesis Hprior : 0 < prior.
Notation f := (log_noise s prior).
Notation slope := (log_slope s).
Notation rc := (2 * kk s).

Lemma arg_small x : rc <= x -> 0 < kk s / x <= 1 / 2.
Proof.
  intros H. pose proof (kk_bounds s) as K. split; [apply arg_pos; lra|].
  apply (Rmult_le_reg_r x); [lra|]. unfold Rdiv at 1. rewrite Rmult_assoc, Rinv_l; lra.
Qed.
Lemma arg_order x y : rc <= x -> x <= y -> kk s / y <= kk s / x.
Proof.
  intros H L. pose proof (kk_bounds s) as K. unfold Rdiv. apply Rmult_le_compat_l; [lra|]. apply Rinv_le_contravar; lra.
Qed.
(* the slope decreases, slope * x^2 increases, slope * x is between 3/4 and 1 *)
Lemma slope_decreasing x y : rc <= x -> x <= y -> slope y <= slope x.
Proof.
  intros H L. pose proof (kk_bounds s) as K. rewrite !log_slope_form by (auto; lra).
  pose proof (arg_small x H) as B. pose proof (arg_small y ltac:(lra)) as A. pose proof (arg_order x y H L) as O.
  set (a := kk s / y) in *. set (b := kk s / x) in *.
  pose proof (WW_pos s a ltac:(lra)) as Wa. pose proof (WW_pos s b ltac:(lra)) as Wb.
  pose proof (W_cube s a b ltac:(lra) O ltac:(lra)) as C. pose proof (MM_incr s a b ltac:(lra) O) as M. pose proof (MM_pos s a ltac:(lra)) as M0.
  apply (Rmult_le_reg_r (kk s * (WW s a * WW s b))); [repeat apply Rmult_lt_0_compat; lra|].
  replace (a ^ 3 * MM s a / (kk s * WW s a) * (kk s * (WW s a * WW s b))) with (WW s b * a ^ 3 * MM s a) by (field; lra).
  replace (b ^ 3 * MM s b / (kk s * WW s b) * (kk s * (WW s a * WW s b))) with (WW s a * b ^ 3 * MM s b) by (field; lra).
  assert (0 < b ^ 3) by (apply pow_lt; lra). assert (0 <= WW s b * a ^ 3) by (apply Rmult_le_pos; [lra|apply pow_le; lra]).
  apply Rmult_le_compat; auto; lra.
Qed.
Lemma slope_square x y : rc <= x -> x <= y -> slope x * x ^ 2 <= slope y * y ^ 2.
Proof.
  intros H L. pose proof (kk_bounds s) as K. rewrite !log_slope_form by (auto; lra).
  pose proof (arg_small x H) as B. pose proof (arg_small y ltac:(lra)) as A. pose proof (arg_order x y H L) as O.
  assert (Ex : x = kk s / (kk s / x)) by (field; split; lra). assert (Ey : y = kk s / (kk s / y)) by (field; split; lra).
  set (a := kk s / y) in *. set (b := kk s / x) in *. rewrite Ex, Ey. clear Ex Ey. clearbody a b.
  pose proof (WW_pos s a ltac:(lra)) as Wa. pose proof (WW_pos s b ltac:(lra)) as Wb.
  pose proof (W_square s a b ltac:(lra) O ltac:(lra)) as C. pose proof (MM_ratio s a b ltac:(lra) O ltac:(lra)) as M. pose proof (MM_pos s a ltac:(lra)) as M0.
  pose proof (MM_pos s b ltac:(lra)) as M1.
  apply (Rmult_le_reg_r (a * b * (WW s a * WW s b))); [repeat apply Rmult_lt_0_compat; lra|].
  replace (b ^ 3 * MM s b / (kk s * WW s b) * (kk s / b) ^ 2 * (a * b * (WW s a * WW s b))) with (kk s * (WW s a * b ^ 2 * (a * MM s b))) by (field; lra).
  replace (a ^ 3 * MM s a / (kk s * WW s a) * (kk s / a) ^ 2 * (a * b * (WW s a * WW s b))) with (kk s * (WW s b * a ^ 2 * (b * MM s a))) by (field; lra).
  apply Rmult_le_compat_l; [lra|]. apply Rmult_le_compat; auto; [apply Rmult_le_pos; [lra|apply pow_le; lra]|nra].
Qed.
Lemma slope_ge x : rc <= x -> 3 / 4 <= x * slope x.
Proof.
  intros H. pose proof (kk_bounds s) as K. rewrite slope_bound by (auto; lra). pose proof (arg_small x H) as A.
  pose proof (WW_pos s _ (proj1 A)) as W. pose proof (q_lower s _ A) as Q. set (a := kk s / x) in *. clearbody a. apply (Rmult_le_reg_r (WW s a)); auto.
  replace (a ^ 2 * MM s a / WW s a * WW s a) with (a ^ 2 * MM s a) by (field; lra). auto.
Qed.
Lemma f_deriv x : 0 < x -> derivable_pt_lim f x (- slope x).
Proof. intros H. apply (log_noise_deriv s prior (prior / 2)); auto; lra. Qed.
Lemma tangent x y : rc <= x -> x <= y -> f x - slope x * (y - x) <= f y.
Proof.
  intros H [L|<-]; [|lra]. pose proof (kk_bounds s) as K.
  destruct (MVT_cor2 f (fun x => - slope x) x y L) as [c [E Hc]]. { intros c Hc. apply f_deriv. lra. }
  pose proof (slope_decreasing x c H ltac:(lra)). nra.
Qed.
Lemma hyperbola x y : rc <= x -> x <= y -> f y <= f x - slope x * x * (1 - x / y).
Proof.
  intros H [L|<-]; [|pose proof (kk_bounds s) as K; replace (x / x) with 1 by (field; lra); lra]. pose proof (kk_bounds s) as K.
  destruct (MVT_cor2 (fun z => f z - slope x * x ^ 2 * (1 / z)) (fun z => - slope z - slope x * x ^ 2 * (- / (z * z))) x y L) as [c [E Hc]].
  { intros c Hc. apply (derivable_pt_lim_minus f (fun z => slope x * x ^ 2 * (1 / z))); [apply f_deriv; lra|].
    apply (derivable_pt_lim_scal (fun z => 1 / z)). apply inv_deriv; lra. }
  pose proof (slope_square x c H ltac:(lra)) as S.
  assert (D : - slope c - slope x * x ^ 2 * (- / (c * c)) <= 0).
  { apply (Rmult_le_reg_r (c * c)); [nra|].
    replace ((- slope c - slope x * x ^ 2 * (- / (c * c))) * (c * c)) with (slope x * x ^ 2 - slope c * c ^ 2) by (field; lra). lra. }
  assert (F : f y - slope x * x ^ 2 * (1 / y) <= f x - slope x * x ^ 2 * (1 / x)) by nra.
  replace (slope x * x * (1 - x / y)) with (slope x * x ^ 2 * (1 / x) - slope x * x ^ 2 * (1 / y)) by (field; lra). lra.
Qed.
Lemma log_bound x y : rc <= x -> x <= y -> f y + 3 / 4 * (ln y - ln x) <= f x.
Proof.
  intros H [L|<-]; [|lra]. pose proof (kk_bounds s) as K.
  destruct (MVT_cor2 (fun z => f z + 3 / 4 * ln z) (fun z => - slope z + 3 / 4 * / z) x y L) as [c [E Hc]].
  { intros c Hc. apply (derivable_pt_lim_plus f (fun z => 3 / 4 * ln z)); [apply f_deriv; lra|].
    apply (derivable_pt_lim_scal ln). apply derivable_pt_lim_ln; lra. }
  pose proof (slope_ge c ltac:(lra)) as S.
  assert (D : - slope c + 3 / 4 * / c <= 0).
  { apply (Rmult_le_reg_r c); [lra|]. replace ((- slope c + 3 / 4 * / c) * c) with (3 / 4 - c * slope c) by (field; lra). lra. }
  nra.
Qed.

(* one step from the left of the solution *)
Lemma newton_step T x : rc <= x < 10 ^ 7 -> T <= f x -> f (10 ^ 7) < T ->
  let x' := safeguarded_step T f slope (/ 10 ^ 7) (10 ^ 7) x in
  rc <= x' < 10 ^ 7 /\ T <= f x' /\ (f x' - T) * (3 / 4 + (f x - T)) <= (f x - T) ^ 2.
Proof.
  intros H A B. cbv zeta. pose proof (kk_bounds s) as K. assert (lov : / 10 ^ 7 = 1 / 10000000) by (simpl; lra).
  assert (P : 0 < slope x) by (apply slope_pos; lra).
  unfold safeguarded_step. set (z := x - (T - f x) / slope x).
  assert (Z : z = x + (f x - T) / slope x) by (unfold z; field; lra).
  assert (Z1 : slope x * (z - x) = f x - T) by (rewrite Z; field; lra).
  assert (Zx : x <= z) by nra.
  assert (Tz : T <= f z) by (pose proof (tangent x z ltac:(lra) Zx); lra).
  assert (Zh : z < 10 ^ 7).
  { destruct (Rlt_or_le z (10 ^ 7)) as [|L]; auto. exfalso.
    pose proof (log_noise_decreasing s prior Hprior (10 ^ 7) z ltac:(simpl; lra) L). lra. }
  destruct (Rle_dec z (/ 10 ^ 7)); [lra|]. destruct (Rle_dec (10 ^ 7) z); [lra|].
  split; [lra|split; [auto|]].
  pose proof (hyperbola x z ltac:(lra) Zx) as Hy. pose proof (slope_ge x ltac:(lra)) as Q.
  set (e := f x - T) in *. set (q := x * slope x) in *.
  assert (Hq : slope x * x * (1 - x / z) = q * e / (q + e)).
  { assert (z = x * (q + e) / q) by (rewrite Z; unfold q; field; split; lra).
    rewrite H0. unfold q. field. repeat split; try lra. fold q. unfold e. lra. }
  rewrite Hq in Hy.
  assert (F : f z - T <= e ^ 2 / (q + e)).
  { replace (e ^ 2 / (q + e)) with (e - q * e / (q + e)) by (field; unfold e; lra). unfold e in *. lra. }
  assert (E0 : 0 <= e) by (unfold e; lra).
  apply Rle_trans with (e ^ 2 / (q + e) * (3 / 4 + e)); [apply Rmult_le_compat_r; lra|].
  apply (Rmult_le_reg_r (q + e)); [lra|].
  replace (e ^ 2 / (q + e) * (3 / 4 + e) * (q + e)) with (e ^ 2 * (3 / 4 + e)) by (field; lra).
  apply Rmult_le_compat_l; [apply pow_le; auto|lra].
Qed.
End Converge.

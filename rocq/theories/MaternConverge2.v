(* For small requests the derivation of Matern length scales converges (C67): 50 steps are enough. *)
From Coq Require Import Reals Lra Psatz Lia.
From Verif Require Import Base BaseProofs ExtRealModel RadialModel RadialSpec RadialProofs NewtonProofs MaternProofs
  ExpBounds MaternCycle MaternCycle2 MaternConverge.
Local Open Scope R_scope.

Section Quadratic.
Variable e : nat -> R.
Hypothesis pos : forall n, 0 <= e n.
Hypothesis next : forall n, e (S n) * (3 / 4 + e n) <= e n ^ 2.
Hypothesis first : e 0%nat <= 17.
Lemma e_mono n m : (n <= m)%nat -> e m <= e n.
Proof.
  induction 1 as [|m _ IH]; [lra|]. apply Rle_trans with (e m); auto.
  pose proof (next m). pose proof (pos m). pose proof (pos (S m)).
  destruct (Rle_lt_dec (e (S m)) (e m)); auto. nra.
Qed.
Lemma e_bound n c d : e n <= c -> 0 <= d -> c ^ 2 <= d * (3 / 4 + c) -> e (S n) <= d.
Proof.
  intros H D C. pose proof (next n) as N. pose proof (pos n) as P. pose proof (pos (S n)) as P'.
  destruct (Rle_lt_dec (e (S n)) d) as [|G]; auto. exfalso.
  assert (e n ^ 2 <= d * (3 / 4 + e n)); [|nra].
  (* x^2 / (3/4 + x) increases *)
  assert (E : c ^ 2 * (3 / 4 + e n) - e n ^ 2 * (3 / 4 + c) = (c - e n) * (3 / 4 * (c + e n) + c * e n)) by ring.
  assert (0 <= (c - e n) * (3 / 4 * (c + e n) + c * e n)) by (apply Rmult_le_pos; nra).
  assert (c ^ 2 * (3 / 4 + e n) <= d * (3 / 4 + c) * (3 / 4 + e n)) by (apply Rmult_le_compat_r; lra).
  apply (Rmult_le_reg_r (3 / 4 + c)); nra.
Qed.
Lemma phase1 n : (n <= 21)%nat -> e n <= 4 \/ e n <= 17 - 63 / 100 * INR n.
Proof.
  induction n as [|n IH]; intros Hn; [right; simpl; lra|]. destruct (IH ltac:(lia)) as [L|L].
  - left. pose proof (e_mono n (S n) ltac:(lia)). lra.
  - destruct (Rle_lt_dec (e n) 4) as [M|M]; [left; pose proof (e_mono n (S n) ltac:(lia)); lra|].
    right. rewrite S_INR. assert (e (S n) <= e n - 63 / 100); [|lra].
    apply (e_bound n (e n)); [lra|lra|nra].
Qed.
Lemma at21 : e 21%nat <= 4.
Proof. destruct (phase1 21 ltac:(lia)) as [L|L]; auto. replace (INR 21) with 21 in L by (simpl; ring). lra. Qed.
Lemma phase2 n : (n <= 8)%nat -> e (21 + n)%nat <= 1 \/ e (21 + n)%nat <= 4 - 42 / 100 * INR n.
Proof.
  induction n as [|n IH]; intros Hn; [right; pose proof at21; simpl; lra|]. destruct (IH ltac:(lia)) as [L|L].
  - left. pose proof (e_mono (21 + n) (21 + S n) ltac:(lia)). lra.
  - destruct (Rle_lt_dec (e (21 + n)%nat) 1) as [M|M]; [left; pose proof (e_mono (21 + n) (21 + S n) ltac:(lia)); lra|].
    right. rewrite S_INR. replace (21 + S n)%nat with (S (21 + n)) by lia.
    assert (e (S (21 + n)) <= e (21 + n)%nat - 42 / 100); [|lra].
    apply (e_bound _ (e (21 + n)%nat)); [lra|lra|]. set (x := e (21 + n)%nat) in *. nra.
Qed.
Lemma at29 : e 29%nat <= 1.
Proof. destruct (phase2 8 ltac:(lia)) as [L|L]; auto. replace (INR 8) with 8 in L by (simpl; ring). cbn [Nat.add] in L. lra. Qed.
Lemma at50 : e 50%nat < / 10 ^ 12.
Proof.
  pose proof at29 as A.
  assert (B : e 30%nat <= 572 / 1000) by (apply (e_bound 29 1); simpl; lra).
  assert (C : e 31%nat <= 25 / 100) by (apply (e_bound 30 (572 / 1000)); simpl; lra).
  assert (D : e 32%nat <= 63 / 1000) by (apply (e_bound 31 (25 / 100)); simpl; lra).
  assert (E : e 33%nat <= 5 / 1000) by (apply (e_bound 32 (63 / 1000)); simpl; lra).
  assert (F : e 34%nat <= 4 / 100000) by (apply (e_bound 33 (5 / 1000)); simpl; lra).
  assert (G : e 35%nat <= / 10 ^ 8) by (apply (e_bound 34 (4 / 100000)); simpl; lra).
  assert (H : e 36%nat <= / 10 ^ 15) by (apply (e_bound 35 (/ 10 ^ 8)); simpl; lra).
  pose proof (e_mono 36 50 ltac:(lia)). apply Rle_lt_trans with (/ 10 ^ 15); [lra|simpl; lra].
Qed.
End Quadratic.

Lemma ln10_bounds : 23 / 10 <= ln 10 <= 231 / 100.
Proof.
  split.
  - rewrite <- (ln_exp (23 / 10)). apply ln_le_iff; [apply exp_pos|lra|].
    assert (E : exp (575 / 1000) <= 17775 / 10000) by (apply exp_upper; simpl; lra).
    pose proof (exp_pos (575 / 1000)).
    replace (23 / 10) with (575 / 1000 + 575 / 1000 + (575 / 1000 + 575 / 1000)) by lra. rewrite !exp_plus.
    set (x := exp (575 / 1000)) in *. assert (x * x <= 316 / 100) by nra. nra.
  - rewrite <- (ln_exp (231 / 100)). apply ln_le_iff; [lra|apply exp_pos|].
    pose proof (exp_lower6 (1155 / 1000) ltac:(lra)) as E. assert (3173 / 1000 <= exp (1155 / 1000)) by (simpl in E; lra).
    replace (231 / 100) with (1155 / 1000 + 1155 / 1000) by lra. rewrite exp_plus. nra.
Qed.
Lemma ln_pow10 n : ln (10 ^ n) = INR n * ln 10.
Proof.
  induction n as [|n IH]; [simpl; rewrite ln_1; ring|]. rewrite S_INR. cbn [pow]. rewrite ln_mult, IH by (try apply pow_lt; lra). ring.
Qed.

Section Final.
Variables (s : shape) (ref prior inc : R).
Hypothesis Hs : is_matern s.
Hypothesis Href : 0 < ref.
Hypothesis Hinc : 0 < inc.
Hypothesis Hsmall : inc <= prior / 10 ^ 4.
Hypothesis Hreach : noise_after s ref (10 ^ 7 * ref) prior < inc.
Notation f := (log_noise s prior).
Notation slope := (log_slope s).

Lemma prior_pos : 0 < prior. Proof. assert (0 < 10 ^ 4) by (simpl; lra). simpl in *. lra. Qed.
Lemma inc_lt : inc < prior. Proof. pose proof prior_pos. simpl in *. lra. Qed.
Lemma target_upper : ln inc <= ln prior - 4 * ln 10.
Proof.
  pose proof prior_pos as P. assert (P4 : 0 < 10 ^ 4) by (apply pow_lt; lra).
  replace (4 * ln 10) with (ln (10 ^ 4)) by (rewrite ln_pow10; simpl; ring). 
  assert (ln inc <= ln prior + ln (/ 10 ^ 4)); [|rewrite ln_Rinv in *; auto; lra].
  rewrite <- ln_mult by (auto; apply Rinv_0_lt_compat; auto).
  apply ln_le_iff; auto. apply Rmult_lt_0_compat; auto. apply Rinv_0_lt_compat; auto.
Qed.
Lemma low_end : ln prior - 1 / 50 <= f (/ 10 ^ 7) <= ln prior.
Proof.
  pose proof prior_pos as P. split; [apply lower_end; auto|]. pose proof min_pos as M.
  rewrite (log_noise_formula s prior (prior / 2)) by (auto; lra). pose proof (denom_pos s (/ 10 ^ 7) M) as D.
  pose proof (rho_in s (/ 10 ^ 7) M) as Rr. set (u := 1 - _) in *. assert (u <= 1) by (unfold u; nra).
  assert (ln u <= ln 1) by (apply ln_le_iff; lra). rewrite ln_1 in *. lra.
Qed.
Lemma high_end : ln prior - 162 / 10 <= f (10 ^ 7).
Proof.
  pose proof prior_pos as P. assert (P7 : 0 < 10 ^ 7) by (apply pow_lt; lra). rewrite log_noise_form by auto.
  pose proof (kk_bounds s) as K. pose proof (arg_pos s (10 ^ 7) P7) as A. set (a := kk s / 10 ^ 7) in *.
  pose proof (MM_W s a A) as W. pose proof (MM_pos s a ltac:(lra)) as M.
  assert (W1 : a ^ 2 / 3 <= WW s a) by (assert (0 < a ^ 2) by (apply pow_lt; auto); nra).
  assert (L : ln (a ^ 2 / 3) <= ln (WW s a)).
  { apply ln_le_iff; [|apply WW_pos; auto|auto]. assert (0 < a ^ 2) by (apply pow_lt; auto). lra. }
  assert (K3 : / 10 ^ 14 <= a ^ 2 / 3).
  { unfold a, Rdiv. rewrite Rpow_mult_distr, pow_inv. replace (10 ^ 14) with (10 ^ 7 * 10 ^ 7) by (simpl; ring).
    assert (3 <= kk s ^ 2).
    { destruct Hs as [-> | ->]; simpl kk; simpl; rewrite Rmult_1_r, sqrt_sqrt; lra. }
    rewrite Rinv_mult. assert (0 < / 10 ^ 7) by apply min_pos. replace ((10 ^ 7) ^ 2) with (10 ^ 7 * 10 ^ 7) by ring. rewrite Rinv_mult.
    assert (0 < / 10 ^ 7 * / 10 ^ 7) by nra. nra. }
  assert (L2 : ln (/ 10 ^ 14) <= ln (a ^ 2 / 3)).
  { apply ln_le_iff; auto; [apply Rinv_0_lt_compat, pow_lt; lra|]. assert (0 < a ^ 2) by (apply pow_lt; auto). lra. }
  rewrite ln_Rinv, ln_pow10 in L2 by (apply pow_lt; lra). replace (INR 14) with 14 in L2 by (simpl; ring).
  pose proof ln10_bounds as L10. assert (Au : a <= 1 / 100) by (unfold a; simpl; lra). lra.
Qed.
Lemma reach_log : f (10 ^ 7) < ln inc.
Proof.
  pose proof prior_pos as P. assert (P7 : 0 < 10 ^ 7) by (apply pow_lt; lra). unfold log_noise.
  rewrite <- (scaled_noise s ref prior Href) by auto. apply ln_increasing; auto.
  rewrite (scaled_noise s ref prior Href) by auto. apply (noise_pos s prior inc); auto. apply inc_lt.
Qed.
Lemma start_good : 2 * kk s <= guess0 s prior inc < 10 ^ 7 /\ ln inc <= f (guess0 s prior inc).
Proof.
  pose proof prior_pos as P. pose proof low_end as LE. pose proof high_end as HE. pose proof reach_log as RL. pose proof target_upper as TU.
  pose proof ln10_bounds as L10. pose proof (kk_bounds s) as K.
  assert (P7 : 0 < 10 ^ 7) by (apply pow_lt; lra).
  set (x0 := guess0 s prior inc). set (al := (f (/ 10 ^ 7) - ln inc) / (f (/ 10 ^ 7) - f (10 ^ 7))).
  assert (Den : 0 < f (/ 10 ^ 7) - f (10 ^ 7)) by lra.
  assert (Aeq : al * (f (/ 10 ^ 7) - f (10 ^ 7)) = f (/ 10 ^ 7) - ln inc) by (unfold al; field; lra).
  assert (Al : 56 / 100 <= al) by (apply (Rmult_le_reg_r (f (/ 10 ^ 7) - f (10 ^ 7))); [auto|rewrite Aeq; lra]).
  assert (Au : al < 1) by (apply (Rmult_lt_reg_r (f (/ 10 ^ 7) - f (10 ^ 7))); [auto|rewrite Aeq; lra]).
  assert (LX : ln x0 = (14 * al - 7) * ln 10).
  { unfold x0, guess0. rewrite ln_exp. fold al. rewrite ln_Rinv, ln_pow10 by auto. replace (INR 7) with 7 by (simpl; ring). ring. }
  assert (X0 : 0 < x0) by apply exp_pos.
  assert (B1 : 2 * kk s <= x0).
  { apply ln_le_iff; [lra|auto|]. rewrite LX. apply Rle_trans with (84 / 100 * (23 / 10)).
    - rewrite <- (ln_exp (84 / 100 * (23 / 10))). apply ln_le_iff; [lra|apply exp_pos|].
      pose proof (exp_lower6 (84 / 100 * (23 / 10)) ltac:(lra)) as E. simpl in E. lra.
    - nra. }
  assert (B2 : x0 < 10 ^ 7).
  { apply ln_lt_inv; auto. rewrite LX, ln_pow10. replace (INR 7) with 7 by (simpl; ring). nra. }
  split; [split; auto|].
  pose proof (log_bound s prior Hs P x0 (10 ^ 7) B1 ltac:(lra)) as LB.
  rewrite LX, ln_pow10 in LB. replace (INR 7) with 7 in LB by (simpl; ring). nra.
Qed.

Theorem converges : exists ell, derive_of s (XFin ref) (XFin prior) (XFin inc) = Ok (XFin ell) /\
  Rabs (noise_after s ref ell prior - inc) <= 2 / 10 ^ 12 * inc.
Proof.
  pose proof prior_pos as P. pose proof inc_lt as IL.
  destruct (derive_matern s ref prior inc Hs Href Hinc IL) as [ell (E & _ & _ & _ & O)].
  pose proof min_pos as M. assert (P7 : 0 < 10 ^ 7) by (apply pow_lt; lra).
  pose proof low_end as LE. pose proof reach_log as RL. pose proof target_upper as TU. pose proof ln10_bounds as L10.
  destruct O as [r [-> N]]; [|lra|].
  { rewrite (scaled_noise s ref prior Href) by auto.
    replace (noise_after s 1 (/ 10 ^ 7) prior) with (exp (f (/ 10 ^ 7))).
    - rewrite <- (exp_ln inc) by auto. apply Rlt_gt, exp_increasing. lra.
    - unfold log_noise. rewrite exp_ln; auto. apply (noise_pos s prior inc); auto. }
  exists (r * ref). split; [auto|].
  destruct N as [k (Hk & -> & _ & Kend)].
  set (x := safeguarded_iterate (ln inc) f slope (/ 10 ^ 7) (10 ^ 7) (guess0 s prior inc)) in *.
  assert (Inv : forall n, 2 * kk s <= x n < 10 ^ 7 /\ ln inc <= f (x n)).
  { induction n as [|n [I1 I2]]; [apply start_good|]. destruct (newton_step s prior Hs P (ln inc) (x n) I1 I2 RL) as (J1 & J2 & _). auto. }
  assert (Next : forall n, (f (x (S n)) - ln inc) * (3 / 4 + (f (x n) - ln inc)) <= (f (x n) - ln inc) ^ 2).
  { intros n. destruct (Inv n) as [I1 I2]. apply (newton_step s prior Hs P (ln inc) (x n) I1 I2 RL). }
  assert (First : f (x 0%nat) - ln inc <= 17).
  { destruct (Inv 0%nat) as [[I0 _] _]. pose proof (kk_bounds s). assert (Hlo : / 10 ^ 7 <= x 0%nat) by (assert (/ 10 ^ 7 <= 1) by (simpl; lra); lra).
    pose proof (log_noise_decreasing s prior P (/ 10 ^ 7) (x 0%nat) M Hlo). pose proof high_end. lra. }
  pose proof (at50 (fun n => f (x n) - ln inc) (fun n => ltac:(destruct (Inv n); lra)) Next First) as F50.
  assert (Fk : f (x k) - ln inc < / 10 ^ 12).
  { destruct Kend as [->|Kend]; [exact F50|]. pose proof (Rle_abs (- (ln inc - f (x k)))). rewrite Rabs_Ropp in *. lra. }
  destruct (Inv k) as [Ik Jk]. pose proof (kk_bounds s) as KB.
  rewrite (scaled_noise s ref prior Href) by lra.
  assert (NE : noise_after s 1 (x k) prior = exp (f (x k))) by (unfold log_noise; rewrite exp_ln; auto; apply (noise_pos s prior inc); auto; lra).
  rewrite NE. set (d := f (x k) - ln inc) in *.
  assert (ED : exp (f (x k)) = inc * exp d) by (rewrite <- (exp_ln inc) at 1 by auto; rewrite <- exp_plus; f_equal; unfold d; ring).
  rewrite ED. assert (D0 : 0 <= d) by (unfold d; lra).
  assert (D1 : d < 1 / 1000000000000) by (simpl in Fk; lra).
  assert (U : exp d <= 1 + 2 * d).
  { apply exp_upper; [lra|]. assert (0 <= d ^ 2) by (apply pow_le; auto). assert (d ^ 2 <= d / 1000000) by nra.
    assert (0 <= d ^ 3 <= d / 1000000) by nra. assert (0 <= d ^ 4) by (apply pow_le; auto). assert (0 <= d ^ 5 <= d / 1000000).
    { split; [apply pow_le; auto|]. replace (d ^ 5) with (d ^ 3 * (d * d)) by ring. nra. }
    nra. }
  assert (Lo : 1 <= exp d) by (rewrite <- exp_0; apply exp_mono; auto).
  rewrite Rabs_right by nra. simpl. nra.
Qed.
End Final.

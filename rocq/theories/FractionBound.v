(* The denominator of the truncated continued fraction is positive, and the fraction is close to its limit. *)
From Coq Require Import Reals ZArith List Bool Lra Lia.
From Coquelicot Require Import Coquelicot.
From Verif Require Import Base ExtRealModel ExtRealProofs DistanceModel DistanceProofs RadialModel ChiSquaredModel ChiSquaredSpec
  IncompleteGammaProofs PosPoly FractionPoly.
Import ListNotations.
Local Open Scope R_scope.

Fixpoint zrising (x : Z) (n : nat) : Z := match n with O => 1%Z | S n => (zrising x n * (x + Z.of_nat n))%Z end.
Lemma zrisingE x n : rising (IZR x) n = IZR (zrising x n).
Proof. induction n as [|n IH]; [reflexivity|]. cbn [rising zrising]. rewrite IH, mult_IZR, plus_IZR, <- INR_IZR_INZ. reflexivity. Qed.
Lemma rising_above a x m n : 0 <= a -> 0 <= x -> x <= a + INR m -> 0 <= rising a m -> rising a m * rising x n <= rising a (m + n).
Proof.
  intros a0 x0 X P. induction n as [|n IH]; [rewrite Nat.add_0_r; simpl; lra|]. rewrite Nat.add_succ_r. cbn [rising]. rewrite <- Rmult_assoc.
  assert (G : 0 <= rising x n). { clear -x0. induction n as [|n IH]; cbn [rising]; [lra|]. pose proof (pos_INR n). apply Rmult_le_pos; lra. }
  pose proof (pos_INR n). apply Rmult_le_compat; auto; [apply Rmult_le_pos; auto | lra | rewrite plus_INR; lra].
Qed.

(* e, from above: (1024/1023)^1024, rounded up after every squaring *)
Lemma exp_double x y r s : exp x <= r -> y = x + x -> r * r <= s -> exp y <= s.
Proof.
  intros X -> S. rewrite exp_plus. pose proof (exp_pos x). apply Rle_trans with (r * r); auto. apply Rmult_le_compat; lra.
Qed.
Lemma exp1_upper : exp 1 <= 272 / 100.
Proof.
  assert (X : exp (/ 1024) <= (1000977518 / 1000000000)).
  { pose proof (exp_ineq1_le (- / 1024)) as E. rewrite exp_Ropp in E. pose proof (exp_pos (/ 1024)) as P.
    apply Rle_trans with (1024 / 1023); [|lra]. apply (Rmult_le_reg_r (/ exp (/ 1024))); [apply Rinv_0_lt_compat; auto|]. rewrite Rinv_r by lra. lra. }
  apply (exp_double _ (/ 512) _ (1001955992 / 1000000000)) in X; [|lra|lra].
  apply (exp_double _ (/ 256) _ (1003915810 / 1000000000)) in X; [|lra|lra].
  apply (exp_double _ (/ 128) _ (1007846954 / 1000000000)) in X; [|lra|lra].
  apply (exp_double _ (/ 64) _ (1015755483 / 1000000000)) in X; [|lra|lra].
  apply (exp_double _ (/ 32) _ (1031759202 / 1000000000)) in X; [|lra|lra].
  apply (exp_double _ (/ 16) _ (1064527051 / 1000000000)) in X; [|lra|lra].
  apply (exp_double _ (/ 8) _ (1133217843 / 1000000000)) in X; [|lra|lra].
  apply (exp_double _ (/ 4) _ (1284182680 / 1000000000)) in X; [|lra|lra].
  apply (exp_double _ (/ 2) _ (1649125156 / 1000000000)) in X; [|lra|lra].
  apply (exp_double _ 1 _ (2719613781 / 1000000000)) in X; [|lra|lra].
  lra.
Qed.
Lemma exp_nat k : exp (INR k) = exp 1 ^ k.
Proof.
  induction k as [|k IH]; [simpl; apply exp_0|]. rewrite S_INR, Rplus_comm, exp_plus, IH. reflexivity.
Qed.
Lemma exp_upper z k : z <= INR k -> exp z <= 272 ^ k / 100 ^ k.
Proof.
  intros Z. apply Rle_trans with (exp (INR k)); [destruct Z as [Z|Z]; [left; apply exp_increasing; auto | rewrite Z; right; reflexivity]|]. rewrite exp_nat.
  replace (272 ^ k / 100 ^ k) with ((272 / 100) ^ k); [apply pow_incr; split; [left; apply exp_pos | apply exp1_upper]|].
  unfold Rdiv. rewrite Rpow_mult_distr. f_equal. apply pow_inv.
Qed.

Definition minus_const (d : Z) (P : list (list Z)) : list (list Z) := badd P [[(- d)%Z]].
Lemma minus_const_eval d P a z : beval (minus_const d P) a z = beval P a z - IZR d.
Proof. unfold minus_const. rewrite badd_eval. cbn [beval peval]. rewrite opp_IZR. ring. Qed.

(* the denominator is at least delta, which makes the relative error at most 10^-5 up to z1 *)
Definition bound_check (i : Z) (z1 : nat) (delta : Z) : bool :=
  (10 ^ 5 * zrising 1 27 * 272 ^ Z.of_nat z1 * Z.of_nat z1 ^ Z.of_nat 55 <=? delta * zrising (i + 28) 28 * 100 ^ Z.of_nat z1)%Z && (0 <=? i)%Z && (1 <=? delta)%Z &&
  region_check i 64 60 170 55 (minus_const delta denominator).
Lemma numbers_ok f k d (z1 : nat) n : (10 ^ 5 * f * 272 ^ Z.of_nat z1 * Z.of_nat z1 ^ Z.of_nat n <=? d * k * 100 ^ Z.of_nat z1)%Z = true ->
  10 ^ 5 * IZR f * (272 ^ z1 / 100 ^ z1) * INR z1 ^ n <= IZR d * IZR k.
Proof.
  rewrite Z.leb_le. intros N. assert (HP : 0 < 100 ^ z1) by (apply pow_lt; lra).
  apply IZR_le in N. rewrite !mult_IZR in N. rewrite <- !pow_IZR, <- INR_IZR_INZ in N.
  apply (Rmult_le_reg_r (100 ^ z1)); auto. replace (10 ^ 5 * IZR f * (272 ^ z1 / 100 ^ z1) * INR z1 ^ n * 100 ^ z1) with
      (10 ^ 5 * IZR f * 272 ^ z1 * INR z1 ^ n) by (field; lra). replace (10 ^ 5) with (IZR (10 ^ 5)); [exact N|].
  replace (10 ^ 5)%Z with 100000%Z by reflexivity. simpl. ring.
Qed.
Lemma combine_ok q p t f k e y y1 d dl ez : 0 < q -> 0 < p -> 0 < t -> 0 < f -> 0 < k -> 0 < ez <= e -> 0 < y <= y1 -> q * k <= p -> t <= ez / p ->
  10 ^ 5 * f * e * y1 <= dl * k -> dl <= d -> 0 < y * (q * f * t) <= / 10 ^ 5 * d.
Proof.
  intros q0 p0 t0 f0 k0 E0 Y0 RS T N' D. split; [repeat apply Rmult_lt_0_compat; lra|].
  assert (T1 : q * t <= e / k).
  { apply Rle_trans with (q * (ez / p)); [apply Rmult_le_compat_l; lra|].
    apply (Rmult_le_reg_r (p * k)); [apply Rmult_lt_0_compat; auto|]. replace (q * (ez / p) * (p * k)) with (ez * (q * k)) by (field; lra).
    replace (e / k * (p * k)) with (e * p) by (field; lra). apply Rmult_le_compat; try lra. left. apply Rmult_lt_0_compat; auto. }
  apply Rle_trans with (y1 * (e / k * f)).
  - replace (q * f * t) with (q * t * f) by ring. apply Rmult_le_compat; try lra; [|apply Rmult_le_compat_r; lra]. left. repeat apply Rmult_lt_0_compat; lra.
  - apply (Rmult_le_reg_r (10 ^ 5 * k)); [apply Rmult_lt_0_compat; auto; apply pow_lt; lra|].
    replace (y1 * (e / k * f) * (10 ^ 5 * k)) with (10 ^ 5 * f * e * y1) by (field; lra).
    replace (/ 10 ^ 5 * d * (10 ^ 5 * k)) with (d * k) by (field; apply pow_nonzero; lra).
    eapply Rle_trans; [exact N'|]. apply Rmult_le_compat_r; lra.
Qed.
Lemma bound_ok i z1 delta a z : bound_check i z1 delta = true -> 0 < a -> IZR i < a <= IZR i + 1 -> 0 < z -> 1 <= IZR delta <= h a z 2.
Proof.
  unfold bound_check. rewrite !andb_true_iff. intros [[[N i0] d1] C] a0 A z0. apply Z.leb_le in d1. apply IZR_le in d1. split; auto.
  rewrite <- denominator_eval. assert (0 <= beval (minus_const delta denominator) a z); [|rewrite minus_const_eval in *; lra].
  apply (region_ok i 64 60 170 55); auto.
Qed.
Lemma small_ok i z1 delta a z : bound_check i z1 delta = true -> 0 < a -> IZR i < a <= IZR i + 1 -> 0 < z < INR z1 ->
  0 < h a z 2 /\ 0 < h a z 2 - h a z 1 * H a z 0 1 <= / 10 ^ 5 * h a z 2.
Proof.
  intros C a0 A [z0 Z]. pose proof (bound_ok _ _ _ _ _ C a0 A z0) as [d1 D]. unfold bound_check in C. rewrite !andb_true_iff in C. destruct C as [[[N i0] _] _]. apply Z.leb_le in i0.
  apply IZR_le in i0. split; [lra|]. rewrite (W_1 a z a0 z0). apply numbers_ok in N. rewrite <- !zrisingE in N.
  apply (combine_ok _ (rising a 56) _ _ (rising (IZR (i + 28)) 28) (272 ^ z1 / 100 ^ z1) _ (INR z1 ^ 55) _ (IZR delta) (exp z)); auto.
  - apply ph_pos; auto.
  - apply ph_pos; auto.
  - apply H_pos; auto; lia.
  - apply ph_pos; lra.
  - apply ph_pos. rewrite plus_IZR. lra.
  - split; [apply exp_pos | apply exp_upper; lra].
  - split; [apply pow_lt; auto | apply pow_incr; lra].
  - apply (rising_above a (IZR (i + 28)) 28 28); [lra | rewrite plus_IZR; lra | | left; apply ph_pos; auto]. rewrite plus_IZR.
    replace (INR 28) with 28 by (rewrite INR_IZR_INZ; reflexivity). lra.
  - apply tail_bound; auto.
Qed.
Lemma large_ok i z1 delta a z : bound_check i z1 delta = true -> 0 < a -> IZR i < a <= IZR i + 1 -> 0 < z ->
  0 < h a z 2 /\ 0 < h a z 2 - h a z 1 * H a z 0 1.
Proof.
  intros C a0 A z0. pose proof (bound_ok _ _ _ _ _ C a0 A z0) as D.
  split; [lra|]. rewrite (W_1 a z a0 z0). pose proof (H_pos a a0 z z0 27 56 ltac:(lia)). pose proof (ph_pos a a0 28). pose proof (ph_pos 1 ltac:(lra) 27).
  apply Rmult_lt_0_compat; [apply pow_lt; auto | apply Rmult_lt_0_compat; [apply Rmult_lt_0_compat|]; assumption].
Qed.
Definition cut (i : nat) : nat := nth i [12; 15; 17; 19; 21; 23; 25; 27; 28; 30]%nat 0%nat.
Definition delta (i : nat) : Z :=
  (10 ^ 5 * zrising 1 27 * 272 ^ Z.of_nat (cut i) * Z.of_nat (cut i) ^ 55 / (zrising (Z.of_nat i + 28) 28 * 100 ^ Z.of_nat (cut i)) + 1)%Z.
Lemma checked_0 : bound_check 0 (cut 0) (delta 0) = true. Proof. vm_cast_no_check (eq_refl true). Qed.
Lemma checked_1 : bound_check 1 (cut 1) (delta 1) = true. Proof. vm_cast_no_check (eq_refl true). Qed.
Lemma checked_2 : bound_check 2 (cut 2) (delta 2) = true. Proof. vm_cast_no_check (eq_refl true). Qed.
Lemma checked_3 : bound_check 3 (cut 3) (delta 3) = true. Proof. vm_cast_no_check (eq_refl true). Qed.
Lemma checked_4 : bound_check 4 (cut 4) (delta 4) = true. Proof. vm_cast_no_check (eq_refl true). Qed.
Lemma checked_5 : bound_check 5 (cut 5) (delta 5) = true. Proof. vm_cast_no_check (eq_refl true). Qed.
Lemma checked_6 : bound_check 6 (cut 6) (delta 6) = true. Proof. vm_cast_no_check (eq_refl true). Qed.
Lemma checked_7 : bound_check 7 (cut 7) (delta 7) = true. Proof. vm_cast_no_check (eq_refl true). Qed.
Lemma checked_8 : bound_check 8 (cut 8) (delta 8) = true. Proof. vm_cast_no_check (eq_refl true). Qed.
Lemma checked_9 : bound_check 9 (cut 9) (delta 9) = true. Proof. vm_cast_no_check (eq_refl true). Qed.
Lemma checked i : (i < 10)%nat -> bound_check (Z.of_nat i) (cut i) (delta i) = true.
Proof.
  intros I.
  destruct i as [|i]; [exact checked_0|].
  destruct i as [|i]; [exact checked_1|].
  destruct i as [|i]; [exact checked_2|].
  destruct i as [|i]; [exact checked_3|].
  destruct i as [|i]; [exact checked_4|].
  destruct i as [|i]; [exact checked_5|].
  destruct i as [|i]; [exact checked_6|].
  destruct i as [|i]; [exact checked_7|].
  destruct i as [|i]; [exact checked_8|].
  destruct i as [|i]; [exact checked_9|].
  exfalso. lia.
Qed.
Lemma both_ok a z i : (i < 10)%nat -> 0 < a -> INR i < a <= INR i + 1 -> 0 < z ->
  0 < h a z 2 /\ 0 < h a z 2 - h a z 1 * H a z 0 1 /\ (z < INR (cut i) -> h a z 2 - h a z 1 * H a z 0 1 <= / 10 ^ 5 * h a z 2).
Proof.
  intros I a0 A z0. pose proof (checked i I) as C. rewrite INR_IZR_INZ in A. revert C. generalize (delta i) (cut i). intros d c C.
  destruct (large_ok _ _ _ a z C a0 A z0) as [X Y]. split; [|split]; auto. intros L. apply (small_ok _ _ _ a z C a0 A (conj z0 L)).
Qed.
Lemma quotient_ok (N D s : R) : 0 < s -> 0 < D -> 0 < D - N * s -> N / D < / s.
Proof.
  intros s0 D0 S0. apply (Rmult_lt_reg_r (D * s)); [apply Rmult_lt_0_compat; auto|]. replace (N / D * (D * s)) with (N * s) by (field; lra).
  replace (/ s * (D * s)) with D by (field; lra). lra.
Qed.
Lemma quotient_close (N D s : R) : 0 < s -> 0 < D -> D - N * s <= / 10 ^ 5 * D -> (1 - / 10 ^ 5) * / s <= N / D.
Proof.
  intros s0 D0 SB. apply (Rmult_le_reg_r (D * s)); [apply Rmult_lt_0_compat; auto|]. replace (N / D * (D * s)) with (N * s) by (field; lra).
  replace ((1 - / 10 ^ 5) * / s * (D * s)) with ((1 - / 10 ^ 5) * D) by (field; lra). lra.
Qed.
Theorem fraction_sandwich a z (i : nat) : (i < 10)%nat -> 0 < a -> INR i < a <= INR i + 1 -> 0 < z ->
  exists B, continuous_fraction_rec (XFin a) (XFin z) 54 = XFin B /\ B < / H a z 0 1 /\ (z < INR (cut i) -> (1 - / 10 ^ 5) * / H a z 0 1 <= B).
Proof.
  intros I a0 A z0. destruct (both_ok a z i I a0 A z0) as [D0 [S0 SB]]. exists (h a z 1 / h a z 2).
  split; [apply fraction_quotient; auto; apply Rgt_not_eq; exact D0|].
  assert (s0 : 0 < H a z 0 1) by (apply H_pos; auto).
  split; [apply quotient_ok; assumption | intros L; apply quotient_close; [assumption | assumption | exact (SB L)]].
Qed.

(* incomplete_gamma_continuous_fraction over its whole range. *)
From Coq Require Import Reals ZArith List Bool Lra Lia.
From Coquelicot Require Import Coquelicot.
From Verif Require Import Base ExtRealModel ExtRealProofs DistanceModel DistanceProofs RadialModel ChiSquaredModel ChiSquaredSpec
  IncompleteGammaProofs QuadratureProofs GammaExample FractionBound GammaTail.
Import ListNotations.
Local Open Scope R_scope.

Lemma complement_mono a g x y : 0 < a -> is_gamma a g -> 0 < x <= y -> 1 - lower_gamma a y / g <= 1 - lower_gamma a x / g.
Proof.
  intros a0 G X. pose proof (gamma_pos a g a0 G) as g0. pose proof (mass_increasing a x y a0 ltac:(lra) ltac:(lra)) as M.
  assert (lower_gamma a x / g <= lower_gamma a y / g); [|lra]. apply Rmult_le_compat_r; auto. left. apply Rinv_0_lt_compat; auto.
Qed.
Lemma gamma_small a g : 0 < a -> is_gamma a g -> exp (- (1)) / a <= g.
Proof.
  intros a0 G. apply Rle_trans with (lower_gamma a 1); [|apply gamma_above; auto; lra]. unfold lower_gamma. rewrite ln_1.
  replace (a * 0 - 1) with (- (1)) by ring. apply Rmult_le_compat_l; [left; apply exp_pos | apply series_first; auto; lra].
Qed.
Lemma complement_zero a g : 0 < a <= 1 -> is_gamma a g -> 1 - lower_gamma a 12 / g <= / (27 / 10) ^ 11.
Proof.
  intros A G. pose proof (gamma_pos a g ltac:(lra) G) as g0. pose proof (gamma_small a g ltac:(lra) G) as L.
  pose proof (tail_two a g 12 A ltac:(lra) G) as T. replace (1 - lower_gamma a 12 / g) with ((g - lower_gamma a 12) / g) by (field; lra).
  pose proof (exp_pos (- (1))) as e1. assert (L' : exp (- (1)) <= g).
  { eapply Rle_trans; [|exact L]. apply (Rmult_le_reg_r a); [lra|]. replace (exp (- (1)) / a * a) with (exp (- (1))) by (field; lra). nra. }
  apply (Rmult_le_reg_r g); auto. replace ((g - lower_gamma a 12) / g * g) with (g - lower_gamma a 12) by (field; lra).
  eapply Rle_trans; [exact T|]. assert (E : exp (a * ln 12 - 12) <= 12 * (exp (- (11)) * exp (- (1)))).
  { rewrite <- exp_plus. replace (- (11) + - (1)) with (- (12)) by ring. replace (12 * exp (- (12))) with (exp (ln 12 + - (12))) by (rewrite exp_plus, exp_ln by lra; reflexivity).
    assert (0 < ln 12) by (rewrite <- ln_1; apply ln_increasing; lra). assert (Q : a * ln 12 - 12 <= ln 12 + - (12)) by nra.
    destruct Q as [Q|Q]; [left; apply exp_increasing; auto | rewrite Q; lra]. }
  apply Rle_trans with (exp (- (11)) * exp (- (1))); [lra|]. pose proof (exp_neg 11 (- (11)) ltac:(simpl; lra)) as N.
  pose proof (exp_pos (- (11))). apply Rmult_le_compat; lra.
Qed.
Lemma exp_m1 : / 272 * 100 <= exp (- (1)) <= 1.
Proof.
  pose proof exp1_upper as E. pose proof (exp_pos 1) as P. split; [|apply Rle_trans with (exp 0); [left; apply exp_increasing; lra | rewrite exp_0; lra]].
  rewrite exp_Ropp. replace (/ 272 * 100) with (/ (272 / 100)) by field. apply Rinv_le_contravar; lra.
Qed.
Definition gap : R := 27 / 10 ^ 6.
Lemma div_pow x y n : y <> 0 -> (x / y) ^ n = x ^ n / y ^ n.
Proof. intros y0. unfold Rdiv. rewrite Rpow_mult_distr. f_equal. apply pow_inv. Qed.
Definition upper_part (i c m : Z) : Z := (10 ^ 6 * (c ^ (i + 1) * 10 ^ m * (i + 1) * ((i + 1) * (i + 2) * (i + 3))))%Z.
Definition lower_part (i c m : Z) : Z :=
  (27 * ((i + 1) ^ (i + 1) * 27 ^ m * (c - i) * ((i + 1) * (i + 2) * (i + 3) + i * (i + 2) * (i + 3) + i * i * (i + 3) + i * i * i)))%Z.
Lemma bound_by_numbers (i c m : nat) : (i < c)%nat -> (upper_part (Z.of_nat i) (Z.of_nat c) (Z.of_nat m) <= lower_part (Z.of_nat i) (Z.of_nat c) (Z.of_nat m))%Z ->
  (INR c / (INR i + 1)) ^ S i * / (27 / 10) ^ m * ((INR i + 1) / ((INR c - INR i) * sigma (INR i))) <= gap.
Proof.
  intros L N. unfold upper_part, lower_part in N. apply IZR_le in N. replace (Z.of_nat i + 1)%Z with (Z.of_nat (S i)) in N by lia.
  repeat rewrite ?mult_IZR, ?plus_IZR, ?minus_IZR in N. rewrite <- !pow_IZR, <- !INR_IZR_INZ, S_INR in N.
  pose proof (pos_INR i) as i0. apply lt_INR in L. rewrite !div_pow by lra. unfold sigma, gap.
  assert (p1 : 0 < (INR i + 1) ^ S i) by (apply pow_lt; lra). assert (p2 : 0 < 27 ^ m) by (apply pow_lt; lra). assert (p3 : 0 < 10 ^ m) by (apply pow_lt; lra).
  set (x := (INR i + 1) ^ S i) in *. set (y := 27 ^ m) in *. set (w := 10 ^ m) in *. set (v := INR c ^ S i) in *. clearbody x y w v.
  set (r := INR i) in *. set (d := INR c) in *. clearbody r d.
  assert (q : 0 < (r + 1) * (r + 2) * (r + 3) + r * (r + 2) * (r + 3) + r * r * (r + 3) + r * r * r).
  { assert (0 < (r + 1) * (r + 2) * (r + 3)) by (repeat apply Rmult_lt_0_compat; lra). assert (0 <= r * (r + 2) * (r + 3)) by (repeat apply Rmult_le_pos; lra).
    assert (0 <= r * r * (r + 3)) by (repeat apply Rmult_le_pos; lra). assert (0 <= r * r * r) by (repeat apply Rmult_le_pos; lra). lra. }
  set (t := (r + 1) * (r + 2) * (r + 3) + r * (r + 2) * (r + 3) + r * r * (r + 3) + r * r * r) in *.
  assert (S : 1 + r / (r + 1) + r / (r + 1) * (r / (r + 2)) + r / (r + 1) * (r / (r + 2)) * (r / (r + 3)) = t / ((r + 1) * (r + 2) * (r + 3))) by (unfold t; field; lra).
  rewrite S. clear S. clearbody t. replace (/ (y / w)) with (w / y) by (field; lra).
  replace (v / x * (w / y) * ((r + 1) / ((d - r) * (t / ((r + 1) * (r + 2) * (r + 3)))))) with (v * w * (r + 1) * ((r + 1) * (r + 2) * (r + 3)) / (x * y * (d - r) * t)) by (field; lra).
  assert (Z0 : 0 < x * y * (d - r) * t) by (repeat apply Rmult_lt_0_compat; lra).
  apply (Rmult_le_reg_r (x * y * (d - r) * t)); auto. unfold Rdiv at 1. rewrite Rmult_assoc, Rinv_l, Rmult_1_r by lra. simpl in *. lra.
Qed.
Lemma complement_case (i : nat) : (1 <= i < 10)%nat ->
  (INR (cut i) / (INR i + 1)) ^ S i * / (27 / 10) ^ (cut i - S i) * ((INR i + 1) / ((INR (cut i) - INR i) * sigma (INR i))) <= gap.
Proof.
  intros I. assert (C : (i = 1 \/ i = 2 \/ i = 3 \/ i = 4 \/ i = 5 \/ i = 6 \/ i = 7 \/ i = 8 \/ i = 9)%nat) by lia.
  repeat destruct C as [C|C]; subst i; (apply bound_by_numbers; [cbn; lia | vm_compute; discriminate]).
Qed.
Lemma complement_all (i : nat) a g z : (i < 10)%nat -> 0 < a -> INR i < a <= INR i + 1 -> is_gamma a g -> INR (cut i) <= z -> 1 - lower_gamma a z / g <= gap.
Proof.
  intros I a0 A G Z. assert (c0 : (12 <= cut i /\ i < cut i)%nat).
  { assert (C : (i = 0 \/ i = 1 \/ i = 2 \/ i = 3 \/ i = 4 \/ i = 5 \/ i = 6 \/ i = 7 \/ i = 8 \/ i = 9)%nat) by lia.
    repeat destruct C as [C|C]; subst i; cbn; lia. }
  assert (c1 : 0 < INR (cut i)) by (apply lt_0_INR; lia). eapply Rle_trans; [apply (complement_mono a g (INR (cut i)) z a0 G); lra|].
  destruct (Nat.eq_dec i 0) as [->|N].
  - replace (INR (cut 0)) with 12 by (unfold cut; simpl; ring). eapply Rle_trans; [apply complement_zero; auto; simpl in A; lra|].
    unfold gap. simpl. lra.
  - eapply Rle_trans; [apply (complement_cut i (cut i) (cut i - S i)); auto; lia|]. apply complement_case. lia.
Qed.
Lemma interval_of a : 0 < a < 10 -> exists i : nat, (i < 10)%nat /\ INR i < a <= INR i + 1.
Proof.
  intros A.
  destruct (Rle_dec a 1); [exists 0%nat; simpl; split; [lia | lra]|]. destruct (Rle_dec a 2); [exists 1%nat; simpl; split; [lia | lra]|].
  destruct (Rle_dec a 3); [exists 2%nat; simpl; split; [lia | lra]|]. destruct (Rle_dec a 4); [exists 3%nat; simpl; split; [lia | lra]|].
  destruct (Rle_dec a 5); [exists 4%nat; simpl; split; [lia | lra]|]. destruct (Rle_dec a 6); [exists 5%nat; simpl; split; [lia | lra]|].
  destruct (Rle_dec a 7); [exists 6%nat; simpl; split; [lia | lra]|]. destruct (Rle_dec a 8); [exists 7%nat; simpl; split; [lia | lra]|].
  destruct (Rle_dec a 9); [exists 8%nat; simpl; split; [lia | lra]|]. exists 9%nat; simpl; split; [lia | lra].
Qed.
(* where the code answers 1: either the series is moderate, or nothing is left above z *)
Lemma threshold_case a g z : 0 < a < 10 -> epsilon <= z -> is_gamma a g ->
  lower_gamma_series a z <= 2 * 10 ^ 7 \/ 1 - lower_gamma a z / g <= gap.
Proof.
  intros A ze G. assert (e0 : 0 < epsilon) by (unfold epsilon; apply Rinv_0_lt_compat, pow_lt; lra). assert (z0 : 0 < z) by lra.
  pose proof (gamma_pos a g ltac:(lra) G) as g0. destruct (Rle_dec (lower_gamma_series a z) (2 * 10 ^ 7)) as [?|S]; [auto|]. right. apply Rnot_le_lt in S.
  destruct (series_bound a z ltac:(lra) z0) as [s0 SB]. set (s := lower_gamma_series a z) in *.
  pose proof (gamma_above a g z G z0) as GA. unfold lower_gamma in GA. fold s in GA. pose proof (exp_pos (a * ln z - z)) as n0.
  assert (NS : exp (a * ln z - z) <= / (2 * 10 ^ 7) * g).
  { apply (Rmult_le_reg_r (2 * 10 ^ 7)); [lra|]. replace (/ (2 * 10 ^ 7) * g * (2 * 10 ^ 7)) with g by (field; lra).
    apply Rle_trans with (exp (a * ln z - z) * s); auto. apply Rmult_le_compat_l; lra. }
  replace (1 - lower_gamma a z / g) with ((g - lower_gamma a z) / g) by (field; lra).
  assert (Small : g - lower_gamma a z <= exp (a * ln z - z) -> (g - lower_gamma a z) / g <= gap).
  { intros T. apply (Rmult_le_reg_r g); auto. replace ((g - lower_gamma a z) / g * g) with (g - lower_gamma a z) by (field; lra). unfold gap. simpl in *. lra. }
  assert (DI : forall x y, 0 <= x -> 1 <= y -> x / y <= x).
  { intros x y x0 y1. apply (Rmult_le_reg_r y); [lra|]. replace (x / y * y) with x by (field; lra). nra. }
  destruct (Rle_dec 1 a) as [a1|a1].
  - destruct (Rle_dec a z) as [az|az].
    + apply Small. eapply Rle_trans; [apply tail_one; auto; lra|]. apply DI; lra.
    + exfalso. assert (exp z <= 272 ^ 10 / 100 ^ 10) by (apply exp_upper; simpl; lra). pose proof (exp_pos z).
      pose proof (DI (exp z) a ltac:(lra) a1). simpl in *. lra.
  - destruct (Rle_dec 1 z) as [z1|z1].
    + apply Small. eapply Rle_trans; [apply tail_two; auto; lra|]. apply DI; lra.
    + assert (E1 : exp z <= exp 1) by (left; apply exp_increasing; lra). pose proof exp1_upper as E2.
      assert (AS : a <= 136 / 10 ^ 9).
      { apply (Rmult_le_reg_r (2 * 10 ^ 7)); [lra|]. apply Rle_trans with (a * s); [apply Rmult_le_compat_l; lra|].
        apply Rle_trans with (a * (exp z / a)); [apply Rmult_le_compat_l; lra|]. replace (a * (exp z / a)) with (exp z) by (field; lra). simpl. lra. }
      assert (LZ : - ln z <= 52).
      { assert (ln epsilon <= ln z) by (apply ln_le; auto). unfold epsilon in H. rewrite ln_Rinv, ln_pow in H by (try apply pow_lt; lra).
        assert (ln 2 <= 1). { rewrite <- (ln_exp 1). apply ln_le; [lra|]. pose proof (exp_ineq1_le 1). lra. }
        assert (I52 : INR 52 = 52) by (rewrite INR_IZR_INZ; reflexivity). rewrite I52 in H. lra. }
      pose proof (mass_below_one a z ltac:(lra) ltac:(lra)) as M. pose proof (tail_two a g 1 ltac:(lra) ltac:(lra) G) as T. rewrite ln_1 in T.
      replace (a * 0 - 1) with (- (1)) in T by ring. replace (exp (- (1)) / 1) with (exp (- (1))) in T by field.
      pose proof (gamma_small a g ltac:(lra) G) as L. pose proof (exp_pos (- (1))) as e1.
      pose proof exp_m1 as [K K2].
      apply (Rmult_le_reg_r g); auto. replace ((g - lower_gamma a z) / g * g) with (g - lower_gamma a z) by (field; lra).
      apply Rle_trans with (exp (- (1)) + 52); [lra|]. apply Rle_trans with (gap * (exp (- (1)) / a)); [|apply Rmult_le_compat_l; auto; unfold gap; simpl; lra].
      apply (Rmult_le_reg_r a); [lra|]. replace (gap * (exp (- (1)) / a) * a) with (gap * exp (- (1))) by (field; lra).
      apply Rle_trans with ((exp (- (1)) + 52) * (136 / 10 ^ 9)); [apply Rmult_le_compat_l; lra|]. unfold gap. simpl. lra.
Qed.
Theorem fraction_close tgamma a z g : 0 < a < 10 -> epsilon <= z -> is_gamma a g -> tgamma (XFin a) = XFin g ->
  exists p, incomplete_gamma_continuous_fraction tgamma (XFin a) (XFin z) = XFin p /\ lower_gamma a z / g <= p <= lower_gamma a z / g + 3 / 10 ^ 5.
Proof.
  intros A ze G tg. assert (e0 : 0 < epsilon) by (unfold epsilon; apply Rinv_0_lt_compat, pow_lt; lra). assert (z0 : 0 < z) by lra. assert (a0 : 0 < a) by lra.
  pose proof (gamma_pos a g a0 G) as g0. destruct (interval_of a A) as [i [I AI]].
  destruct (fraction_sandwich a z i I a0 AI z0) as [B [E [U L]]]. rewrite <- series_H in U, L. destruct (series_bound a z a0 z0) as [s0 _].
  pose proof (threshold_case a g z A ze G) as TC. pose proof (complement_all i a g z I a0 AI G) as CA. pose proof (gamma_above a g z G z0) as GA.
  destruct (fraction_cases tgamma a z g z0 g0 tg) as [n0 C]. set (n := exp (a * ln z - z) / g) in *.
  assert (PE : lower_gamma a z / g = n * lower_gamma_series a z) by (unfold lower_gamma, n; field; lra).
  assert (P1 : lower_gamma a z / g <= 1).
  { apply (Rmult_le_reg_r g); auto. replace (lower_gamma a z / g * g) with (lower_gamma a z) by (field; lra). lra. }
  rewrite PE in *. set (s := lower_gamma_series a z) in *. clearbody s n. unfold gap in *.
  set (F := continuous_fraction_rec (XFin a) (XFin z) 54) in *. set (V := incomplete_gamma_continuous_fraction tgamma (XFin a) (XFin z)) in *. clearbody F V.
  assert (UB : B * s < 1).
  { apply (Rmult_lt_compat_r s) in U; auto. rewrite Rinv_l in U by lra. exact U. }
  assert (LB : z < INR (cut i) -> 1 - / 10 ^ 5 <= B * s).
  { intros Q. specialize (L Q). apply (Rmult_le_compat_r s) in L; [|lra]. rewrite Rmult_assoc, Rinv_l in L by lra. lra. }
  destruct C as [[E1 K]|[[B' [E' [K E1]]]|[E' _]]]; [| |rewrite E in E'; discriminate].
  - exists 1. split; auto. split; auto. assert (K' : B < n + / 10 ^ 12) by (destruct (K B E); simpl in *; lra).
    destruct (Rlt_dec z (INR (cut i))) as [Q|Q]; [|specialize (CA ltac:(lra)); simpl in *; lra]. specialize (LB Q).
    destruct TC as [TC|TC]; [|simpl in *; lra]. assert (B * s <= (n + / 10 ^ 12) * s) by (apply Rmult_le_compat_r; lra).
    assert (/ 10 ^ 12 * s <= / 10 ^ 12 * (2 * 10 ^ 7)) by (apply Rmult_le_compat_l; simpl; lra). simpl in *. lra.
  - rewrite E in E'. injection E' as <-. assert (t : 0 < / 10 ^ 12) by (simpl; lra). assert (B0 : 0 < B) by lra. exists (n / B). split; auto.
    assert (PB : 0 < n / B <= 1).
    { split; [apply Rdiv_lt_0_compat; auto|]. apply (Rmult_le_reg_r B); auto. replace (n / B * B) with n by (field; lra). lra. }
    assert (NS : n * s = n / B * (B * s)) by (field; lra). rewrite NS in *. set (p := n / B) in *. clearbody p. split; [nra|].
    destruct (Rlt_dec z (INR (cut i))) as [Q|Q]; [|specialize (CA ltac:(lra)); simpl in *; lra]. specialize (LB Q).
    assert (p * (1 - B * s) <= 1 * / 10 ^ 5) by (apply Rmult_le_compat; lra). simpl in *. lra.
Qed.

(* ---- the values the code does not compute ---- *)
Lemma epsilon_bounds : 0 < epsilon <= / 10 ^ 15.
Proof.
  unfold epsilon. split; [apply Rinv_0_lt_compat, pow_lt; lra|]. apply Rinv_le_contravar; [apply pow_lt; lra|].
  rewrite !pow_IZR. apply IZR_le. vm_compute. discriminate.
Qed.
Lemma log_epsilon z : epsilon <= z -> - ln z <= 52.
Proof.
  intros ze. pose proof epsilon_bounds as [e0 _]. assert (L : ln epsilon <= ln z) by (apply ln_le; auto). unfold epsilon in L. rewrite ln_Rinv, ln_pow in L by (try apply pow_lt; lra).
  assert (ln 2 <= 1). { rewrite <- (ln_exp 1). apply ln_le; [lra|]. pose proof (exp_ineq1_le 1). lra. }
  assert (I52 : INR 52 = 52) by (rewrite INR_IZR_INZ; reflexivity). rewrite I52 in L. lra.
Qed.
(* shapes below epsilon count as 0 *)
Lemma tiny_shape a z g : 0 < a < epsilon -> epsilon <= z -> is_gamma a g -> lower_gamma a z / g <= 1 <= lower_gamma a z / g + 3 / 10 ^ 5.
Proof.
  intros A ze G. pose proof epsilon_bounds as [e0 e1]. assert (a1 : a <= / 10 ^ 15) by lra. assert (a2 : a <= 1) by (simpl in *; lra).
  assert (z0 : 0 < z) by lra. pose proof (gamma_pos a g ltac:(lra) G) as g0. pose proof (gamma_above a g z G z0) as GA.
  split; [apply (Rmult_le_reg_r g); auto; replace (lower_gamma a z / g * g) with (lower_gamma a z) by (field; lra); lra|].
  assert (Q : 1 - lower_gamma a z / g <= 3 / 10 ^ 5); [|lra].
  pose proof (log_epsilon z ze) as LZ. pose proof (gamma_small a g ltac:(lra) G) as L. pose proof (exp_pos (- (1))) as x1.
    pose proof exp_m1 as [K K2].
  assert (T : g - lower_gamma a z <= 1 + 52).
  { pose proof (tail_two a g 1 ltac:(lra) ltac:(lra) G) as T. rewrite ln_1 in T. replace (a * 0 - 1) with (- (1)) in T by ring. replace (exp (- (1)) / 1) with (exp (- (1))) in T by field.
    destruct (Rle_dec z 1) as [z1|z1]; [pose proof (mass_below_one a z ltac:(lra) ltac:(lra)); lra|].
    pose proof (mass_increasing a 1 z ltac:(lra) ltac:(lra) ltac:(lra)). lra. }
  replace (1 - lower_gamma a z / g) with ((g - lower_gamma a z) / g) by (field; lra).
  apply (Rmult_le_reg_r g); auto. replace ((g - lower_gamma a z) / g * g) with (g - lower_gamma a z) by (field; lra).
  apply Rle_trans with (3 / 10 ^ 5 * (exp (- (1)) / a)); [|apply Rmult_le_compat_l; auto; simpl; lra].
  apply (Rmult_le_reg_r a); [lra|]. replace (3 / 10 ^ 5 * (exp (- (1)) / a) * a) with (3 / 10 ^ 5 * exp (- (1))) by (field; lra).
  apply Rle_trans with ((1 + 52) * / 10 ^ 15); [apply Rmult_le_compat; lra|]. simpl. lra.
Qed.
(* arguments below epsilon: nothing, from half a unit of shape on *)
Lemma near_zero a z g : / 2 <= a -> 0 < z < epsilon -> is_gamma a g -> 0 < lower_gamma a z / g <= / 10 ^ 7.
Proof.
  intros A Z G. pose proof epsilon_bounds as [e0 e1]. pose proof (gamma_pos a g ltac:(lra) G) as g0.
  destruct (lower_gamma_bound a z ltac:(lra) ltac:(lra)) as [P B]. split; [apply Rdiv_lt_0_compat; auto|].
  apply (Rmult_le_reg_r g); auto. replace (lower_gamma a z / g * g) with (lower_gamma a z) by (field; lra).
    pose proof exp_m1 as [K K2].
  eapply Rle_trans; [exact B|]. apply Rle_trans with (/ 10 ^ 7 * (exp (- (1)) / a)); [|apply Rmult_le_compat_l; [simpl; lra | apply gamma_small; auto; lra]].
  unfold Rdiv. rewrite <- Rmult_assoc. apply Rmult_le_compat_r; [left; apply Rinv_0_lt_compat; lra|].
  (* z^a <= sqrt z *)
  apply Rle_trans with (sqrt z).
  - rewrite <- (exp_ln (sqrt z)) by (apply sqrt_lt_R0; lra). rewrite <- (sqrt_sqrt z) at 1 by lra.
    assert (L : ln (sqrt z) < 0). { rewrite <- ln_1. apply ln_increasing; [apply sqrt_lt_R0; lra|]. rewrite <- sqrt_1. apply sqrt_lt_1; simpl in *; lra. }
    rewrite ln_mult by (apply sqrt_lt_R0; lra). assert (Q : a * (ln (sqrt z) + ln (sqrt z)) <= ln (sqrt z)) by nra.
    destruct Q as [Q|Q]; [left; apply exp_increasing; auto | rewrite Q; lra].
  - apply Rle_trans with (sqrt ((/ (3 * 10 ^ 7)) * (/ (3 * 10 ^ 7)))).
    + apply sqrt_le_1_alt. simpl in *. lra.
    + rewrite sqrt_square by (simpl; lra). simpl. lra.
Qed.
(* but with a small shape most of the mass is there *)
Lemma mass_near_zero x g : epsilon <= x < 2 * epsilon -> is_gamma (/ 100 / 2) g -> 7 / 10 <= lower_gamma (/ 100 / 2) (x / 2) / g.
Proof.
  intros X G. pose proof epsilon_bounds as [e0 e1]. set (a := / 100 / 2) in *. assert (A : a = 1 / 200) by (unfold a; lra). clearbody a. subst a. set (a := 1 / 200) in *.
  assert (A : a = 1 / 200) by reflexivity. clearbody a. pose proof (gamma_pos a g ltac:(lra) G) as g0.
  assert (LZ : - 53 <= ln (x / 2)).
  { pose proof (log_epsilon x ltac:(lra)). unfold Rdiv. rewrite ln_mult, ln_Rinv by lra.
    assert (ln 2 <= 1). { rewrite <- (ln_exp 1). apply ln_le; [lra|]. pose proof (exp_ineq1_le 1). lra. } lra. }
  assert (GU : g <= / a + 1).
  { pose proof (tail_two a g 1 ltac:(lra) ltac:(lra) G) as T. rewrite ln_1 in T. replace (a * 0 - 1) with (- (1)) in T by ring. replace (exp (- (1)) / 1) with (exp (- (1))) in T by field.
    destruct (lower_gamma_bound a 1 ltac:(lra) ltac:(lra)) as [_ B]. rewrite ln_1, Rmult_0_r, exp_0 in B.
    pose proof exp_m1. unfold Rdiv in B. lra. }
  apply (Rmult_le_reg_r g); auto. replace (lower_gamma a (x / 2) / g * g) with (lower_gamma a (x / 2)) by (field; lra).
  unfold lower_gamma. pose proof (series_first a (x / 2) ltac:(lra) ltac:(lra)) as S.
  pose proof (exp_ineq1_le (a * ln (x / 2) - x / 2)) as E. rewrite A in *. simpl in e1.
  apply Rle_trans with (exp (1 / 200 * ln (x / 2) - x / 2) * / (1 / 200)); [|apply Rmult_le_compat_l; [left; apply exp_pos | auto]]. lra.
Qed.

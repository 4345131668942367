(* The continued fraction of stats/incomplete_gamma.hpp against the series of the incomplete gamma function. *)
From Coq Require Import Reals List Bool Lra Lia.
From Coquelicot Require Import Coquelicot.
From Verif Require Import Base ExtRealModel ExtRealProofs DistanceModel DistanceProofs RadialModel ChiSquaredModel ChiSquaredSpec.
Local Open Scope R_scope.

(* ---- binomials ---- *)
Fixpoint bn (m k : nat) : R := match m with O => 1 | S m => bn m k * (INR k + INR m + 1) / (INR m + 1) end.
Lemma INR_ge0 n : 0 <= INR n. Proof. apply pos_INR. Qed.
Lemma bn_pos m k : 0 < bn m k.
Proof.
  induction m as [|m IH]; simpl bn; [lra|]. pose proof (INR_ge0 k). pose proof (INR_ge0 m).
  apply Rdiv_lt_0_compat; [apply Rmult_lt_0_compat; lra | lra].
Qed.
Lemma bn_k m k : (INR k + 1) * bn m (S k) = (INR k + INR m + 1) * bn m k.
Proof.
  induction m as [|m IH]; cbn [bn]; [simpl INR; ring|]. pose proof (INR_ge0 k). pose proof (INR_ge0 m). rewrite !S_INR.
  replace ((INR k + 1) * (bn m (S k) * (INR k + 1 + INR m + 1) / (INR m + 1))) with
    (((INR k + 1) * bn m (S k)) * (INR k + 1 + INR m + 1) / (INR m + 1)) by (field; lra).
  rewrite IH. field. lra.
Qed.
Lemma bn_m m k : (INR m + 1) * bn (S m) k = (INR k + INR m + 1) * bn m k.
Proof. cbn [bn]. pose proof (INR_ge0 m). field. lra. Qed.
Lemma bn_both m k : (INR k + 1) * bn m (S k) = (INR m + 1) * bn (S m) k.
Proof. rewrite bn_k, bn_m. reflexivity. Qed.
Lemma bn_pascal m k : bn (S m) (S k) = bn m (S k) + bn (S m) k.
Proof.
  pose proof (INR_ge0 m). apply (Rmult_eq_reg_l (INR m + 1)); [|lra].
  rewrite Rmult_plus_distr_l, <- (bn_both m k), (bn_m m (S k)), S_INR. ring.
Qed.

Section Gamma.
Variable a : R.
Hypothesis a0 : 0 < a.
Notation ph := (rising a).
Lemma ph_pos n : 0 < ph n.
Proof. induction n as [|n IH]; cbn [rising]; [lra|]. pose proof (INR_ge0 n). apply Rmult_lt_0_compat; lra. Qed.
Lemma ph_S n : ph (S n) = ph n * (a + INR n). Proof. reflexivity. Qed.
Lemma ph_fact k : a * INR (fact k) <= ph (S k).
Proof.
  induction k as [|k IH]; [cbn [rising]; simpl; lra|].
  change (ph (S (S k))) with (ph (S k) * (a + INR (S k))). rewrite fact_simpl, mult_INR.
  pose proof (INR_ge0 (S k)). pose proof (INR_fact_lt_0 k). assert (0 < INR (S k)) by (apply lt_0_INR; lia).
  apply Rle_trans with (ph (S k) * INR (S k)); [|apply Rmult_le_compat_l; [apply Rlt_le, ph_pos | lra]].
  replace (a * (INR (S k) * INR (fact k))) with (a * INR (fact k) * INR (S k)) by ring. apply Rmult_le_compat_r; lra.
Qed.
Lemma ph_grow k n : ph (S k) <= ph (S k + n).
Proof.
  induction n as [|n IH]; [rewrite Nat.add_0_r; lra|]. rewrite Nat.add_succ_r, (ph_S (S k + n)).
  assert (1 <= INR (S k + n)) by (change 1 with (INR 1); apply le_INR; lia). pose proof (ph_pos (S k + n)).
  replace (ph (S k)) with (ph (S k) * 1) by ring. apply Rle_trans with (ph (S k + n) * 1); [lra|]. apply Rmult_le_compat_l; lra.
Qed.
Lemma bn_ph m k n : bn m k * INR (fact m) * ph (S k + n) <= ph (S k + n + m).
Proof.
  induction m as [|m IH]; [rewrite Nat.add_0_r; simpl; lra|]. rewrite Nat.add_succ_r, (ph_S (S k + n + m)).
  rewrite fact_simpl, mult_INR, S_INR.
  replace (bn (S m) k * ((INR m + 1) * INR (fact m)) * ph (S k + n)) with
    (((INR m + 1) * bn (S m) k) * INR (fact m) * ph (S k + n)) by ring.
  rewrite bn_m.
  replace ((INR k + INR m + 1) * bn m k * INR (fact m) * ph (S k + n)) with
    ((bn m k * INR (fact m) * ph (S k + n)) * (INR k + INR m + 1)) by ring.
  pose proof (INR_ge0 m). pose proof (INR_ge0 k).
  apply Rmult_le_compat; auto; [|lra|].
  - apply Rmult_le_pos; [|apply Rlt_le, ph_pos]. apply Rmult_le_pos; [apply Rlt_le, bn_pos | apply Rlt_le, INR_fact_lt_0].
  - rewrite !plus_INR, S_INR. pose proof (INR_ge0 n). lra.
Qed.

(* ---- the series ---- *)
Variable z : R.
Hypothesis z0 : 0 < z.
(* coefficients: binomial over rising factorial *)
Definition hc (m n k : nat) : R := bn m k / ph (k + n).
Definition H (m n : nat) : R := Series (fun k => hc m n k * z ^ k).
Lemma hc_pos m n k : 0 < hc m n k.
Proof. apply Rdiv_lt_0_compat; [apply bn_pos | apply ph_pos]. Qed.
Lemma hc_bound m n k : (m < n)%nat -> hc m n k <= / a * / INR (fact k).
Proof.
  intros L. rewrite <- Rinv_mult. unfold hc, Rdiv. pose proof (ph_pos (k + n)) as P. pose proof (INR_fact_lt_0 k) as F.
  assert (A : 0 < a * INR (fact k)) by (apply Rmult_lt_0_compat; auto).
  apply (Rmult_le_reg_r (ph (k + n))); auto. rewrite Rmult_assoc, Rinv_l by lra. rewrite Rmult_1_r.
  apply (Rmult_le_reg_l (a * INR (fact k))); auto. rewrite <- Rmult_assoc, Rinv_r by lra. rewrite Rmult_1_l.
  pose proof (bn_ph m k (n - m - 1)) as B. replace (S k + (n - m - 1) + m)%nat with (k + n)%nat in B by lia.
  eapply Rle_trans; [|exact B]. rewrite Rmult_comm, Rmult_assoc. apply Rmult_le_compat_l; [apply Rlt_le, bn_pos|].
  apply Rle_trans with (1 * ph (S k + (n - m - 1))).
  - rewrite Rmult_1_l. eapply Rle_trans; [apply ph_fact | apply ph_grow].
  - apply Rmult_le_compat_r; [apply Rlt_le, ph_pos|]. change 1 with (INR 1). apply le_INR. apply lt_O_fact.
Qed.
Lemma ex_H m n : (m < n)%nat -> ex_series (fun k => hc m n k * z ^ k).
Proof.
  intros L. apply (ex_series_le (V := R_CompleteNormedModule) _ (fun k => / a * (/ INR (fact k) * z ^ k))).
  - intros k. unfold norm; simpl; unfold abs; simpl. pose proof (pow_lt z k z0). pose proof (hc_pos m n k).
    rewrite Rabs_pos_eq by (apply Rmult_le_pos; lra). rewrite <- Rmult_assoc. apply Rmult_le_compat_r; [lra | apply hc_bound; auto].
  - apply (ex_series_scal_l (V := R_NormedModule)). exists (exp z).
    pose proof (is_exp_Reals z) as E. unfold is_pseries in E.
    eapply is_series_ext; [|exact E]. intros k. simpl. rewrite pow_n_pow. unfold scal; simpl; unfold mult; simpl. apply Rmult_comm.
Qed.
Lemma H_pos m n : (m < n)%nat -> 0 < H m n.
Proof.
  intros L. unfold H. rewrite Series_incr_1 by (apply ex_H; auto).
  assert (0 < hc m n 0 * z ^ 0) by (simpl; rewrite Rmult_1_r; apply hc_pos).
  assert (0 <= Series (fun k => hc m n (S k) * z ^ S k)); [|lra].
  replace 0 with (Series (fun k => 0 * 0)) by (rewrite Series_scal_l; ring). apply Series_le.
  - intros k. split; [lra|]. pose proof (pow_lt z (S k) z0). pose proof (hc_pos m n (S k)). rewrite Rmult_0_l. apply Rmult_le_pos; lra.
  - apply (ex_series_incr_1 (V := R_NormedModule) (fun k => hc m n k * z ^ k)). apply ex_H; auto.
Qed.
Lemma H_rec m n m1 n1 m2 n2 b c : (m < n)%nat -> (m1 < n1)%nat -> (m2 < n2)%nat ->
  hc m n 0 = b * hc m1 n1 0 -> (forall k, hc m n (S k) = b * hc m1 n1 (S k) + c * hc m2 n2 k) ->
  H m n = b * H m1 n1 + c * z * H m2 n2.
Proof.
  intros L L1 L2 E0 E. unfold H. rewrite Series_incr_1 by (apply ex_H; auto).
  rewrite (Series_incr_1 (fun k => hc m1 n1 k * z ^ k)) by (apply ex_H; auto).
  rewrite (Series_ext _ (fun k => b * (hc m1 n1 (S k) * z ^ S k) + c * z * (hc m2 n2 k * z ^ k))).
  2:{ intros k. rewrite E. simpl. ring. }
  rewrite Series_plus, !Series_scal_l, E0; [ring | |].
  - apply (ex_series_scal_l (V := R_NormedModule)). apply (ex_series_incr_1 (V := R_NormedModule) (fun k => hc m1 n1 k * z ^ k)). apply ex_H; auto.
  - apply (ex_series_scal_l (V := R_NormedModule)). apply ex_H; auto.
Qed.

(* H_1 = 1, H_(2m+2) = H m (2m+1), H_(2m+3) = H m (2m+2) *)
Lemma rec_first : 1 = a * H 0 1 - a * z * H 0 2.
Proof.
  unfold H. rewrite Series_incr_1 by (apply ex_H; lia).
  rewrite (Series_ext (fun k => hc 0 1 (S k) * z ^ S k) (fun k => z * (hc 0 2 k * z ^ k))).
  2:{ intros k. unfold hc. replace (S k + 1)%nat with (k + 2)%nat by lia. simpl. ring. }
  rewrite Series_scal_l. unfold hc. cbn [bn rising Nat.add INR pow]. field. lra.
Qed.
Lemma rec_even m : H m (2 * m + 1) = (a + INR (2 * m + 1)) * H m (2 * m + 2) + INR (S m) * z * H (S m) (2 * m + 3).
Proof.
  apply H_rec; try lia.
  - unfold hc. rewrite !Nat.add_0_l. replace (2 * m + 2)%nat with (S (2 * m + 1)) by lia. cbn [rising].
    pose proof (ph_pos (2 * m + 1)). pose proof (INR_ge0 (2 * m + 1)). field. lra.
  - intros k. unfold hc. replace (S k + (2 * m + 2))%nat with (S (S k + (2 * m + 1))) by lia.
    replace (k + (2 * m + 3))%nat with (S (S k + (2 * m + 1))) by lia. cbn [rising].
    pose proof (ph_pos (S k + (2 * m + 1))) as P. pose proof (INR_ge0 (S k + (2 * m + 1))).
    pose proof (bn_both m k) as B. rewrite <- S_INR in B.
    apply (Rmult_eq_reg_r (ph (S k + (2 * m + 1)) * (a + INR (S k + (2 * m + 1))))); [|apply Rgt_not_eq, Rmult_gt_0_compat; lra].
    transitivity (bn m (S k) * (a + INR (S k + (2 * m + 1)))); [field; lra|].
    transitivity ((a + INR (2 * m + 1)) * bn m (S k) + INR (S m) * bn (S m) k); [|field; lra].
    rewrite (S_INR m), <- bn_both, !plus_INR, S_INR. ring.
Qed.
Lemma rec_odd m : H m (2 * m + 2) = (a + INR (2 * m + 2)) * H (S m) (2 * m + 3) + - (a + INR (S m)) * z * H (S m) (2 * m + 4).
Proof.
  apply H_rec; try lia.
  - unfold hc. rewrite !Nat.add_0_l. replace (2 * m + 3)%nat with (S (2 * m + 2)) by lia. cbn [rising].
    pose proof (ph_pos (2 * m + 2)). pose proof (INR_ge0 (2 * m + 2)).
    assert (Z : forall j, bn j 0 = 1). { induction j as [|j IH]; cbn [bn]; auto. rewrite IH. pose proof (INR_ge0 j). simpl INR. field. lra. }
    rewrite !Z. field. lra.
  - intros k. unfold hc. replace (S k + (2 * m + 3))%nat with (S (S k + (2 * m + 2))) by lia.
    replace (k + (2 * m + 4))%nat with (S (S k + (2 * m + 2))) by lia. cbn [rising].
    pose proof (ph_pos (S k + (2 * m + 2))) as P. pose proof (INR_ge0 (S k + (2 * m + 2))).
    apply (Rmult_eq_reg_r (ph (S k + (2 * m + 2)) * (a + INR (S k + (2 * m + 2))))); [|apply Rgt_not_eq, Rmult_gt_0_compat; lra].
    transitivity (bn m (S k) * (a + INR (S k + (2 * m + 2)))); [field; lra|].
    transitivity ((a + INR (2 * m + 2)) * bn (S m) (S k) + - (a + INR (S m)) * bn (S m) k); [|field; lra].
    rewrite bn_pascal. pose proof (bn_both m k) as B. rewrite S_INR, !plus_INR, (S_INR k), mult_INR.
    replace (INR 2) with 2 by (simpl; ring).
    replace (bn m (S k) * (a + (INR k + 1 + (2 * INR m + 2)))) with ((a + 2 * INR m + 2) * bn m (S k) + (INR k + 1) * bn m (S k)) by ring.
    rewrite B. ring.
Qed.
(* the terms of H 27 56 are those of H 0 1 over at least 55! *)
Lemma ph_ratio k n i : ph (k + n) * ph (n + i) <= ph (k + n + i) * ph n.
Proof.
  induction i as [|i IH]; [rewrite !Nat.add_0_r; lra|]. rewrite !Nat.add_succ_r. cbn [rising].
  rewrite <- Rmult_assoc. replace (ph (k + n + i) * (a + INR (k + n + i)) * ph n) with (ph (k + n + i) * ph n * (a + INR (k + n + i))) by ring.
  pose proof (ph_pos (k + n)). pose proof (ph_pos (n + i)). pose proof (INR_ge0 (n + i)).
  apply Rmult_le_compat; auto; [apply Rmult_le_pos; lra | lra|]. apply Rplus_le_compat_l, le_INR. lia.
Qed.
Lemma ph_fact_ratio n i : INR (fact (n + i)) * ph (S n) <= ph (S n + i) * INR (fact n).
Proof.
  induction i as [|i IH]; [rewrite !Nat.add_0_r; lra|]. rewrite !Nat.add_succ_r, (ph_S (S n + i)), fact_simpl, mult_INR.
  replace (INR (S (n + i)) * INR (fact (n + i)) * ph (S n)) with (INR (fact (n + i)) * ph (S n) * INR (S (n + i))) by ring.
  replace (ph (S n + i) * (a + INR (S n + i)) * INR (fact n)) with (ph (S n + i) * INR (fact n) * (a + INR (S n + i))) by ring.
  apply Rmult_le_compat; auto.
  - apply Rmult_le_pos; [apply Rlt_le, INR_fact_lt_0 | apply Rlt_le, ph_pos].
  - apply INR_ge0.
  - replace (S n + i)%nat with (S (n + i)) by lia. lra.
Qed.
Lemma H_tail : H 27 56 <= H 0 1 * / INR (fact 55).
Proof.
  unfold H. rewrite Rmult_comm, <- Series_scal_l. apply Series_le; [|apply (ex_series_scal_l (V := R_NormedModule)), ex_H; lia].
  intros k. pose proof (pow_lt z k z0) as zk. pose proof (hc_pos 27 56 k). split; [apply Rmult_le_pos; lra|].
  rewrite <- Rmult_assoc. apply Rmult_le_compat_r; [lra|]. unfold hc. change (bn 0 k) with 1.
  pose proof (bn_ph 27 k 0) as A. pose proof (ph_ratio k 28 28) as B. pose proof (ph_fact_ratio 27 28) as C.
  rewrite Nat.add_0_r in A. replace (S k + 27)%nat with (k + 28)%nat in A by lia. replace (k + 28 + 28)%nat with (k + 56)%nat in B by lia.
  replace (S k) with (k + 1)%nat in A by lia.
  change (S 27) with 28%nat in C. change (28 + 28)%nat with 56%nat in *. change (27 + 28)%nat with 55%nat in C.
  pose proof (ph_pos (k + 56)) as P1. pose proof (ph_pos (k + 1)) as P2. pose proof (ph_pos (k + 28)) as P3. pose proof (ph_pos 28) as P4.
  pose proof (ph_pos 56) as P5. pose proof (INR_fact_lt_0 27) as F1. pose proof (INR_fact_lt_0 55) as F2. pose proof (bn_pos 27 k) as P6.
  generalize dependent (ph (k + 56)). generalize dependent (ph (k + 1)). generalize dependent (ph (k + 28)).
  generalize dependent (ph 28). generalize dependent (ph 56). generalize dependent (INR (fact 27)). generalize dependent (INR (fact 55)).
  generalize dependent (bn 27 k). clear. intros b b0 F F0 f f0 p56 p560 p28 C p280 q28 q280 q1 A q10 q56 B q560.
  (* b f q1 <= q28, q28 p56 <= q56 p28, F p28 <= p56 f *)
  assert (G : b * F * q1 <= q56).
  { apply (Rmult_le_reg_r (f * p28)); [apply Rmult_lt_0_compat; lra|].
    apply Rle_trans with (q28 * (F * p28)).
    - replace (b * F * q1 * (f * p28)) with (b * f * q1 * (F * p28)) by ring. apply Rmult_le_compat_r; [apply Rmult_le_pos; lra | exact A].
    - apply Rle_trans with (q28 * (p56 * f)); [apply Rmult_le_compat_l; lra|].
      replace (q28 * (p56 * f)) with (q28 * p56 * f) by ring. replace (q56 * (f * p28)) with (q56 * p28 * f) by ring. apply Rmult_le_compat_r; lra. }
  apply (Rmult_le_reg_r (F * q1 * q56)); [repeat apply Rmult_lt_0_compat; lra|].
  replace (b / q56 * (F * q1 * q56)) with (b * F * q1) by (field; lra).
  replace (/ F * (1 / q1) * (F * q1 * q56)) with q56 by (field; lra). exact G.
Qed.
End Gamma.

(* ---- the continued fraction ---- *)
Section Fraction.
Variables a z : R.
Hypothesis a0 : 0 < a.
Hypothesis z0 : 0 < z.
Hypothesis za : z <= a + 1.
Notation S01 := (H a z 0 1).
Definition HH (d : nat) : R := match d with O => 0 | 1%nat => 1 | _ => H a z (Nat.div2 d - 1) (d - 1) end.
Definition cc (d : nat) : R := if Nat.even d then / 2 * INR d * z else - (a - 1 + / 2 * (INR d + 1)) * z.
Lemma HH_even m : HH (2 * m + 2) = H a z m (2 * m + 1).
Proof.
  unfold HH. replace (2 * m + 2)%nat with (S (S (2 * m))) by lia.
  replace (Nat.div2 (S (S (2 * m))) - 1)%nat with m; [f_equal; lia|]. change (Nat.div2 (S (S (2 * m)))) with (S (Nat.div2 (2 * m))). rewrite Nat.div2_double. lia.
Qed.
Lemma HH_odd m : HH (2 * m + 3) = H a z m (2 * m + 2).
Proof.
  unfold HH. replace (2 * m + 3)%nat with (S (S (S (2 * m)))) by lia.
  replace (Nat.div2 (S (S (S (2 * m)))) - 1)%nat with m; [f_equal; lia|].
  change (Nat.div2 (S (S (S (2 * m))))) with (S (Nat.div2 (S (2 * m)))). rewrite Nat.div2_succ_double. lia.
Qed.
Lemma HH_pos d : (1 <= d)%nat -> 0 < HH d.
Proof.
  intros L. destruct (Nat.Even_or_Odd d) as [[m E]|[m E]]; subst d.
  - destruct m as [|m]; [lia|]. replace (2 * S m)%nat with (2 * m + 2)%nat by lia. rewrite HH_even. apply H_pos; auto; lia.
  - destruct m as [|m]; [simpl; lra|]. replace (2 * S m + 1)%nat with (2 * m + 3)%nat by lia. rewrite HH_odd. apply H_pos; auto; lia.
Qed.
Lemma even_2 m : Nat.even (2 * m) = true. Proof. apply Nat.even_spec. exists m. lia. Qed.
Lemma even_21 m : Nat.even (2 * m + 1) = false.
Proof. destruct (Nat.even (2 * m + 1)) eqn:E; auto. apply Nat.even_spec in E as [k E]. lia. Qed.
Lemma cc_even m : cc (2 * m) = INR m * z.
Proof. unfold cc. rewrite even_2, mult_INR. simpl (INR 2). field. Qed.
Lemma cc_odd m : cc (2 * m + 1) = - (a + INR m) * z.
Proof. unfold cc. rewrite even_21, plus_INR, mult_INR. simpl. field. Qed.
Lemma HH_rec d : (1 <= d)%nat -> HH d = (a + INR d - 1) * HH (S d) + cc d * HH (S (S d)).
Proof.
  intros L. destruct (Nat.Even_or_Odd d) as [[m E]|[m E]]; subst d.
  - rewrite cc_even. destruct m as [|m]; [lia|]. replace (2 * S m)%nat with (2 * m + 2)%nat by lia.
    replace (S (2 * m + 2)) with (2 * m + 3)%nat by lia. replace (S (2 * m + 3)) with (2 * S m + 2)%nat by lia.
    rewrite HH_even, HH_odd, HH_even. replace (2 * S m + 1)%nat with (2 * m + 3)%nat by lia.
    rewrite (rec_even a a0 z z0 m) at 1. f_equal. f_equal. rewrite !plus_INR. simpl. ring.
  - rewrite cc_odd. destruct m as [|m].
    + simpl INR. change (HH (2 * 0 + 1)) with 1. change (HH (S (2 * 0 + 1))) with (H a z 0 1). change (HH (S (S (2 * 0 + 1)))) with (H a z 0 2).
      rewrite (rec_first a a0 z z0) at 1. ring.
    + replace (2 * S m + 1)%nat with (2 * m + 3)%nat by lia.
      replace (S (2 * m + 3)) with (2 * S m + 2)%nat by lia. replace (S (2 * S m + 2)) with (2 * S m + 3)%nat by lia.
      rewrite !HH_odd, HH_even. replace (2 * S m + 1)%nat with (2 * m + 3)%nat by lia. replace (2 * S m + 2)%nat with (2 * m + 4)%nat by lia.
      rewrite (rec_odd a a0 z z0 m) at 1. f_equal. f_equal. rewrite !plus_INR. simpl. ring.
Qed.

Definition lower (d : nat) (B : R) : Prop :=
  if Nat.even d then a + INR d - 1 + INR d / 2 * z / (a + INR d) <= B
  else B <= a + INR d - 1 /\ (if (d =? 1)%nat then a / (a + 3) <= B else (INR d - 1) / 2 <= B).
Lemma lower_pos d B : (1 <= d)%nat -> lower d B -> 0 < B.
Proof.
  intros L. unfold lower. assert (D : 1 <= INR d) by (change 1 with (INR 1); apply le_INR; auto). destruct (Nat.even d) eqn:E.
  - intros X. assert (0 <= INR d / 2 * z / (a + INR d)); [|lra]. apply Rle_mult_inv_pos; [apply Rmult_le_pos; lra | lra].
  - intros [_ X]. destruct (Nat.eqb_spec d 1) as [->|N].
    + assert (0 < a / (a + 3)) by (apply Rdiv_lt_0_compat; lra). lra.
    + assert (d <> 2%nat) by (intros ->; discriminate). assert (3 <= INR d); [|lra].
      replace 3 with (INR 3) by (simpl; ring). apply le_INR. lia.
Qed.
Definition step_value (d : nat) (B : R) : R := a + INR d - 1 + cc d / B.
Lemma lower_step d B : (1 <= d)%nat -> lower (S d) B -> lower d (step_value d B) /\ Rabs (cc d) / B <= a + 1.
Proof.
  intros L X. pose proof (lower_pos (S d) B ltac:(lia) X) as B0. unfold lower in *. unfold step_value.
  destruct (Nat.Even_or_Odd d) as [[m E]|[m E]]; subst d.
  - rewrite even_2. replace (S (2 * m)) with (2 * m + 1)%nat in X by lia. rewrite even_21 in X. destruct X as [U V].
    rewrite cc_even. assert (m1 : 1 <= INR m) by (change 1 with (INR 1); apply le_INR; lia).
    replace (2 * m + 1 =? 1)%nat with false in V by (symmetry; apply Nat.eqb_neq; lia).
    rewrite plus_INR, mult_INR in *. simpl (INR 2) in *. simpl (INR 1) in *. split.
    + apply Rplus_le_compat_l. replace ((1 + 1) * INR m / 2 * z) with (INR m * z) by field.
      apply Rmult_le_compat_l; [apply Rmult_le_pos; lra|]. apply Rinv_le_contravar; lra.
    + rewrite Rabs_pos_eq by (apply Rmult_le_pos; lra). apply Rle_trans with (INR m * z / INR m); [|replace (INR m * z / INR m) with z by (field; lra); lra].
      apply Rmult_le_compat_l; [apply Rmult_le_pos; lra|]. apply Rinv_le_contravar; lra.
  - rewrite even_21. replace (S (2 * m + 1)) with (2 * (m + 1))%nat in X by lia. rewrite even_2 in X. rewrite cc_odd.
    pose proof (INR_ge0 m) as m0. rewrite mult_INR, plus_INR in X. rewrite plus_INR, mult_INR. simpl (INR 2) in *. simpl (INR 1) in *.
    replace ((1 + 1) * (INR m + 1) / 2) with (INR m + 1) in X by field.
    assert (q : 0 < z / (a + (1 + 1) * (INR m + 1))) by (apply Rdiv_lt_0_compat; lra).
    assert (q1 : 0 <= (INR m + 1) * z / (a + (1 + 1) * (INR m + 1))).
    { unfold Rdiv. rewrite Rmult_assoc. apply Rmult_le_pos; [lra|]. unfold Rdiv in q. lra. }
    assert (Bg : a + 2 * INR m + 1 <= B) by lra.
    assert (A1 : 0 <= (a + INR m) * z / B <= a + INR m).
    { split; [apply Rle_mult_inv_pos; [apply Rmult_le_pos; lra | lra]|].
      apply (Rmult_le_reg_r B); auto. replace ((a + INR m) * z / B * B) with ((a + INR m) * z) by (field; lra).
      apply Rmult_le_compat_l; lra. }
    replace (- (a + INR m) * z / B) with (- ((a + INR m) * z / B)) by (field; lra).
    split; [split; [lra|]|].
    + destruct (Nat.eqb_spec (2 * m + 1) 1) as [E|E]; [|lra].
      assert (m = 0%nat) by lia. subst m. simpl INR in *.
      assert (X' : a + 1 + z / (a + 2) <= B).
      { replace (a + (1 + 1) * (0 + 1) - 1 + (0 + 1) * z / (a + (1 + 1) * (0 + 1))) with (a + 1 + z / (a + 2)) in X by (field; lra). lra. }
      assert (Y : (a + 0) * z / B <= a * ((a + 2) / (a + 3))).
      { rewrite Rplus_0_r. unfold Rdiv. rewrite Rmult_assoc. apply Rmult_le_compat_l; [lra|].
        apply (Rmult_le_reg_r B); auto. replace (z * / B * B) with z by (field; lra).
        apply Rle_trans with ((a + 2) * / (a + 3) * (a + 1 + z / (a + 2))).
        - replace ((a + 2) * / (a + 3) * (a + 1 + z / (a + 2))) with (z + (a + 2) * (a + 1 - z) / (a + 3)) by (field; lra).
          assert (0 <= (a + 2) * (a + 1 - z) / (a + 3)); [|lra]. apply Rle_mult_inv_pos; [apply Rmult_le_pos; lra | lra].
        - apply Rmult_le_compat_l; [|exact X']. apply Rle_mult_inv_pos; lra. }
      replace (a / (a + 3)) with (a - a * ((a + 2) / (a + 3))) by (field; lra). lra.
    + replace (- (a + INR m) * z) with (- ((a + INR m) * z)) by ring. rewrite Rabs_Ropp, Rabs_pos_eq by (apply Rmult_le_pos; lra).
      apply (Rmult_le_reg_r B); auto. replace ((a + INR m) * z / B * B) with ((a + INR m) * z) by (field; lra).
      rewrite (Rmult_comm (a + INR m)). apply Rmult_le_compat; lra.
Qed.

Lemma fraction_S x y r : continuous_fraction_rec x y (S r) =
  xadd (xsub (xadd x (XFin (INR (55 - S r)))) (XFin 1)) (xdiv (continuous_fraction_numerator x y (55 - S r)) (continuous_fraction_rec x y r)).
Proof. reflexivity. Qed.
Lemma fraction_bound r : (r <= 54)%nat -> exists B, continuous_fraction_rec (XFin a) (XFin z) r = XFin B /\ lower (55 - r) B /\
  Rabs (HH (55 - r) / HH (56 - r) - B) * HH (56 - r) <= (a + 27) * (a + 1) * (a + 1) ^ r * H a z 27 56.
Proof.
  induction r as [|r IH]; intros L.
  - exists (a + INR 55 - 1). split; [reflexivity|]. split.
    + unfold lower. change (Nat.even (55 - 0)) with false. change (55 - 0 =? 1)%nat with false. change (55 - 0)%nat with 55%nat.
      cbv iota. replace (INR 55) with 55 by (rewrite INR_IZR_INZ; reflexivity). lra.
    + change (55 - 0)%nat with 55%nat. change (56 - 0)%nat with 56%nat.
      pose proof (HH_rec 55 ltac:(lia)) as E. pose proof (HH_pos 56 ltac:(lia)) as P56. change (cc 55) with (cc (2 * 27 + 1)) in E. rewrite cc_odd in E.
      change (HH 57) with (H a z 27 56) in E. pose proof (H_pos a a0 z z0 27 56 ltac:(lia)) as P.
      assert (I27 : INR 27 = 27) by (rewrite INR_IZR_INZ; reflexivity). rewrite I27 in E.
      replace (HH 55 / HH 56 - (a + INR 55 - 1)) with (- ((a + 27) * z * H a z 27 56 / HH 56)).
      2:{ rewrite E. field. lra. }
      assert (Q : 0 < (a + 27) * z * H a z 27 56) by (repeat apply Rmult_lt_0_compat; lra).
      rewrite Rabs_Ropp, Rabs_pos_eq by (apply Rle_mult_inv_pos; lra). replace (_ / HH 56 * HH 56) with ((a + 27) * z * H a z 27 56) by (field; lra).
      rewrite pow_O, Rmult_1_r. apply Rmult_le_compat_r; [lra|]. apply Rmult_le_compat_l; lra.
  - destruct IH as [B [E [K D]]]; [lia|]. replace (55 - r)%nat with (S (55 - S r)) in * by lia. replace (56 - r)%nat with (S (S (55 - S r))) in * by lia.
    replace (56 - S r)%nat with (S (55 - S r)) by lia. set (d := (55 - S r)%nat) in *. assert (d1 : (1 <= d)%nat) by (unfold d; lia).
    pose proof (lower_pos (S d) B ltac:(lia) K) as B0. destruct (lower_step d B d1 K) as [K1 K2].
    exists (step_value d B). split; [|split; [exact K1|]].
    + rewrite fraction_S, E. fold d. unfold continuous_fraction_numerator, step_value, cc.
      assert (N : Reqb B 0 = false) by (apply Reqb_false; lra).
      destruct (Nat.even d); unfold xsub; cbn [xopp xadd xmul xscale]; unfold xdiv; rewrite N; reflexivity.
    + pose proof (HH_rec d d1) as R1. pose proof (HH_pos d d1) as P0. pose proof (HH_pos (S d) ltac:(lia)) as P1. pose proof (HH_pos (S (S d)) ltac:(lia)) as P2.
      replace (Rabs (HH d / HH (S d) - step_value d B) * HH (S d)) with
        (Rabs (cc d) / B * (Rabs (HH (S d) / HH (S (S d)) - B) * HH (S (S d)))).
      2:{ unfold step_value. rewrite R1.
          replace (((a + INR d - 1) * HH (S d) + cc d * HH (S (S d))) / HH (S d) - (a + INR d - 1 + cc d / B)) with
            (cc d * / B * / HH (S d) * - ((HH (S d) / HH (S (S d)) - B) * HH (S (S d)))) by (field; lra).
          rewrite !Rabs_mult, Rabs_Ropp, Rabs_mult, (Rabs_pos_eq (/ B)), (Rabs_pos_eq (/ HH (S d))), (Rabs_pos_eq (HH (S (S d)))); try lra.
          - field. lra.
          - apply Rlt_le, Rinv_0_lt_compat; auto.
          - apply Rlt_le, Rinv_0_lt_compat; auto. }
      replace ((a + 27) * (a + 1) * (a + 1) ^ S r * H a z 27 56) with ((a + 1) * ((a + 27) * (a + 1) * (a + 1) ^ r * H a z 27 56)) by (simpl pow; ring).
      apply Rmult_le_compat; auto; [apply Rle_mult_inv_pos; [apply Rabs_pos | lra]|]. apply Rmult_le_pos; [apply Rabs_pos | lra].
Qed.

(* 37 11^55 / 55! *)
Fixpoint zfact (n : nat) : Z := match n with O => 1%Z | S k => (Z.of_nat n * zfact k)%Z end.
Lemma zfactE n : INR (fact n) = IZR (zfact n).
Proof. induction n as [|n IH]; [reflexivity|]. rewrite fact_simpl, mult_INR, IH, INR_IZR_INZ, <- mult_IZR. reflexivity. Qed.
Lemma fraction_error : a < 10 -> exists B, continuous_fraction_rec (XFin a) (XFin z) 54 = XFin B /\ a / (a + 3) <= B /\
  Rabs (/ S01 - B) <= / 10 ^ 14.
Proof.
  intros a10. destruct (fraction_bound 54 ltac:(lia)) as [B [E [K D]]]. exists B. split; auto.
  change (55 - 54)%nat with 1%nat in *. change (56 - 54)%nat with 2%nat in *. change (HH 1) with 1 in D. change (HH 2) with S01 in D.
  split; [destruct K as [_ K]; exact K|]. replace (1 / S01) with (/ S01) in D by (unfold Rdiv; ring).
  pose proof (H_pos a a0 z z0 0 1 ltac:(lia)) as P. pose proof (H_tail a a0 z z0) as T.
  apply (Rmult_le_reg_r S01); auto. eapply Rle_trans; [exact D|].
  apply Rle_trans with (37 * 11 * 11 ^ 54 * (S01 * / INR (fact 55))).
  - assert (Q : 0 <= (a + 1) ^ 54 <= 11 ^ 54) by (split; [apply pow_le; lra | apply pow_incr; lra]).
    pose proof (H_pos a a0 z z0 27 56 ltac:(lia)) as P'.
    assert (Q2 : (a + 27) * (a + 1) * (a + 1) ^ 54 <= 37 * 11 * 11 ^ 54).
    { apply Rmult_le_compat; [apply Rmult_le_pos; lra | lra | | lra]. apply Rmult_le_compat; lra. }
    apply Rmult_le_compat; [apply Rmult_le_pos; [apply Rmult_le_pos|]; lra | lra | exact Q2 | exact T].
  - replace (37 * 11 * 11 ^ 54 * (S01 * / INR (fact 55))) with (37 * 11 * 11 ^ 54 * / INR (fact 55) * S01) by ring.
    apply Rmult_le_compat_r; [lra|]. rewrite zfactE. pose proof (INR_fact_lt_0 55) as F. rewrite zfactE in F.
    apply (Rmult_le_reg_r (IZR (zfact 55))); auto. rewrite Rmult_assoc, Rinv_l by lra. rewrite Rmult_1_r.
    apply (Rmult_le_reg_l (10 ^ 14)); [apply pow_lt; lra|]. replace (10 ^ 14 * (/ 10 ^ 14 * IZR (zfact 55))) with (IZR (zfact 55)) by (field; apply pow_nonzero; lra).
    rewrite !pow_IZR, <- !mult_IZR. apply IZR_le. vm_compute. discriminate.
Qed.
End Fraction.

Ltac eqR2 := match goal with |- @eq _ ?a ?b => change (@eq R a b) end.
(* ---- the series is the incomplete gamma function ---- *)
Lemma series_H a z : lower_gamma_series a z = H a z 0 1.
Proof. unfold lower_gamma_series, H. apply Series_ext. intros k. unfold hc. cbn [bn]. rewrite Nat.add_1_r. unfold Rdiv. ring. Qed.
Lemma series_bound a z : 0 < a -> 0 < z -> 0 < lower_gamma_series a z <= exp z / a.
Proof.
  intros a0 z0. rewrite series_H. split; [apply H_pos; auto|].
  assert (E : is_series (fun k => / a * (/ INR (fact k) * z ^ k)) (/ a * exp z)).
  { apply (is_series_scal_l (V := R_NormedModule)). pose proof (is_exp_Reals z) as E. unfold is_pseries in E.
    eapply is_series_ext; [|exact E]. intros k. simpl. rewrite pow_n_pow. unfold scal; simpl; unfold mult; simpl. apply Rmult_comm. }
  apply Rle_trans with (Series (fun k => / a * (/ INR (fact k) * z ^ k))).
  - unfold H. apply Series_le; [|eexists; exact E]. intros k. pose proof (pow_lt z k z0). pose proof (hc_pos a a0 0 1 k).
    split; [apply Rmult_le_pos; lra|]. rewrite <- Rmult_assoc. apply Rmult_le_compat_r; [lra | apply hc_bound; auto].
  - rewrite (is_series_unique _ _ E). unfold Rdiv. rewrite Rmult_comm. lra.
Qed.
Lemma lower_gamma_bound a z : 0 < a -> 0 < z -> 0 < lower_gamma a z <= exp (a * ln z) / a.
Proof.
  intros a0 z0. destruct (series_bound a z a0 z0) as [P B]. unfold lower_gamma. split; [apply Rmult_lt_0_compat; auto; apply exp_pos|].
  apply Rle_trans with (exp (a * ln z - z) * (exp z / a)); [apply Rmult_le_compat_l; [apply Rlt_le, exp_pos | exact B]|].
  unfold Rdiv. rewrite <- Rmult_assoc, <- exp_plus. replace (a * ln z - z + z) with (a * ln z) by ring. lra.
Qed.
Definition pc (a : R) (k : nat) : R := / rising a (S k).
Lemma series_P a z : lower_gamma_series a z = PSeries (pc a) z. Proof. reflexivity. Qed.
Lemma pc_bound a k : 0 < a -> Rabs (pc a k) <= / a * / INR (fact k).
Proof.
  intros a0. pose proof (hc_bound a a0 0 1 k ltac:(lia)) as B. pose proof (hc_pos a a0 0 1 k) as P. unfold hc in *. cbn [bn] in *.
  rewrite Nat.add_1_r in *. unfold pc. replace (/ rising a (S k)) with (1 / rising a (S k)) by (unfold Rdiv; ring). rewrite Rabs_pos_eq; lra.
Qed.
Lemma pc_radius a : 0 < a -> CV_radius (pc a) = p_infty.
Proof.
  intros a0. assert (F : forall r : R, 0 < r -> Rbar_le r (CV_radius (pc a))).
  { intros r r0. apply (CV_radius_bounded (pc a)). exists (/ a * exp r). intros k.
    rewrite Rabs_mult. pose proof (pow_lt r k r0) as rk. rewrite (Rabs_pos_eq (r ^ k)) by lra.
    apply Rle_trans with (/ a * / INR (fact k) * r ^ k); [apply Rmult_le_compat_r; [lra | apply pc_bound; auto]|].
    rewrite Rmult_assoc. apply Rmult_le_compat_l; [apply Rlt_le, Rinv_0_lt_compat; auto|].
    rewrite exp_Reals. unfold PSeries.
    assert (G : forall j, 0 <= / INR (fact j) * r ^ j).
    { intros j. apply Rmult_le_pos; [apply Rlt_le, Rinv_0_lt_compat, INR_fact_lt_0 | apply pow_le; lra]. }
    assert (X : ex_series (fun j => / INR (fact j) * r ^ j)).
    { exists (exp r). pose proof (is_exp_Reals r) as E. unfold is_pseries in E. eapply is_series_ext; [|exact E].
      intros j. simpl. rewrite pow_n_pow. unfold scal; simpl; unfold mult; simpl. apply Rmult_comm. }
    rewrite (Series_incr_n _ (S k)) by (auto; lia).
    assert (0 <= Series (fun j => / INR (fact (S k + j)) * r ^ (S k + j))).
    { replace 0 with (Series (fun j => 0 * 0)) by (rewrite Series_scal_l; ring). apply Series_le.
      - intros j. split; [lra | rewrite Rmult_0_l; apply G].
      - apply (ex_series_incr_n (V := R_NormedModule) (fun j => / INR (fact j) * r ^ j)). exact X. }
    assert (/ INR (fact k) * r ^ k <= sum_f_R0 (fun j => / INR (fact j) * r ^ j) (pred (S k))); [|lra].
    simpl pred. destruct k as [|k]; [simpl; lra|]. rewrite tech5.
    assert (0 <= sum_f_R0 (fun j => / INR (fact j) * r ^ j) k); [|lra]. apply cond_pos_sum. exact G. }
  destruct (CV_radius (pc a)) as [r| |] eqn:E; auto.
  - assert (0 < Rmax 1 (r + 1)) by (pose proof (Rmax_l 1 (r + 1)); lra). specialize (F _ H0). simpl in F. pose proof (Rmax_r 1 (r + 1)). lra.
  - exfalso. apply (F 1). lra.
Qed.
Lemma lower_gamma_derive a z : 0 < a -> 0 < z -> is_derive (fun z => lower_gamma a z) z (exp ((a - 1) * ln z - z)).
Proof.
  intros a0 z0.
  assert (D : is_derive (PSeries (pc a)) z (PSeries (PS_derive (pc a)) z)).
  { apply is_derive_PSeries. rewrite pc_radius by auto. exact I. }
  assert (X : ex_series (fun k => PS_derive (pc a) k * z ^ k)).
  { assert (C : ex_pseries (PS_derive (pc a)) z).
    { apply CV_radius_inside. rewrite CV_radius_derive, pc_radius by auto. exact I. }
    destruct C as [l C]. exists l. unfold is_pseries in C. eapply is_series_ext; [|exact C].
    intros k. simpl. rewrite pow_n_pow. unfold scal; simpl; unfold mult; simpl. apply Rmult_comm. }
  (* z S' + a S = 1 + z S *)
  assert (E : z * PSeries (PS_derive (pc a)) z + a * PSeries (pc a) z = 1 + z * PSeries (pc a) z).
  { pose proof (ex_H a a0 z z0 0 1 ltac:(lia)) as Y.
    assert (Y' : ex_series (fun k => pc a k * z ^ k)).
    { eapply ex_series_ext; [|exact Y]. intros k. unfold hc, pc. cbn [bn]. rewrite Nat.add_1_r. unfold Rdiv. rewrite Rmult_1_l. reflexivity. }
    unfold PSeries. rewrite (Series_incr_1 (fun k => pc a k * z ^ k)) at 1 by auto.
    rewrite <- Series_scal_l. rewrite Rmult_plus_distr_l, <- (Series_scal_l a), <- (Series_scal_l z (fun k => pc a k * z ^ k)).
    rewrite (Rplus_comm (a * _)), <- Rplus_assoc, <- Series_plus.
    - rewrite Rplus_comm. f_equal.
      + unfold pc. cbn [rising]. simpl. field. lra.
      + apply Series_ext. intros k. unfold PS_derive, pc.
        change (rising a (S (S k))) with (rising a (S k) * (a + INR (S k))). pose proof (ph_pos a a0 (S k)). pose proof (INR_ge0 (S k)). simpl pow. field. lra.
    - apply (ex_series_scal_l (V := R_NormedModule)). exact X.
    - apply (ex_series_scal_l (V := R_NormedModule)). apply (ex_series_incr_1 (V := R_NormedModule) (fun k => pc a k * z ^ k)). exact Y'. }
  apply (is_derive_ext (fun t => exp (a * ln t - t) * PSeries (pc a) t)); [intros t; reflexivity|].
  evar_last.
  - apply (is_derive_mult (fun t => exp (a * ln t - t)) (PSeries (pc a))); [|exact D | intros; apply Rmult_comm].
    auto_derive; [exact z0 | reflexivity].
  - unfold plus, mult; simpl. set (s' := PSeries (PS_derive (pc a)) z) in *. set (s := PSeries (pc a) z) in *.
    replace ((a - 1) * ln z - z) with (a * ln z - z + - ln z) by ring. rewrite (exp_plus _ (- ln z)), exp_Ropp, exp_ln by auto.
    change (a * ln z + - z) with (a * ln z - z).
    assert (F : s' = (1 + z * s - a * s) / z) by (rewrite <- E; field; lra). rewrite F. unfold Rdiv. eqR2. field. lra.
Qed.

(* ---- incomplete_gamma_continuous_fraction ---- *)
Lemma xdiv_pos x y : y <> 0 -> xdiv (XFin x) (XFin y) = XFin (x / y).
Proof. intros N. unfold xdiv. rewrite (proj2 (Reqb_false y 0) N). reflexivity. Qed.
Lemma numerator_fin tgamma a z g : 0 < z -> 0 < g -> tgamma (XFin a) = XFin g ->
  xdiv (xexp (xsub (xmul (XFin a) (xlog (XFin z))) (XFin z))) (tgamma (XFin a)) = XFin (exp (a * ln z - z) / g).
Proof.
  intros z0 g0 ->. unfold xlog. rewrite (proj2 (Rltb_true 0 z) z0). unfold xsub. cbn [xmul xscale xopp xadd xexp]. apply xdiv_pos. lra.
Qed.
Lemma fraction_cases tgamma a z g : 0 < z -> 0 < g -> tgamma (XFin a) = XFin g ->
  let n := exp (a * ln z - z) / g in
  0 < n /\
  ((incomplete_gamma_continuous_fraction tgamma (XFin a) (XFin z) = XFin 1 /\
    forall B, continuous_fraction_rec (XFin a) (XFin z) 54 = XFin B -> B <= n \/ n < B < n + / 10 ^ 12) \/
   (exists B, continuous_fraction_rec (XFin a) (XFin z) 54 = XFin B /\ n + / 10 ^ 12 <= B /\
     incomplete_gamma_continuous_fraction tgamma (XFin a) (XFin z) = XFin (n / B)) \/
   (continuous_fraction_rec (XFin a) (XFin z) 54 = XPos /\ incomplete_gamma_continuous_fraction tgamma (XFin a) (XFin z) = XFin 0)).
Proof.
  intros z0 g0 tg n. assert (n0 : 0 < n) by (apply Rdiv_lt_0_compat; auto; apply exp_pos). split; auto.
  unfold incomplete_gamma_continuous_fraction. rewrite (numerator_fin tgamma a z g) by auto. fold n.
  change INCOMPLETE_GAMMA_RECURSSION_LIMIT with 54%nat. destruct (continuous_fraction_rec (XFin a) (XFin z) 54) as [|B| |] eqn:E.
  - left. split; [|discriminate]. unfold std_max, xsub. cbn [xltb xopp xadd].
    rewrite (proj2 (Rltb_true _ _)); auto. unfold INCOMPLETE_GAMMA_EQUALITY_TRESHOLD. assert (0 < / 10 ^ 12) by (apply Rinv_0_lt_compat, pow_lt; lra). lra.
  - unfold std_max, xsub. cbn [xltb]. assert (t : 0 < / 10 ^ 12) by (apply Rinv_0_lt_compat, pow_lt; lra).
    destruct (Rltb n B) eqn:L.
    + apply Rltb_true in L. cbn [xopp xadd xltb]. destruct (Rltb (B + - n) INCOMPLETE_GAMMA_EQUALITY_TRESHOLD) eqn:T.
      * left. split; auto. intros B' [= <-]. right. apply Rltb_true in T. unfold INCOMPLETE_GAMMA_EQUALITY_TRESHOLD in T. lra.
      * right; left. exists B. apply Rltb_false in T. unfold INCOMPLETE_GAMMA_EQUALITY_TRESHOLD in T. split; auto. split; [lra|]. apply xdiv_pos. lra.
    + apply Rltb_false in L. cbn [xopp xadd xltb]. left. rewrite (proj2 (Rltb_true _ _)); [|unfold INCOMPLETE_GAMMA_EQUALITY_TRESHOLD; lra].
      split; auto. intros B' [= <-]. left; auto.
  - right; right. split; reflexivity.
  - left. split; [|discriminate]. unfold std_max, xsub. cbn [xltb xopp xadd].
    rewrite (proj2 (Rltb_true _ _)); auto. unfold INCOMPLETE_GAMMA_EQUALITY_TRESHOLD. assert (0 < / 10 ^ 12) by (apply Rinv_0_lt_compat, pow_lt; lra). lra.
Qed.
Lemma fraction_probability tgamma a z g : 0 < z -> 0 < g -> tgamma (XFin a) = XFin g ->
  exists p, incomplete_gamma_continuous_fraction tgamma (XFin a) (XFin z) = XFin p /\ 0 <= p <= 1.
Proof.
  intros z0 g0 tg. destruct (fraction_cases tgamma a z g z0 g0 tg) as [n0 [[E _]|[[B [_ [L E]]]|[_ E]]]]; rewrite E; eexists; split; try reflexivity; try lra.
  assert (t : 0 < / 10 ^ 12) by (apply Rinv_0_lt_compat, pow_lt; lra). split; [apply Rle_mult_inv_pos; lra|].
  apply (Rmult_le_reg_r B); [lra|]. rewrite Rmult_1_l. unfold Rdiv. rewrite (Rmult_assoc _ (/ B)), Rinv_l by lra. lra.
Qed.
Lemma gamma_pos a g : 0 < a -> is_gamma a g -> 0 < g.
Proof.
  intros a0 [U _]. assert (X : exists z, 0 < z /\ lower_gamma a 1 = lower_gamma a z) by (exists 1; split; [lra | auto]).
  specialize (U _ X). pose proof (lower_gamma_bound a 1 a0 Rlt_0_1). lra.
Qed.
Lemma fraction_accuracy tgamma a z g : / 2 <= a < 10 -> 0 < z <= a + 1 -> is_gamma a g -> tgamma (XFin a) = XFin g ->
  exists p, incomplete_gamma_continuous_fraction tgamma (XFin a) (XFin z) = XFin p /\ Rabs (p - lower_gamma a z / g) <= / 10 ^ 11.
Proof.
  intros [a1 a2] [z0 za] G tg. assert (a0 : 0 < a) by lra. pose proof (gamma_pos a g a0 G) as g0.
  assert (P1 : lower_gamma a z / g <= 1).
  { apply (Rmult_le_reg_r g); auto. unfold Rdiv. rewrite Rmult_assoc, Rinv_l by lra. rewrite Rmult_1_l, Rmult_1_r. apply G. exists z; auto. }
  destruct (fraction_error a z a0 z0 za a2) as [B [E [L D]]]. rewrite <- series_H in D.
  destruct (series_bound a z a0 z0) as [S0 _]. set (s := lower_gamma_series a z) in *.
  assert (B7 : / 7 <= B).
  { eapply Rle_trans; [|exact L]. apply (Rmult_le_reg_r (a + 3)); [lra|]. unfold Rdiv. rewrite Rmult_assoc, Rinv_l by lra. lra. }
  destruct (fraction_cases tgamma a z g z0 g0 tg) as [n0 C]. set (n := exp (a * ln z - z) / g) in *.
  assert (PE : lower_gamma a z / g = n * s) by (unfold lower_gamma, n; fold s; field; lra). rewrite PE in *.
  assert (s1 : 0 < / s) by (apply Rinv_0_lt_compat; auto).
  assert (Ds : / s <= B + / 10 ^ 14 /\ B <= / s + / 10 ^ 14) by (apply Rabs_le_between in D; lra). destruct Ds as [D1 D2].
  assert (c14 : / 10 ^ 14 = / 1000 * / 10 ^ 11) by (simpl; field). assert (c12 : / 10 ^ 12 = / 10 * / 10 ^ 11) by (simpl; field).
  assert (c11 : 0 < / 10 ^ 11) by (apply Rinv_0_lt_compat, pow_lt; lra). rewrite c14 in *. rewrite c12 in *. set (e := / 10 ^ 11) in *.
  assert (near1 : B <= n + / 10 * e -> Rabs (1 - n * s) <= e).
  { intros K. rewrite Rabs_pos_eq by lra. apply (Rmult_le_reg_r (/ s)); auto. replace ((1 - n * s) * / s) with (/ s - n) by (field; lra).
    assert (/ 8 <= / s); [|nra]. assert (e <= / 10); [|lra]. unfold e. apply Rinv_le_contravar; [lra | simpl; lra]. }
  destruct C as [[E1 K]|[[B' [E' [K E1]]]|[E' _]]]; [| |rewrite E in E'; discriminate].
  - exists 1. split; auto. apply near1. destruct (K B E); lra.
  - rewrite E in E'. injection E' as <-. exists (n / B). split; auto.
    replace (n / B - n * s) with (n * s * (/ s - B) / B) by (field; lra).
    unfold Rdiv. rewrite !Rabs_mult, (Rabs_pos_eq n), (Rabs_pos_eq s), (Rabs_pos_eq (/ B)); try lra; [|apply Rlt_le, Rinv_0_lt_compat; lra].
    assert (IB : / B <= 7) by (replace 7 with (/ / 7) by field; apply Rinv_le_contravar; lra).
    assert (IB0 : 0 < / B) by (apply Rinv_0_lt_compat; lra). pose proof (Rabs_pos (/ s - B)) as AP.
    assert (0 <= n * s) by nra.
    apply Rle_trans with (1 * (/ 1000 * e) * 7); [|lra]. apply Rmult_le_compat; auto; [nra | lra|]. apply Rmult_le_compat; auto.
Qed.
Lemma fraction_infinite tgamma a : 0 < a -> incomplete_gamma_continuous_fraction tgamma (XFin a) XPos = XNaN.
Proof.
  intros a0. unfold incomplete_gamma_continuous_fraction. cbn [xlog xmul xscale]. rewrite (proj2 (Rltb_true 0 a) a0).
  cbn [xsub xopp xadd xexp]. unfold xdiv at 1 3. unfold std_max. cbn [xltb]. reflexivity.
Qed.

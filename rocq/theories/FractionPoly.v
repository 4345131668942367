(* The truncated continued fraction of stats/incomplete_gamma.hpp as a quotient of two polynomials. *)
From Coq Require Import Reals ZArith List Bool Lra Lia.
From Coquelicot Require Import Coquelicot.
From Verif Require Import Base ExtRealModel ExtRealProofs DistanceModel DistanceProofs RadialModel ChiSquaredModel ChiSquaredSpec
  IncompleteGammaProofs PosPoly.
Import ListNotations.
Local Open Scope R_scope.

Section Quotient.
Variables a z : R.
Hypothesis a0 : 0 < a.
Hypothesis z0 : 0 < z.
Notation cc := (cc a z).
Notation HH := (HH a z).
(* hp r = (h (56 - r), h (57 - r)) *)
Fixpoint hp (r : nat) : R * R :=
  match r with O => (1, 0) | S r => let (u, v) := hp r in ((a + INR (55 - r) - 1) * u + cc (55 - r) * v, u) end.
Definition h (d : nat) : R := fst (hp (56 - d)).
Lemma h_rec d : (1 <= d <= 54)%nat -> h d = (a + INR d - 1) * h (S d) + cc d * h (S (S d)).
Proof.
  intros D. unfold h. replace (56 - d)%nat with (S (S (54 - d))) by lia. replace (56 - S d)%nat with (S (54 - d)) by lia. replace (56 - S (S d))%nat with (54 - d)%nat by lia.
  cbn [hp]. destruct (hp (54 - d)) as [u v]. cbn [fst]. replace (55 - S (54 - d))%nat with d by lia. reflexivity.
Qed.
Lemma h_55 : h 55 = a + INR 55 - 1. Proof. unfold h. change (56 - 55)%nat with 1%nat. cbn [hp fst]. change (55 - 0)%nat with 55%nat. ring. Qed.
Lemma h_56 : h 56 = 1. Proof. reflexivity. Qed.
Lemma cc_nonzero d : (1 <= d)%nat -> cc d <> 0.
Proof.
  intros D. destruct (Nat.Even_or_Odd d) as [[m ->]|[m ->]].
  - rewrite cc_even. assert (0 < INR m) by (apply lt_0_INR; lia). assert (0 < INR m * z) by (apply Rmult_lt_0_compat; auto). lra.
  - rewrite cc_odd. pose proof (pos_INR m). assert (0 < (a + INR m) * z) by (apply Rmult_lt_0_compat; lra). lra.
Qed.
Lemma h_not_both k : (k <= 55)%nat -> h (56 - k) = 0 -> h (57 - k) = 0 -> k = O.
Proof.
  induction k as [|k IH]; auto. intros L E1 E2. exfalso. replace (57 - S k)%nat with (56 - k)%nat in E2 by lia.
  destruct k as [|k]; [change (56 - 0)%nat with 56%nat in E2; rewrite h_56 in E2; lra|].
  replace (56 - S (S k))%nat with (54 - k)%nat in E1 by lia. rewrite h_rec in E1 by lia.
  replace (S (54 - k)) with (56 - S k)%nat in E1 by lia. replace (S (56 - S k)) with (57 - S k)%nat in E1 by lia. rewrite E2 in E1.
  pose proof (cc_nonzero (54 - k) ltac:(lia)) as C. assert (h (57 - S k) = 0); [|assert (S k = 0)%nat; [apply IH; auto; lia | lia]].
  apply (Rmult_eq_reg_l (cc (54 - k))); auto. lra.
Qed.
Lemma numerator_cc d : continuous_fraction_numerator (XFin a) (XFin z) d = XFin (cc d).
Proof. unfold continuous_fraction_numerator, IncompleteGammaProofs.cc. destruct (Nat.even d); unfold xsub; cbn [xopp xadd xmul xscale]; f_equal; ring. Qed.
Lemma fraction_h r : (r <= 54)%nat ->
  (h (56 - r) <> 0 /\ continuous_fraction_rec (XFin a) (XFin z) r = XFin (h (55 - r) / h (56 - r))) \/
  (h (56 - r) = 0 /\ (continuous_fraction_rec (XFin a) (XFin z) r = XPos \/ continuous_fraction_rec (XFin a) (XFin z) r = XNeg)).
Proof.
  induction r as [|r IH]; intros L.
  - left. change (56 - 0)%nat with 56%nat. change (55 - 0)%nat with 55%nat. rewrite h_56, h_55. split; [lra|].
    cbn [continuous_fraction_rec]. change (INCOMPLETE_GAMMA_RECURSSION_LIMIT + 1 - 0)%nat with 55%nat. unfold xsub. cbn [xadd xopp]. f_equal. field.
  - replace (56 - S r)%nat with (55 - r)%nat by lia. rewrite fraction_S, numerator_cc. pose proof (cc_nonzero (55 - S r) ltac:(lia)) as C.
    assert (R1 : h (55 - S r) = (a + INR (55 - S r) - 1) * h (55 - r) + cc (55 - S r) * h (56 - r)).
    { rewrite h_rec by lia. replace (S (55 - S r)) with (55 - r)%nat by lia. replace (S (55 - r)) with (56 - r)%nat by lia. reflexivity. }
    destruct (IH ltac:(lia)) as [[N E]|[E E']].
    + rewrite E. destruct (Req_dec (h (55 - r)) 0) as [Z|Z].
      * right. split; auto. rewrite Z. unfold Rdiv. rewrite Rmult_0_l. unfold xdiv. rewrite (proj2 (Reqb_true 0 0) eq_refl), (proj2 (Reqb_false _ 0) C).
        destruct (Rltb 0 _); [left | right]; reflexivity.
      * left. split; auto. rewrite xdiv_pos.
        2:{ intros Q. apply Z. apply (Rmult_eq_reg_r (/ h (56 - r))); [|apply Rinv_neq_0_compat; auto]. unfold Rdiv in Q. lra. }
        unfold xsub. cbn [xadd xopp]. f_equal. rewrite R1. field. auto.
    + left. assert (Z : h (55 - r) <> 0).
      { intros Z. assert (X : S r = O); [|discriminate]. apply h_not_both; [lia| |]; [replace (56 - S r)%nat with (55 - r)%nat by lia | replace (57 - S r)%nat with (56 - r)%nat by lia]; auto. }
      split; auto. assert (F : xdiv (XFin (cc (55 - S r))) (continuous_fraction_rec (XFin a) (XFin z) r) = XFin 0) by (destruct E' as [->| ->]; reflexivity).
      rewrite F. unfold xsub. cbn [xadd xopp]. f_equal. rewrite R1, E. field. auto.
Qed.
Lemma fraction_quotient : h 2 <> 0 -> continuous_fraction_rec (XFin a) (XFin z) 54 = XFin (h 1 / h 2).
Proof.
  intros N. destruct (fraction_h 54 ltac:(lia)) as [[_ E]|[E _]]; [exact E | contradiction].
Qed.

(* the determinant of the two solutions of the recurrence *)
Definition W (d : nat) : R := h (S d) * HH d - h d * HH (S d).
Lemma W_step d : (1 <= d <= 54)%nat -> W d = - cc d * W (S d).
Proof. intros D. unfold W. rewrite (HH_rec a z a0 z0 d) by lia. rewrite (h_rec d D). ring. Qed.
Lemma W_55 : W 55 = - ((a + 27) * z * HH 57).
Proof.
  unfold W. rewrite h_56, h_55. rewrite (HH_rec a z a0 z0 55) by lia. pose proof (cc_odd a z 27) as C. change (2 * 27 + 1)%nat with 55%nat in C. rewrite C.
  replace (INR 27) with 27 by (rewrite INR_IZR_INZ; reflexivity). ring.
Qed.
Lemma W_all T k : T = rising a 28 * rising 1 27 * HH 57 -> (k <= 27)%nat ->
  rising a (27 - k) * rising 1 (27 - k) * W (2 * (27 - k) + 1) = (-1) ^ (S k) * (z ^ (2 * k + 1) * T).
Proof.
  intros ET. induction k as [|k IH]; intros L.
  - change (27 - 0)%nat with 27%nat. change (2 * 27 + 1)%nat with 55%nat. change (2 * 0 + 1)%nat with 1%nat. rewrite W_55, ET. clear ET.
    change (rising a 28) with (rising a 27 * (a + INR 27)). generalize (rising a 27) (rising 1 27) (HH 57). intros x y w. replace (INR 27) with 27 by (rewrite INR_IZR_INZ; reflexivity). rewrite !pow_1. ring.
  - clear ET. specialize (IH ltac:(lia)). set (m := (27 - S k)%nat) in *. replace (27 - k)%nat with (S m) in IH by (unfold m; lia).
    assert (E : W (2 * m + 1) = - ((a + INR m) * (INR m + 1) * z ^ 2 * W (2 * S m + 1))).
    { rewrite W_step by (unfold m; lia). rewrite cc_odd. replace (S (2 * m + 1)) with (2 * S m)%nat by lia. rewrite W_step by (unfold m; lia).
      rewrite cc_even, S_INR. replace (S (2 * S m)) with (2 * S m + 1)%nat by lia. ring. }
    rewrite E. cbn [rising] in IH.
    replace (2 * S k + 1)%nat with (2 + (2 * k + 1))%nat by lia. rewrite pow_add.
    transitivity (- (z ^ 2 * (rising a m * (a + INR m) * (rising 1 m * (1 + INR m)) * W (2 * S m + 1)))); [ring|].
    rewrite IH. change ((-1) ^ S (S k)) with (-1 * (-1) ^ S k). generalize ((-1) ^ S k) (z ^ (2 * k + 1)). intros x y. ring.
Qed.
Lemma W_1 : h 2 - h 1 * H a z 0 1 = z ^ 55 * (rising a 28 * rising 1 27 * H a z 27 56).
Proof.
  pose proof (W_all _ 27 eq_refl ltac:(lia)) as E. change (27 - 27)%nat with 0%nat in E. change (2 * 27 + 1)%nat with 55%nat in E. change (2 * 0 + 1)%nat with 1%nat in E.
  unfold W in E. change (HH 1) with 1 in E. change (HH 2) with (H a z 0 1) in E. change (HH 57) with (H a z 27 56) in E.
  replace ((-1) ^ 28) with 1 in E by (simpl; ring). change (rising a 0) with 1 in E. change (INR (fact 0)) with 1 in E.
  rewrite !Rmult_1_l in E. rewrite !Rmult_1_r in E. exact E.
Qed.
Lemma tail_bound : H a z 27 56 <= exp z / rising a 56.
Proof.
  assert (P56 := ph_pos a a0 56).
  assert (E : is_series (fun k => / rising a 56 * (/ INR (fact k) * z ^ k)) (/ rising a 56 * exp z)).
  { apply (is_series_scal_l (V := R_NormedModule)). pose proof (is_exp_Reals z) as E. unfold is_pseries in E.
    eapply is_series_ext; [|exact E]. intros k. simpl. rewrite pow_n_pow. unfold scal; simpl; unfold mult; simpl. apply Rmult_comm. }
  apply Rle_trans with (Series (fun k => / rising a 56 * (/ INR (fact k) * z ^ k))); [|rewrite (is_series_unique _ _ E); unfold Rdiv; lra].
  unfold H. apply Series_le; [|eexists; exact E]. intros k. pose proof (pow_lt z k z0) as zk. pose proof (hc_pos a a0 27 56 k) as Q. split; [apply Rmult_le_pos; lra|].
  rewrite <- Rmult_assoc. apply Rmult_le_compat_r; [lra|]. unfold hc.
  assert (I : forall p, p = rising a 56 -> 0 < p -> bn 27 k * INR (fact k) * p <= rising a (k + 56)).
  { clear - a0. intros p E p0. induction k as [|k IH].
    - change (0 + 56)%nat with 56%nat. rewrite <- E. assert (B : forall j, bn j 0 = 1).
      { intros j. induction j as [|j IH]; cbn [bn]; auto. rewrite IH. pose proof (INR_ge0 j). simpl INR. field. lra. }
      rewrite B. change (INR (fact 0)) with 1. lra.
    - clear E. rewrite fact_simpl, mult_INR, S_INR. pose proof (bn_k 27 k) as B. pose proof (INR_ge0 k) as k0. replace (INR 27) with 27 in B by (rewrite INR_IZR_INZ; reflexivity).
      change (S k + 56)%nat with (S (k + 56)). cbn [rising]. rewrite plus_INR. replace (INR 56) with 56 by (rewrite INR_IZR_INZ; reflexivity).
      pose proof (bn_pos 27 k) as b0. pose proof (INR_fact_lt_0 k) as f0. generalize dependent (rising a (k + 56)). generalize dependent (bn 27 k).
      generalize dependent (bn 27 (S k)). generalize dependent (INR (fact k)). intros f f0 b' b E b0 q I.
      replace (b' * ((INR k + 1) * f) * p) with ((INR k + 1) * b' * (f * p)) by ring. rewrite E.
      replace ((INR k + 27 + 1) * b * (f * p)) with (b * f * p * (INR k + 28)) by ring.
      assert (0 < b * f * p) by (repeat apply Rmult_lt_0_compat; lra). apply Rmult_le_compat; lra. }
  specialize (I _ eq_refl P56).
  pose proof (ph_pos a a0 (k + 56)) as P. pose proof (INR_fact_lt_0 k) as F. clear E zk Q. generalize dependent (rising a (k + 56)). generalize dependent (rising a 56).
  generalize dependent (bn 27 k). generalize dependent (INR (fact k)). clear. intros f f0 b p p0 q I q0.
  apply (Rmult_le_reg_r (f * p * q)); [repeat apply Rmult_lt_0_compat; auto|].
  replace (b / q * (f * p * q)) with (b * f * p) by (field; lra).
  replace (/ p * / f * (f * p * q)) with q by (field; lra). exact I.
Qed.
End Quotient.

(* ---- the denominator as a polynomial ---- *)
Definition pax (k : Z) (p : list Z) : list Z := padd (pscl k p) (0%Z :: p).     (* (a + k) p *)
Definition bax (k : Z) (P : list (list Z)) : list (list Z) := map (pax k) P.
Lemma pax_eval k p a : peval (pax k p) a = (a + IZR k) * peval p a.
Proof. unfold pax. rewrite padd_eval, pscl_eval. simpl. ring. Qed.
Lemma bax_eval k P a z : beval (bax k P) a z = (a + IZR k) * beval P a z.
Proof. induction P as [|p P IH]; simpl; [ring|]. fold (bax k P). rewrite IH, pax_eval. ring. Qed.
Definition ccb (d : nat) (P : list (list Z)) : list (list Z) :=
  if Nat.even d then [] :: bscl (Z.of_nat (Nat.div2 d)) P else [] :: bscl (-1) (bax (Z.of_nat (Nat.div2 d)) P).
Lemma ccb_eval d P a z : beval (ccb d P) a z = cc a z d * beval P a z.
Proof.
  destruct (Nat.Even_or_Odd d) as [[m ->]|[m ->]]; unfold ccb.
  - rewrite even_2, cc_even, Nat.div2_double. cbn [beval peval]. rewrite bscl_eval, <- INR_IZR_INZ. ring.
  - rewrite even_21, cc_odd. replace (2 * m + 1)%nat with (S (2 * m)) by lia. rewrite Nat.div2_succ_double. cbn [beval peval].
    rewrite bscl_eval, bax_eval, <- INR_IZR_INZ. ring.
Qed.
Fixpoint hpoly (r : nat) : list (list Z) * list (list Z) :=
  match r with
  | O => ([[1%Z]], [])
  | S r => let (u, v) := hpoly r in (badd (bax (Z.of_nat (55 - r) - 1) u) (ccb (55 - r) v), u)
  end.
Lemma hpoly_eval r a z : beval (fst (hpoly r)) a z = fst (hp a z r) /\ beval (snd (hpoly r)) a z = snd (hp a z r).
Proof.
  induction r as [|r [E1 E2]]; [simpl; split; ring|]. cbn [hpoly hp]. destruct (hpoly r) as [u v]. destruct (hp a z r) as [x y]. cbn [fst snd] in *. split; auto.
  rewrite badd_eval, bax_eval, ccb_eval, E1, E2, minus_IZR, <- INR_IZR_INZ. unfold Rminus. ring.
Qed.
Definition denominator : list (list Z) := Eval vm_compute in fst (hpoly 54).
Lemma denominator_eval a z : beval denominator a z = h a z 2.
Proof. assert (E : denominator = fst (hpoly 54)) by (vm_compute; reflexivity). rewrite E. unfold h. change (56 - 2)%nat with 54%nat. exact (proj1 (hpoly_eval 54 a z)). Qed.

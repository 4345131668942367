(* Bounds of the exponential function by its Taylor polynomials. *)
From Coq Require Import Reals Lra Psatz.
Local Open Scope R_scope.

Lemma exp_series x : Un_cv (fun n => sum_f_R0 (fun k => / INR (fact k) * x ^ k) n) (exp x).
Proof. unfold exp. destruct (exist_exp x) as [l Hl]. exact Hl. Qed.
Lemma exp_taylor_lower x n : 0 <= x -> sum_f_R0 (fun k => / INR (fact k) * x ^ k) n <= exp x.
Proof.
  intros H. apply (sum_incr (fun k => / INR (fact k) * x ^ k)); [apply exp_series|].
  intros k. apply Rmult_le_pos; [|apply pow_le; auto]. apply Rlt_le, Rinv_0_lt_compat, lt_0_INR, lt_O_fact.
Qed.
Lemma exp_lower6 x : 0 <= x ->
  1 + x + x ^ 2 / 2 + x ^ 3 / 6 + x ^ 4 / 24 + x ^ 5 / 120 + x ^ 6 / 720 <= exp x.
Proof. intros H. pose proof (exp_taylor_lower x 6 H) as E. cbn -[INR] in E. simpl in E. lra. Qed.
Lemma exp_alternating x n : 0 <= x <= 1 ->
  sum_f_R0 (fun k => / INR (fact k) * (- x) ^ k) (S (2 * n)) <= exp (- x).
Proof.
  intros H. set (U := fun k => x ^ k / INR (fact k)).
  assert (E : forall m, sum_f_R0 (fun k => / INR (fact k) * (- x) ^ k) m = sum_f_R0 (tg_alt U) m).
  { intros m. apply sum_eq. intros i _. unfold tg_alt, U. replace (- x) with (-1 * x) by ring.
    rewrite Rpow_mult_distr. unfold Rdiv. ring. }
  rewrite E. apply (alternated_series_ineq U (exp (- x)) n).
  - intros k. unfold U. change (fact (S k)) with (S k * fact k)%nat. rewrite mult_INR. cbn [pow].
    pose proof (lt_0_INR (fact k) (lt_O_fact k)) as F.
    assert (K : 1 <= INR (S k)) by (rewrite S_INR; pose proof (pos_INR k); lra).
    pose proof (pow_le x k ltac:(lra)) as P.
    apply (Rmult_le_reg_r (INR (S k) * INR (fact k))); [apply Rmult_lt_0_compat; lra|].
    replace (x * x ^ k / (INR (S k) * INR (fact k)) * (INR (S k) * INR (fact k))) with (x * x ^ k) by (field; lra).
    replace (x ^ k / INR (fact k) * (INR (S k) * INR (fact k))) with (INR (S k) * x ^ k) by (field; lra). nra.
  - apply cv_speed_pow_fact.
  - intros e He. destruct (exp_series (- x) e He) as [N HN]. exists N. intros m Hm. rewrite <- E. apply HN; auto.
Qed.
Lemma exp_neg_lower5 x : 0 <= x <= 1 -> 1 - x + x ^ 2 / 2 - x ^ 3 / 6 + x ^ 4 / 24 - x ^ 5 / 120 <= exp (- x).
Proof. intros H. pose proof (exp_alternating x 2 H) as E. cbn -[INR] in E. simpl in E. lra. Qed.
Lemma exp_upper x b : 0 <= x <= 1 -> 1 <= b * (1 - x + x ^ 2 / 2 - x ^ 3 / 6 + x ^ 4 / 24 - x ^ 5 / 120) -> exp x <= b.
Proof.
  intros H B. pose proof (exp_neg_lower5 x H) as L. pose proof (exp_pos (- x)) as P. pose proof (exp_pos x) as Q.
  assert (I : exp x * exp (- x) = 1) by (rewrite <- exp_plus, Rplus_opp_r, exp_0; auto).
  set (p := 1 - x + x ^ 2 / 2 - x ^ 3 / 6 + x ^ 4 / 24 - x ^ 5 / 120) in *.
  assert (0 <= b). { destruct (Rle_lt_dec 0 b) as [|N]; auto. assert (0 <= p) by (unfold p; nra). nra. }
  apply (Rmult_le_reg_r (exp (- x))); auto. rewrite I. apply Rle_trans with (b * p); auto. apply Rmult_le_compat_l; auto.
Qed.
Lemma exp_mono a b : a <= b -> exp a <= exp b.
Proof. intros [L|E]; [apply Rlt_le, exp_increasing; auto|subst; lra]. Qed.

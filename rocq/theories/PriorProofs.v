From Coq Require Import Reals Lra Psatz String.
From Verif Require Import Base ExtRealModel DistanceProofs PriorModel PriorSpec.
Local Open Scope R_scope.

Lemma two_pi_pos : 0 < 2 * PI. Proof. pose proof PI_RGT_0. lra. Qed.
Lemma sqrt_2pi_pos : 0 < sqrt (2 * PI). Proof. apply sqrt_lt_R0, two_pi_pos. Qed.
Lemma ln_root x : 0 < x -> ln (sqrt x) = ln x / 2.
Proof.
  intros H. assert (0 < sqrt x) by (apply sqrt_lt_R0; auto).
  rewrite <- (sqrt_sqrt x) at 2 by lra. rewrite ln_mult by auto. field.
Qed.
Lemma normal_pos mu sigma x : 0 < sigma -> 0 < normal_density mu sigma x.
Proof.
  intros H. unfold normal_density. apply Rmult_lt_0_compat; [apply exp_pos|].
  apply Rinv_0_lt_compat, Rmult_lt_0_compat; auto using sqrt_2pi_pos.
Qed.
Lemma ln_normal mu sigma x : 0 < sigma ->
  ln (normal_density mu sigma x) = - ((x - mu) / sigma) ^ 2 / 2 - ln sigma - LOG_2PI_ / 2.
Proof.
  intros H. pose proof sqrt_2pi_pos. unfold normal_density, Rdiv at 1.
  assert (0 < / (sigma * sqrt (2 * PI))) by (apply Rinv_0_lt_compat, Rmult_lt_0_compat; auto).
  rewrite ln_mult, ln_exp, ln_Rinv, ln_mult, ln_root by (auto using exp_pos, two_pi_pos, Rmult_lt_0_compat).
  unfold LOG_2PI_. lra.
Qed.
Lemma log_of_pos d : 0 < d -> log_of d = XFin (ln d).
Proof. intros H. unfold log_of. destruct (Req_EM_T d 0); auto; lra. Qed.
Lemma log_of_0 : log_of 0 = XNeg.
Proof. unfold log_of. destruct (Req_EM_T 0 0); auto; lra. Qed.
Lemma log_normal_pos mu sigma x : 0 < sigma -> 0 < x ->
  0 < log_normal_density mu sigma x /\
  ln (log_normal_density mu sigma x) = - ((ln x - mu) / sigma) ^ 2 / 2 - ln sigma - LOG_2PI_ / 2 - ln x.
Proof.
  intros S X. unfold log_normal_density. destruct (Rlt_dec 0 x); [|lra].
  pose proof (normal_pos mu sigma (ln x) S). assert (0 < / x) by (apply Rinv_0_lt_compat; auto).
  split; [apply Rmult_lt_0_compat; auto|]. unfold Rdiv at 1. rewrite ln_mult, ln_Rinv, ln_normal by auto. lra.
Qed.

Lemma uniform_value (log_scale : bool) (l u x : R) : l < u ->
  log_pdf ((if log_scale then LogScaleUniformPrior else UniformPrior) (XFin l) (XFin u)) (XFin x) =
  log_of (uniform_density l u x).
Proof.
  intros H. assert (0 < u - l) by lra. assert (N : 0 < / (u - l)) by (apply Rinv_0_lt_compat; auto).
  replace (log_pdf _ _) with (log_pdf (UniformPrior (XFin l) (XFin u)) (XFin x)) by (destruct log_scale; auto).
  simpl. unfold uniform_density.
  destruct (Rle_dec l x); [rewrite (proj2 (Rleb_true l x)) by auto|rewrite (proj2 (Rleb_false l x)), log_of_0 by lra; auto].
  destruct (Rle_dec x u); [rewrite (proj2 (Rleb_true x u)) by auto|rewrite (proj2 (Rleb_false x u)), log_of_0 by lra; auto].
  simpl. rewrite log_of_pos, (proj2 (Rltb_true _ _)), ln_Rinv by (auto; lra). simpl. do 2 f_equal.
Qed.
Lemma gaussian_value mu sigma x : 0 < sigma ->
  log_pdf (GaussianPrior mu sigma) (XFin x) =
  XFin (ln (normal_density mu sigma x) + (LOG_2PI_ / 2 + ln sigma - LOG_2PI_ * ln sigma)).
Proof. intros H. rewrite ln_normal by auto. simpl. f_equal. field. lra. Qed.
Lemma log_normal_value mu sigma x : 0 < sigma -> 0 < x ->
  log_pdf (LogNormalPrior mu sigma) (XFin x) =
  XFin (ln (log_normal_density mu sigma x) - ((ln x - mu) / sigma) ^ 2 / 2).
Proof.
  intros S X. destruct (log_normal_pos mu sigma x S X) as [_ ->]. simpl.
  rewrite (proj2 (Rltb_true 0 x)) by auto. simpl. f_equal. field. lra.
Qed.

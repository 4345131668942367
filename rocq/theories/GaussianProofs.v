From Coq Require Import Reals Lra Psatz.
From Verif Require Import Base ExtRealModel DistanceModel DistanceProofs RadialModel GaussianModel PriorModel PriorSpec PriorProofs.
Local Open Scope R_scope.

Lemma log_pdf_value d v : 0 < v ->
  gaussian_log_pdf (XFin d) (XFin v) = XFin (- (d * d / (2 * v) + (ln (2 * PI) + ln v) / 2)).
Proof.
  intros H. pose proof two_pi_pos as P. unfold gaussian_log_pdf. cbn [xopp xmul xscale xdiv xlog].
  rewrite (proj2 (Reqb_false (2 * v) 0)) by lra.
  rewrite (proj2 (Rltb_true 0 (2 * PI * v))) by (apply Rmult_lt_0_compat; auto).
  cbn [xsub xopp xadd xscale]. f_equal. rewrite ln_mult by auto. field. lra.
Qed.
Lemma pdf_value d v : 0 < v ->
  gaussian_pdf (XFin d) (XFin v) = XFin (normal_density 0 (sqrt v) d).
Proof.
  intros H. pose proof two_pi_pos as P. unfold gaussian_pdf. cbn [xopp xmul xscale xdiv xsqrt].
  assert (Q : 0 < 2 * PI * v) by (apply Rmult_lt_0_compat; auto).
  rewrite (proj2 (Reqb_false (2 * v) 0)) by lra. rewrite (proj2 (Rltb_false _ 0)) by lra. cbn [xexp xdiv].
  assert (S : 0 < sqrt v) by (apply sqrt_lt_R0; auto). pose proof sqrt_2pi_pos.
  rewrite sqrt_mult by lra. rewrite (proj2 (Reqb_false _ 0)) by nra. f_equal.
  unfold normal_density. rewrite (Rmult_comm (sqrt v)). f_equal. f_equal. rewrite Rminus_0_r.
  replace ((d / sqrt v) ^ 2) with (d * d / (sqrt v * sqrt v)) by (field; lra).
  rewrite sqrt_sqrt by lra. field. lra.
Qed.
Lemma log_normal_density d v : 0 < v ->
  ln (normal_density 0 (sqrt v) d) = - (d * d / (2 * v) + (ln (2 * PI) + ln v) / 2).
Proof.
  intros H. assert (S : 0 < sqrt v) by (apply sqrt_lt_R0; auto).
  rewrite ln_normal, ln_root by auto. unfold LOG_2PI_. rewrite Rminus_0_r.
  replace ((d / sqrt v) ^ 2) with (d * d / (sqrt v * sqrt v)) by (field; lra).
  rewrite sqrt_sqrt by lra. field. lra.
Qed.
Lemma degenerate_value d v : v <= 0 ->
  gaussian_log_pdf (XFin d) (XFin v) = XNaN /\
  gaussian_pdf (XFin d) (XFin v) = XNaN.
Proof.
  intros H. pose proof two_pi_pos as P.
  unfold gaussian_log_pdf, gaussian_pdf. cbn [xopp xmul xscale xdiv xlog xsqrt].
  destruct (Req_EM_T v 0) as [->|N].
  - rewrite !Rmult_0_r, !(proj2 (Reqb_true 0 0)) by auto. rewrite (proj2 (Rltb_false 0 0)) by lra.
    destruct (Req_EM_T d 0) as [->|D].
    + replace (- 0 * 0) with 0 by ring. replace (- (0 * 0)) with 0 by ring. rewrite !(proj2 (Reqb_true 0 0)) by auto. auto.
    + assert (0 < d * d) by nra. rewrite (proj2 (Reqb_false (- d * d) 0)), (proj2 (Reqb_false (- (d * d)) 0)) by nra.
      rewrite (proj2 (Rltb_false 0 (- d * d))), (proj2 (Rltb_false 0 (- (d * d)))) by nra.
      cbn [xexp xdiv]. rewrite sqrt_0, !(proj2 (Reqb_true 0 0)) by auto.
      cbn [xscale]. rewrite (proj2 (Rltb_true 0 (1 / 2))) by lra. auto.
  - rewrite (proj2 (Reqb_false (2 * v) 0)) by lra. rewrite (proj2 (Rltb_false 0 (2 * PI * v))) by nra.
    rewrite (proj2 (Reqb_false (2 * PI * v) 0)) by nra. rewrite (proj2 (Rltb_true (2 * PI * v) 0)) by nra.
    split; auto. 
Qed.

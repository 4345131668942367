From Coq Require Import Reals Lra Psatz.
From Verif Require Import Base BaseProofs ExtRealModel DistanceModel DistanceProofs RadialModel RadialSpec RadialProofs NewtonProofs.
Local Open Scope R_scope.

Definition is_matern (s : shape) : Prop := s = Matern32 \/ s = Matern52.
Definition matern_func (s : shape) := match s with Matern32 => matern_32_func | _ => matern_52_func end.
Definition matern_grad (s : shape) := match s with Matern32 => matern_32_grad | _ => matern_52_grad end.
Definition matern_slope (s : shape) := match s with Matern32 => m32_slope | _ => m52_slope end.
Lemma matern_funcE s r : is_matern s -> 0 < r -> matern_func s (XFin r) = Ok (XFin (rho s (1 / r))).
Proof. intros [-> | ->] H; [apply m32_func|apply m52_func]; auto. Qed.
Lemma matern_gradE s r : is_matern s -> 0 < r -> matern_grad s (XFin r) = Ok (XFin (matern_slope s r)).
Proof. intros [-> | ->] H; [apply m32_grad|apply m52_grad]; auto. Qed.
Lemma matern_deriv s r : is_matern s -> 0 < r -> derivable_pt_lim (fun x => rho s (1 / x)) r (matern_slope s r).
Proof. intros [-> | ->] H; [apply m32_deriv|apply m52_deriv]; auto. Qed.
Lemma matern_slope_pos s r : 0 < r -> 0 < matern_slope s r.
Proof.
  intros H. pose proof sqrt5_pos. pose proof (exp_pos (- (sqrt 3 * (1 / r)))). pose proof (exp_pos (- (sqrt 5 * (1 / r)))).
  assert (0 < / (r * r * r)) by (apply Rinv_0_lt_compat; repeat apply Rmult_lt_0_compat; auto).
  assert (0 < sqrt 5 / r) by (apply Rmult_lt_0_compat; auto using Rinv_0_lt_compat).
  destruct s; simpl; unfold m32_slope, m52_slope, Rdiv in *; repeat apply Rmult_lt_0_compat; auto; lra.
Qed.

Lemma ln_sqrt x : 0 < x -> ln (sqrt x) = 1 / 2 * ln x.
Proof.
  intros H. rewrite <- (sqrt_sqrt x) at 2 by lra. assert (0 < sqrt x) by (apply sqrt_lt_R0; auto).
  rewrite ln_mult by auto. field.
Qed.

Section Solve.
Variables (s : shape) (ref prior inc : R).
Hypothesis Hs : is_matern s.
Hypothesis Href : 0 < ref.
Hypothesis Hinc : 0 < inc.
Hypothesis Hprior : inc < prior.

Definition log_noise r := ln (noise_after s 1 r prior).
Definition log_slope r := matern_slope s r * rho s (1 / r) / (1 - rho s (1 / r) * rho s (1 / r)).
Lemma rho_in r : 0 < r -> 0 < rho s (1 / r) < 1.
Proof.
  intros H. assert (0 < 1 / r) by (apply Rmult_lt_0_compat; [lra|apply Rinv_0_lt_compat; lra]).
  split; [apply rho_pos; lra|apply rho_lt1; auto].
Qed.
Lemma denom_pos r : 0 < r -> 0 < 1 - rho s (1 / r) * rho s (1 / r).
Proof. intros H. pose proof (rho_in r H). nra. Qed.
Lemma noise_formula r : 0 < r -> noise_after s 1 r prior = prior * sqrt (1 - rho s (1 / r) * rho s (1 / r)).
Proof. intros H. rewrite noise_sq by lra. simpl. rewrite Rmult_1_r. auto. Qed.
Lemma noise_pos r : 0 < r -> 0 < noise_after s 1 r prior.
Proof. intros H. rewrite noise_formula by auto. apply Rmult_lt_0_compat; [lra|]. apply sqrt_lt_R0, denom_pos; auto. Qed.
Lemma log_noise_formula r : 0 < r -> log_noise r = ln prior + 1 / 2 * ln (1 - rho s (1 / r) * rho s (1 / r)).
Proof.
  intros H. pose proof (denom_pos r H). unfold log_noise. rewrite noise_formula by auto.
  rewrite ln_mult, ln_sqrt; auto; [lra|apply sqrt_lt_R0; auto].
Qed.
Lemma log_f_value r : 0 < r -> log_f_eval (matern_func s) (XFin prior) (XFin r) = Ok (XFin (log_noise r)).
Proof.
  intros H. pose proof (denom_pos r H). unfold log_f_eval. rewrite (matern_funcE s r Hs H). simpl. rb.
  unfold xgeb. simpl. rb. simpl. rb. simpl. rewrite log_noise_formula by auto. auto.
Qed.
Lemma log_g_value r : 0 < r ->
  log_g_eval (matern_func s) (matern_grad s) (XFin r) = Ok (XFin (log_slope r)).
Proof.
  intros H. pose proof (denom_pos r H). unfold log_g_eval, assert_then, xgtb. rewrite (matern_funcE s r Hs H). simpl. rb.
  rewrite (matern_gradE s r Hs H). simpl. rb. auto.
Qed.
Lemma log_slope_pos r : 0 < r -> 0 < log_slope r.
Proof.
  intros H. pose proof (denom_pos r H). pose proof (rho_in r H). pose proof (matern_slope_pos s r H).
  unfold log_slope, Rdiv. repeat apply Rmult_lt_0_compat; try lra. apply Rinv_0_lt_compat; auto.
Qed.
Lemma log_noise_deriv r : 0 < r -> derivable_pt_lim log_noise r (- log_slope r).
Proof.
  intros H. pose proof (denom_pos r H) as D.
  assert (L : derivable_pt_lim (fun x => ln prior + 1 / 2 * ln (1 - rho s (1 / x) * rho s (1 / x))) r (- log_slope r)).
  { replace (- log_slope r) with (0 + 1 / 2 * (/ (1 - rho s (1 / r) * rho s (1 / r)) *
      (0 - (matern_slope s r * rho s (1 / r) + rho s (1 / r) * matern_slope s r))))
      by (unfold log_slope; field; lra).
    apply (derivable_pt_lim_plus (fun _ => ln prior) (fun x => 1 / 2 * ln (1 - rho s (1 / x) * rho s (1 / x))));
      [apply derivable_pt_lim_const|].
    apply (derivable_pt_lim_scal (fun x => ln (1 - rho s (1 / x) * rho s (1 / x)))).
    apply (derivable_pt_lim_comp (fun x => 1 - rho s (1 / x) * rho s (1 / x)) ln); [|apply derivable_pt_lim_ln; auto].
    apply (derivable_pt_lim_minus (fun _ => 1) (fun x => rho s (1 / x) * rho s (1 / x))); [apply derivable_pt_lim_const|].
    apply (derivable_pt_lim_mult (fun x => rho s (1 / x)) (fun x => rho s (1 / x))); apply matern_deriv; auto. }
  intros eps He. destruct (L eps He) as [del Hd].
  assert (M : 0 < Rmin del r) by (apply Rmin_glb_lt; [apply cond_pos|auto]).
  exists (mkposreal _ M). simpl. intros h h0 hh.
  assert (hh1 : Rabs h < del) by (eapply Rlt_le_trans; [exact hh|apply Rmin_l]).
  assert (hh2 : Rabs h < r) by (eapply Rlt_le_trans; [exact hh|apply Rmin_r]).
  assert (0 < r + h) by (pose proof (Rle_abs (- h)); rewrite Rabs_Ropp in *; lra).
  rewrite !log_noise_formula by auto. apply Hd; auto.
Qed.
Lemma min_pos : 0 < / 10 ^ 7. Proof. apply Rinv_0_lt_compat, pow_lt; lra. Qed.
Lemma max_gt : / 10 ^ 7 < 10 ^ 7.
Proof. apply Rlt_trans with 1; [rewrite <- Rinv_1; apply Rinv_lt_contravar; simpl; lra|simpl; lra]. Qed.

Lemma scaled_noise r : 0 < r -> noise_after s ref (r * ref) prior = noise_after s 1 r prior.
Proof.
  intros H. unfold noise_after. replace (ref / (r * ref)) with (1 / r) by (field; lra). auto.
Qed.
Lemma ln_le_iff a b : 0 < a -> 0 < b -> ln a <= ln b <-> a <= b.
Proof.
  intros A B. split; intros [L|E].
  - left. apply ln_lt_inv; auto.
  - right. apply ln_inv; auto.
  - left. apply ln_increasing; auto.
  - right. subst. auto.
Qed.
Definition guess0 : R :=
  exp (ln (/ 10 ^ 7) + (log_noise (/ 10 ^ 7) - ln inc) / (log_noise (/ 10 ^ 7) - log_noise (10 ^ 7)) *
       (ln (10 ^ 7) - ln (/ 10 ^ 7))).
Lemma guess0_bounds : ln inc < log_noise (/ 10 ^ 7) -> log_noise (10 ^ 7) < ln inc ->
  / 10 ^ 7 <= guess0 <= 10 ^ 7.
Proof.
  intros A B. pose proof min_pos. pose proof max_gt. unfold guess0.
  set (al := _ / _). assert (Al : 0 < al < 1).
  { unfold al. split.
    - apply Rmult_lt_0_compat; [lra|apply Rinv_0_lt_compat; lra].
    - apply (Rmult_lt_reg_r (log_noise (/ 10 ^ 7) - log_noise (10 ^ 7))); [lra|].
      unfold Rdiv. rewrite Rmult_assoc, Rinv_l; lra. }
  assert (LL : ln (/ 10 ^ 7) < ln (10 ^ 7)) by (apply ln_increasing; auto).
  split.
  - rewrite <- (exp_ln (/ 10 ^ 7)) at 1 by auto. apply Rlt_le, exp_increasing. nra.
  - apply Rle_trans with (exp (ln (10 ^ 7))); [|rewrite exp_ln; lra]. apply Rlt_le, exp_increasing. nra.
Qed.

Definition matern_outcome (ell : R) : Prop :=
  (noise_after s ref (/ 10 ^ 7 * ref) prior <= inc -> ell = / 10 ^ 7 * ref) /\
  (noise_after s ref (/ 10 ^ 7 * ref) prior > inc -> inc <= noise_after s ref (10 ^ 7 * ref) prior -> ell = 10 ^ 7 * ref) /\
  (noise_after s ref (/ 10 ^ 7 * ref) prior > inc -> inc > noise_after s ref (10 ^ 7 * ref) prior ->
     exists r, ell = r * ref /\ newton_result (ln inc) log_noise log_slope (/ 10 ^ 7) (10 ^ 7) (/ 10 ^ 12) guess0 50 r).
Lemma derive_matern : exists ell, derive_of s (XFin ref) (XFin prior) (XFin inc) = Ok (XFin ell) /\
  / 10 ^ 7 * ref <= ell <= 10 ^ 7 * ref /\ matern_outcome ell.
Proof.
  pose proof min_pos as P. pose proof max_gt as Q. assert (P2 : 0 < 10 ^ 7) by lra.
  assert (E : derive_of s = derive_length_scale (matern_func s) (matern_grad s)) by (destruct Hs as [-> | ->]; auto).
  rewrite E. unfold derive_length_scale. rewrite valid_value, valid_true by auto. cbn [bind negb].
  unfold lit, MIN_LENGTH_SCALE_RATIO, MAX_LENGTH_SCALE_RATIO.
  assert (LT : xlog (XFin inc) = XFin (ln inc)) by (cbn [xlog]; rb; auto). rewrite LT.
  rewrite (log_f_value (/ 10 ^ 7) P). cbn [bind xleb].
  assert (BB : forall r, / 10 ^ 7 <= r <= 10 ^ 7 -> / 10 ^ 7 * ref <= r * ref <= 10 ^ 7 * ref)
    by (intros r [H1 H2]; split; apply Rmult_le_compat_r; lra).
  assert (W1 : log_noise (/ 10 ^ 7) <= ln inc <-> noise_after s ref (/ 10 ^ 7 * ref) prior <= inc).
  { rewrite scaled_noise by auto. unfold log_noise. apply ln_le_iff; auto. apply noise_pos; auto. }
  assert (W2 : ln inc <= log_noise (10 ^ 7) <-> inc <= noise_after s ref (10 ^ 7 * ref) prior).
  { rewrite scaled_noise by auto. unfold log_noise. apply ln_le_iff; auto. apply noise_pos; auto. }
  unfold matern_outcome.
  destruct (Rleb (log_noise (/ 10 ^ 7)) (ln inc)) eqn:E1.
  { apply Rleb_true in E1. apply W1 in E1. exists (/ 10 ^ 7 * ref). cbn [xmul xscale].
    split; auto. split; [apply BB; lra|]. repeat split; intros; try lra; auto. }
  apply Rleb_false in E1. rewrite (log_f_value (10 ^ 7) P2). cbn [bind]. unfold xgeb. cbn [xleb].
  assert (F1 : ~ noise_after s ref (/ 10 ^ 7 * ref) prior <= inc) by (intros X; apply W1 in X; lra).
  destruct (Rleb (ln inc) (log_noise (10 ^ 7))) eqn:E2.
  { apply Rleb_true in E2. apply W2 in E2. exists (10 ^ 7 * ref). cbn [xmul xscale].
    split; auto. split; [apply BB; lra|]. repeat split; intros; try lra; auto. }
  apply Rleb_false in E2.
  assert (F2 : ~ inc <= noise_after s ref (10 ^ 7 * ref) prior) by (intros X; apply W2 in X; lra).
  assert (G : interpolated_guess (XFin (log_noise (/ 10 ^ 7))) (XFin (log_noise (10 ^ 7))) (XFin (ln inc)) = XFin guess0).
  { unfold interpolated_guess, lit, MIN_LENGTH_SCALE_RATIO, MAX_LENGTH_SCALE_RATIO.
    cbn [xsub xopp xadd xdiv]. rewrite (proj2 (Reqb_false _ 0)) by lra.
    cbn [xlog]. rewrite !(proj2 (Rltb_true _ _)) by auto. cbn [xopp xadd xmul xscale xexp]. auto. }
  rewrite G. pose proof (guess0_bounds E1 E2) as GB. unfold newton_solve, MAX_NEWTON_ITERATIONS.
  assert (Lmm : / 10 ^ 7 <= 10 ^ 7) by lra.
  assert (Pf : forall x, / 10 ^ 7 <= x <= 10 ^ 7 -> log_f_eval (matern_func s) (XFin prior) (XFin x) = Ok (XFin (log_noise x)))
    by (intros x [H1 H2]; apply log_f_value; lra).
  assert (Pg : forall x, / 10 ^ 7 <= x <= 10 ^ 7 -> log_g_eval (matern_func s) (matern_grad s) (XFin x) = Ok (XFin (log_slope x)))
    by (intros x [H1 H2]; apply log_g_value; lra).
  assert (Ps : forall x, / 10 ^ 7 <= x <= 10 ^ 7 -> log_slope x <> 0)
    by (intros x [H1 H2]; assert (0 < x) as H3 by lra; pose proof (log_slope_pos x H3); lra).
  destruct (loop_result (ln inc) (/ 10 ^ 7) (10 ^ 7) (/ 10 ^ 12) _ _ log_noise log_slope Lmm Pf Pg Ps 50 guess0 GB)
    as [r [Er Nr]].
  rewrite Er. cbn [bind xmul xscale]. exists (r * ref). split; auto. split.
  - apply BB. destruct Nr as [k (_ & -> & _)]. apply iterate_bounds; auto.
  - repeat split; intros; try lra. exists r. auto.
Qed.
End Solve.

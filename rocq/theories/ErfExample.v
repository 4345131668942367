(* The contract of std::erf is met: the integral of the Gaussian, with its limit. *)
From Coq Require Import Reals Lra.
From Coquelicot Require Import Coquelicot.
From Verif Require Import ErfSpec.
Local Open Scope R_scope.

Definition g (t : R) : R := exp (- (t * t)).
Definition E (x : R) : R := RInt g 0 x.
Definition f (x t : R) : R := exp (- (x * x * (1 + t * t))) / (1 + t * t).
Definition K (x : R) : R := RInt (f x) 0 1.

Lemma one_sq t : 0 < 1 + t * t. Proof. nra. Qed.
Lemma g_continuous t : continuous g t.
Proof. apply (ex_derive_continuous (V := R_NormedModule)). unfold g. auto_derive. auto. Qed.
Lemma E_derive (x : R) : is_derive E x (g x).
Proof.
  apply (is_derive_RInt g E 0 x).
  - apply filter_forall. intros y. apply (RInt_correct (V := R_CompleteNormedModule) g 0 y). apply (ex_RInt_continuous (V := R_CompleteNormedModule)). intros z _. apply g_continuous.
  - apply g_continuous.
Qed.
Lemma E_0 : E 0 = 0. Proof. unfold E. apply (RInt_point (V := R_CompleteNormedModule)). Qed.

Lemma f_derive (x t : R) : is_derive (fun u => f u t) x (-2 * x * exp (- (x * x * (1 + t * t)))).
Proof. unfold f. pose proof (one_sq t). auto_derive. { lra. } field. lra. Qed.
Lemma f_integrable x : ex_RInt (f x) 0 1.
Proof.
  apply (ex_RInt_continuous (V := R_CompleteNormedModule)). intros z _. apply (ex_derive_continuous (V := R_NormedModule)). unfold f.
  pose proof (one_sq z). auto_derive. lra.
Qed.
Lemma slope_continuous x t : continuity_2d_pt (fun u v => Derive (fun z => f z v) u) x t.
Proof.
  apply (continuity_2d_pt_ext (fun u v => -2 * u * exp (- (u * u * (1 + v * v))))).
  { intros u v. symmetry. apply is_derive_unique, f_derive. }
  apply continuity_2d_pt_filterlim.
  apply (continuous_mult (K := R_AbsRing) (fun z : R * R => -2 * fst z) (fun z : R * R => exp (- (fst z * fst z * (1 + snd z * snd z)))) (x, t)).
  - apply (continuous_mult (K := R_AbsRing) (fun z : R * R => -2) fst); [apply continuous_const|apply continuous_fst].
  - apply (continuous_comp (fun z : R * R => - (fst z * fst z * (1 + snd z * snd z))) exp).
    + apply (continuous_opp (V := R_NormedModule) (fun z : R * R => fst z * fst z * (1 + snd z * snd z))).
      apply (continuous_mult (K := R_AbsRing) (fun z : R * R => fst z * fst z) (fun z : R * R => 1 + snd z * snd z)).
      * apply (continuous_mult (K := R_AbsRing) (fst : R * R -> R) (fst : R * R -> R)); apply continuous_fst.
      * apply (continuous_plus (V := R_NormedModule) (fun z : R * R => 1) (fun z : R * R => snd z * snd z)); [apply continuous_const|].
        apply (continuous_mult (K := R_AbsRing) (snd : R * R -> R) (snd : R * R -> R)); apply continuous_snd.
    + apply (ex_derive_continuous (V := R_NormedModule)). auto_derive. auto.
Qed.
Lemma K_derive (x : R) : is_derive K x (-2 * g x * E x).
Proof.
  replace (-2 * g x * E x) with (RInt (fun t => Derive (fun u => f u t) x) 0 1).
  - apply (is_derive_RInt_param f 0 1 x).
    + apply filter_forall. intros y t _. eexists. apply f_derive.
    + intros t _. apply slope_continuous.
    + apply filter_forall. intros y. apply f_integrable.
  - rewrite (RInt_ext _ (fun t => (-2 * g x) * (x * g (x * t + 0)))).
    2: { intros t _. transitivity (-2 * x * exp (- (x * x * (1 + t * t)))); [apply is_derive_unique, f_derive|]. unfold g.
         replace (- (x * x * (1 + t * t))) with (- (x * x) + - ((x * t + 0) * (x * t + 0))) by ring. rewrite exp_plus. match goal with |- @eq _ ?a ?b => change (@eq R a b) end. ring. }
    assert (I : ex_RInt g (x * 0 + 0) (x * 1 + 0)).
    { apply (ex_RInt_continuous (V := R_CompleteNormedModule)). intros z _. apply g_continuous. }
    pose proof (is_RInt_comp_lin g x 0 0 1 _ (RInt_correct _ _ _ I)) as L.
    pose proof (is_RInt_scal (V := R_NormedModule) _ 0 1 (-2 * g x) _ L) as L'.
    transitivity (scal (-2 * g x) (RInt g (x * 0 + 0) (x * 1 + 0))).
    + apply is_RInt_unique. exact L'.
    + unfold E. replace (x * 0 + 0) with 0 by ring. replace (x * 1 + 0) with x by ring. reflexivity.
Qed.
Lemma K_0 : K 0 = PI / 4.
Proof.
  unfold K. rewrite (RInt_ext _ (fun t => / (1 + t ^ 2))).
  2: { intros t _. unfold f. replace (- (0 * 0 * (1 + t * t))) with 0 by ring. rewrite exp_0. simpl. pose proof (one_sq t). field. lra. }
  replace (PI / 4) with (atan 1 - atan 0) by (rewrite atan_0, atan_1; ring).
  apply is_RInt_unique. apply (is_RInt_derive atan (fun t => / (1 + t ^ 2))).
  - intros x _. auto_derive; auto. unfold Rsqr. simpl. pose proof (one_sq x). field. lra.
  - intros x _. apply (ex_derive_continuous (V := R_NormedModule)). auto_derive. pose proof (one_sq x). simpl. lra.
Qed.
Lemma invariant x : E x * E x + K x = PI / 4.
Proof.
  assert (D : forall t, is_derive (fun t => E t * E t + K t) t 0).
  { intros t. replace 0 with ((g t * E t + E t * g t) + (-2 * g t * E t)) by ring.
    apply (is_derive_plus (fun t => E t * E t) K).
    - apply (is_derive_mult (K := R_AbsRing) E E); [apply E_derive|apply E_derive|apply Rmult_comm].
    - apply K_derive. }
  replace (PI / 4) with (E 0 * E 0 + K 0) by (rewrite E_0, K_0; ring).
  destruct (Req_dec x 0) as [->|N]; auto.
  destruct (Rtotal_order x 0) as [L|[L|L]]; [|contradiction|].
  - apply (eq_is_derive (fun t => E t * E t + K t) x 0); auto.
  - symmetry. apply (eq_is_derive (fun t => E t * E t + K t) 0 x); auto.
Qed.
Lemma K_bounds x : 0 <= K x <= exp (- (x * x)).
Proof.
  unfold K. split.
  - apply RInt_ge_0; [lra|apply f_integrable|]. intros t _. unfold f. apply Rlt_le, Rdiv_lt_0_compat; [apply exp_pos|apply one_sq].
  - replace (exp (- (x * x))) with (RInt (fun _ => exp (- (x * x))) 0 1).
    2: { rewrite RInt_const. unfold scal; simpl; unfold mult; simpl. ring. }
    apply RInt_le; [lra|apply f_integrable|apply ex_RInt_const|].
    intros t _. unfold f. pose proof (one_sq t). apply Rle_trans with (exp (- (x * x)) / 1); [|unfold Rdiv; rewrite Rinv_1; lra].
    unfold Rdiv. apply Rmult_le_compat; [left; apply exp_pos|left; apply Rinv_0_lt_compat; auto| |apply Rinv_le_contravar; nra].
    destruct (Req_dec (x * x * (t * t)) 0) as [Z|Z]; [right; f_equal; lra|left; apply exp_increasing]. nra.
Qed.
Lemma E_pos x : 0 < x -> 0 < E x.
Proof.
  intros H. unfold E. apply RInt_gt_0; auto; intros t _; [apply exp_pos|apply g_continuous].
Qed.

Definition erf_ (x : R) : R := 2 / sqrt PI * E x.
Lemma exists_erf : is_erf erf_.
Proof.
  assert (SP : 0 < sqrt PI) by (apply sqrt_lt_R0, PI_RGT_0).
  assert (SQ : sqrt PI * sqrt PI = PI) by (apply sqrt_def; left; apply PI_RGT_0).
  split; [|split].
  - unfold erf_. rewrite E_0. ring.
  - intros x. apply is_derive_Reals. apply (is_derive_scal E x (2 / sqrt PI) (g x)). apply E_derive.
  - (* 1 - erf^2 = (4 / pi) K(x) <= (4 / pi) exp(- x^2) < (4 / pi) / x^2 *)
    intros eps He. assert (C : 0 < 4 / PI) by (apply Rdiv_lt_0_compat; [lra|apply PI_RGT_0]).
    exists (Rmax 1 (4 / PI / eps)). intros x Hx.
    assert (X1 : 1 < x) by (eapply Rle_lt_trans; [apply Rmax_l|exact Hx]).
    assert (X2 : 4 / PI / eps < x) by (eapply Rle_lt_trans; [apply Rmax_r|exact Hx]).
    pose proof (invariant x) as I. pose proof (K_bounds x) as B. pose proof (E_pos x ltac:(lra)) as P.
    assert (Q : erf_ x * erf_ x = 1 - 4 / PI * K x).
    { unfold erf_. replace (2 / sqrt PI * E x * (2 / sqrt PI * E x)) with (4 * (E x * E x) / (sqrt PI * sqrt PI)) by (field; lra).
      rewrite SQ. replace (E x * E x) with (PI / 4 - K x) by lra. field. apply PI_neq0. }
    assert (EP : 0 < erf_ x) by (unfold erf_; apply Rmult_lt_0_compat; [apply Rdiv_lt_0_compat; lra|auto]).
    assert (X : exp (- (x * x)) < / (x * x)).
    { rewrite exp_Ropp. apply Rinv_lt_contravar; [apply Rmult_lt_0_compat; [nra|apply exp_pos]|].
      pose proof (exp_ineq1 (x * x) ltac:(nra)). lra. }
    assert (T : 4 / PI * / (x * x) < eps).
    { apply Rmult_lt_reg_r with (x * x); [nra|]. rewrite Rmult_assoc, Rinv_l by nra. rewrite Rmult_1_r.
      assert (4 / PI < eps * x). { apply Rmult_lt_reg_r with (/ eps); [apply Rinv_0_lt_compat; auto|].
        replace (eps * x * / eps) with x by (field; lra). exact X2. }
      nra. }
    assert (U : 4 / PI * K x < eps) by nra.
    assert (V : 0 <= 4 / PI * K x) by nra.
    apply Rabs_def1; nra.
Qed.
Print Assumptions exists_erf.

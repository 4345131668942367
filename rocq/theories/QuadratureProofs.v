(* The quadrature branch of stats/incomplete_gamma.hpp. *)
From Coq Require Import Reals List ZArith Bool Lra Lia.
From Coquelicot Require Import Coquelicot.
From Verif Require Import Base BaseProofs ExtRealModel ExtRealProofs DistanceModel DistanceProofs RadialModel ChiSquaredModel ChiSquaredSpec ChiSquaredProofs IncompleteGammaProofs.
Import ListNotations.
Local Open Scope R_scope.
Local Opaque rsum weight node.

Lemma std_min_fin x y : std_min (XFin x) (XFin y) = XFin (Rmin x y).
Proof.
  unfold std_min. cbn [xltb]. destruct (Rltb y x) eqn:E.
  - apply Rltb_true in E. rewrite Rmin_right; auto; lra.
  - apply Rltb_false in E. rewrite Rmin_left; auto.
Qed.
Lemma std_max_fin x y : std_max (XFin x) (XFin y) = XFin (Rmax x y).
Proof.
  unfold std_max. cbn [xltb]. destruct (Rltb x y) eqn:E.
  - apply Rltb_true in E. rewrite Rmax_right; auto; lra.
  - apply Rltb_false in E. rewrite Rmax_left; auto.
Qed.
Lemma xsqrt_pos x : 0 <= x -> xsqrt (XFin x) = XFin (sqrt x).
Proof. intros H. unfold xsqrt. rewrite (proj2 (Rltb_false x 0) H). reflexivity. Qed.
Lemma bounds_fin a z : 0 < a -> quadrature_bounds (XFin a) (XFin z) = (XFin (window_lower a z), XFin (window_upper a z)).
Proof.
  intros a0. unfold quadrature_bounds. rewrite std_min_fin, xsqrt_pos by lra. cbn [xadd]. rewrite xsqrt_pos by lra.
  unfold xsub. cbn [xmul xscale xopp xadd]. rewrite std_max_fin, std_min_fin. reflexivity.
Qed.
Lemma bounds_inf a : 0 < a -> quadrature_bounds (XFin a) XPos = (XFin (Rmax 0 (a - 12 * sqrt a)), XFin (a + 13 * sqrt (a + 1))).
Proof.
  intros a0. unfold quadrature_bounds. change (std_min XPos (XFin a)) with (XFin a). rewrite xsqrt_pos by lra. cbn [xadd]. rewrite xsqrt_pos by lra.
  unfold xsub. cbn [xmul xscale xopp xadd]. rewrite std_max_fin. reflexivity.
Qed.
Lemma bounds_order a z : 0 < a -> 0 < z -> 0 <= window_lower a z < window_upper a z /\ window_upper a z <= z.
Proof.
  intros a0 z0. unfold window_lower, window_upper. pose proof (sqrt_lt_R0 a a0). assert (0 < sqrt (a + 1)) by (apply sqrt_lt_R0; lra).
  split; [|apply Rmin_l]. split; [apply Rmax_l|]. apply Rmax_lub_lt; apply Rmin_glb_lt; try lra.
  - pose proof (Rmin_l z a). lra.
  - pose proof (Rmin_r z a). lra.
Qed.
Lemma bounds_saturate a z : 0 < a -> a + 13 * sqrt (a + 1) <= z -> quadrature_bounds (XFin a) (XFin z) = quadrature_bounds (XFin a) XPos.
Proof.
  intros a0 L. rewrite bounds_fin, bounds_inf by auto. unfold window_lower, window_upper. assert (0 < sqrt (a + 1)) by (apply sqrt_lt_R0; lra).
  rewrite (Rmin_right z a), (Rmin_right z (a + _)) by lra. reflexivity.
Qed.

(* the integrand is the density of the gamma distribution *)
Lemma fn_density a g x : 0 < g -> 0 < x -> quadrature_fn (XFin a) (XFin (ln g)) (XFin x) = XFin (gamma_density a g x).
Proof.
  intros g0 x0. unfold quadrature_fn, xlog. rewrite (proj2 (Rltb_true 0 x) x0). unfold xsub. cbn [xmul xscale xopp xadd xexp]. unfold gamma_density.
  f_equal. replace (- x + (a + - (1)) * ln x + - ln g) with ((a - 1) * ln x - x + - ln g) by ring. rewrite exp_plus, exp_Ropp, exp_ln by auto. reflexivity.
Qed.
Lemma at_node_inside lb ub j : lb < ub -> (j < 50)%nat -> lb < at_node lb ub j < ub.
Proof. intros L J. unfold at_node. pose proof (nodes_inside j J). nra. Qed.
Lemma quadrature_sum a g z lgamma : 0 < a -> 0 < z -> 0 < g -> lgamma (XFin a) = XFin (ln g) ->
  incomplete_gamma_quadrature lgamma (XFin a) (XFin z) =
  Ok (XFin ((window_upper a z - window_lower a z) / 2 * rsum (fun j => weight j * gamma_density a g (at_node (window_lower a z) (window_upper a z) j)) (seq 0 50))).
Proof.
  intros a0 z0 g0 lg. unfold incomplete_gamma_quadrature. rewrite bounds_fin, lg by auto. cbn [fst snd].
  destruct (bounds_order a z a0 z0) as [[B1 B2] B3]. apply rule_sum. intros j J. apply fn_density; auto.
  pose proof (at_node_inside _ _ j B2 J). lra.
Qed.
Lemma density_pos a g x : 0 < g -> 0 < gamma_density a g x.
Proof. intros g0. apply Rdiv_lt_0_compat; auto. apply exp_pos. Qed.
Lemma quadrature_positive a g z lgamma : 0 < a -> 0 < z -> 0 < g -> lgamma (XFin a) = XFin (ln g) ->
  exists q, incomplete_gamma_quadrature lgamma (XFin a) (XFin z) = Ok (XFin q) /\ 0 < q.
Proof.
  intros a0 z0 g0 lg. eexists. split; [apply (quadrature_sum a g); auto|].
  destruct (bounds_order a z a0 z0) as [[B1 B2] B3]. apply Rmult_lt_0_compat; [lra|]. apply rsum_pos; [discriminate|].
  intros j J. apply in_seq in J. apply Rmult_lt_0_compat; [apply weights_pos; lia | apply density_pos; auto].
Qed.

(* ---- polynomial approximation ---- *)
Lemma poly_bound c t : -1 <= t <= 1 -> Rabs (poly c t) <= abs_sum c.
Proof.
  intros T. induction c as [|x c IH]; cbn [poly abs_sum]; [rewrite Rabs_R0; lra|].
  eapply Rle_trans; [apply Rabs_triang|]. apply Rplus_le_compat_l. rewrite Rabs_mult.
  replace (abs_sum c) with (1 * abs_sum c) by ring. apply Rmult_le_compat; auto using Rabs_pos. apply Rabs_le. lra.
Qed.
Lemma normalised_range lb ub x : lb < ub -> lb <= x <= ub -> -1 <= normalised lb ub x <= 1.
Proof.
  intros L X. unfold normalised. split.
  - apply (Rmult_le_reg_r (ub - lb)); [lra|]. unfold Rdiv. rewrite Rmult_assoc, Rinv_l by lra. lra.
  - apply (Rmult_le_reg_r (ub - lb)); [lra|]. unfold Rdiv. rewrite Rmult_assoc, Rinv_l by lra. lra.
Qed.
Lemma poly_continuous c t : continuous (poly c) t.
Proof.
  apply (ex_derive_continuous (V := R_NormedModule)). induction c as [|x c IH]; cbn [poly]; [apply ex_derive_const|].
  apply (ex_derive_plus (V := R_NormedModule)); [apply ex_derive_const|]. apply ex_derive_mult; [apply ex_derive_id | exact IH].
Qed.
Lemma pn_continuous c lb ub x : continuous (fun x => poly c (normalised lb ub x)) x.
Proof.
  apply continuous_comp; [|apply poly_continuous]. apply (ex_derive_continuous (V := R_NormedModule)). unfold normalised.
  apply ex_derive_mult; [|apply ex_derive_const]. auto_derive. auto.
Qed.
Lemma difference_bound a g lb ub c e d : 0 < a -> 0 < g -> lb < ub -> 0 < d -> lb <= d < ub ->
  (forall x, lb < x < ub -> Rabs (gamma_density a g x - poly c (normalised lb ub x)) <= e) ->
  Rabs ((lower_gamma a ub - lower_gamma a d) / g - RInt (fun x => poly c (normalised lb ub x)) d ub) <= e * (ub - d).
Proof.
  intros a0 g0 L d0 [d1 d2] A. set (p := fun x => poly c (normalised lb ub x)).
  pose (D x := lower_gamma a x / g - RInt p d x).
  assert (I : forall x y, ex_RInt p x y) by (intros; apply (ex_RInt_continuous (V := R_CompleteNormedModule)); intros; apply pn_continuous).
  assert (DD : forall x, 0 < x -> is_derive D x (gamma_density a g x - p x)).
  { intros x x0. apply (is_derive_minus (V := R_NormedModule)).
    - unfold gamma_density, Rdiv. apply (is_derive_ext (fun t => scal (/ g) (lower_gamma a t))).
      + intros t. unfold scal; simpl; unfold mult; simpl. ring.
      + replace (exp ((a - 1) * ln x - x) * / g) with (scal (/ g) (exp ((a - 1) * ln x - x))) by (unfold scal; simpl; unfold mult; simpl; ring).
        apply (is_derive_scal (fun t => lower_gamma a t)). apply lower_gamma_derive; auto.
    - apply (is_derive_RInt (V := R_NormedModule) p (fun t => RInt p d t) d).
      + exists (mkposreal 1 Rlt_0_1). intros t _. apply (RInt_correct (V := R_CompleteNormedModule)). apply I.
      + apply pn_continuous. }
  destruct (MVT_cor2 D (fun x => gamma_density a g x - p x) d ub d2) as [x [E X]].
  - intros x X. apply is_derive_Reals, DD. lra.
  - replace ((lower_gamma a ub - lower_gamma a d) / g - RInt p d ub) with (D ub - D d).
    2:{ unfold D. rewrite (RInt_point (V := R_CompleteNormedModule) d p). unfold zero; simpl. unfold Rdiv. ring. }
    rewrite E, Rabs_mult, (Rabs_pos_eq (ub - d)) by lra. apply Rmult_le_compat_r; [lra|]. apply A. lra.
Qed.
(* the mass that the integration interval leaves out on the left is zero when it starts at 0 *)
Lemma interval_bound a g lb ub c e : 1 <= a -> 0 < g -> 0 <= lb < ub ->
  (forall x, lb < x < ub -> Rabs (gamma_density a g x - poly c (normalised lb ub x)) <= e) ->
  Rabs ((lower_gamma a ub - gamma_mass a lb) / g - RInt (fun x => poly c (normalised lb ub x)) lb ub) <= e * (ub - lb).
Proof.
  intros a0 g0 [l0 L] A. unfold gamma_mass. destruct (Rlt_dec 0 lb) as [E|E].
  { apply difference_bound; auto; lra. }
  assert (lb = 0) by lra. subst lb. clear E l0.
  set (p := fun x => poly c (normalised 0 ub x)) in *.
  assert (I : forall x y, ex_RInt p x y) by (intros; apply (ex_RInt_continuous (V := R_CompleteNormedModule)); intros; apply pn_continuous).
  assert (e0 : 0 <= e) by (eapply Rle_trans; [apply Rabs_pos | apply (A (ub / 2)); lra]).
  assert (c0 : 0 <= abs_sum c) by (eapply Rle_trans; [apply Rabs_pos | apply (poly_bound c 0); lra]).
  pose (K := / (a * g) + abs_sum c). assert (K0 : 0 < K).
  { unfold K. assert (0 < / (a * g)) by (apply Rinv_0_lt_compat; nra). lra. }
  assert (S : forall d, 0 < d -> d < ub -> d <= 1 -> Rabs ((lower_gamma a ub - 0) / g - RInt p 0 ub) <= e * (ub - 0) + K * d).
  { intros d d0 d1 d2.
    assert (B : Rabs ((lower_gamma a ub - lower_gamma a d) / g - RInt p d ub) <= e * (ub - d)) by (apply difference_bound; auto; lra).
    assert (C : Rabs (RInt p 0 d) <= abs_sum c * d).
    { eapply Rle_trans; [apply (abs_RInt_le_const p 0 d (abs_sum c)); [lra | apply I |] |].
      - intros t T. apply poly_bound, normalised_range; lra.
      - apply Req_le. ring. }
    assert (F : 0 < lower_gamma a d / g <= / (a * g) * d).
    { destruct (lower_gamma_bound a d) as [F1 F2]; try lra. split; [apply Rdiv_lt_0_compat; auto|].
      replace (/ (a * g) * d) with (d / a / g) by (field; lra). unfold Rdiv at 1 2. apply Rmult_le_compat_r; [left; apply Rinv_0_lt_compat; auto|].
      eapply Rle_trans; [exact F2|]. apply Rmult_le_compat_r; [left; apply Rinv_0_lt_compat; lra|].
      rewrite <- (exp_ln d) at 2 by auto. destruct (Req_dec d 1) as [->|N]; [rewrite ln_1; apply Req_le; f_equal; ring|].
      assert (ln d < 0) by (rewrite <- ln_1; apply ln_increasing; lra).
      destruct (Req_dec a 1) as [->|N2]; [apply Req_le; f_equal; ring|]. left. apply exp_increasing. nra. }
    assert (Ch : RInt p 0 ub = RInt p 0 d + RInt p d ub).
    { symmetry. apply (RInt_Chasles (V := R_CompleteNormedModule) p 0 d ub); apply I. }
    rewrite Ch. replace ((lower_gamma a ub - 0) / g - (RInt p 0 d + RInt p d ub)) with
      (((lower_gamma a ub - lower_gamma a d) / g - RInt p d ub) + (lower_gamma a d / g - RInt p 0 d)) by (unfold Rdiv; ring).
    eapply Rle_trans; [apply Rabs_triang|]. unfold K.
    assert (Rabs (lower_gamma a d / g - RInt p 0 d) <= / (a * g) * d + abs_sum c * d).
    { unfold Rminus. eapply Rle_trans; [apply Rabs_triang|]. rewrite Rabs_Ropp, (Rabs_pos_eq (_ / g)) by lra. lra. }
    assert (0 <= e * d) by nra. lra. }
  destruct (Rle_dec (Rabs ((lower_gamma a ub - 0) / g - RInt p 0 ub)) (e * (ub - 0))) as [H|H]; auto.
  exfalso. apply Rnot_le_lt in H. set (X := Rabs _) in *. set (Y := e * (ub - 0)) in *.
  pose (d := Rmin (Rmin (ub / 2) 1) ((X - Y) / (2 * K))).
  assert (P : 0 < (X - Y) / (2 * K)) by (apply Rdiv_lt_0_compat; lra).
  assert (D1 : d <= ub / 2) by (unfold d; eapply Rle_trans; [apply Rmin_l | apply Rmin_l]).
  assert (D2 : d <= 1) by (unfold d; eapply Rle_trans; [apply Rmin_l | apply Rmin_r]).
  assert (D3 : d <= (X - Y) / (2 * K)) by apply Rmin_r.
  assert (D0 : 0 < d) by (unfold d; repeat apply Rmin_glb_lt; lra).
  assert (Q := S d D0 ltac:(lra) D2). assert (K * d <= (X - Y) / 2).
  { replace ((X - Y) / 2) with (K * ((X - Y) / (2 * K))) by (field; lra). apply Rmult_le_compat_l; lra. }
  lra.
Qed.

(* ---- tails ---- *)
Lemma small_mass a z : 1 <= a -> 0 < z <= 1 -> lower_gamma a z <= z.
Proof.
  intros a1 [z0 z1]. destruct (lower_gamma_bound a z) as [_ F]; try lra. eapply Rle_trans; [exact F|].
  apply (Rmult_le_reg_r a); [lra|]. unfold Rdiv. rewrite Rmult_assoc, Rinv_l, Rmult_1_r by lra.
  apply Rle_trans with z; [|nra]. rewrite <- (exp_ln z) at 2 by auto. destruct (Req_dec z 1) as [->|N]; [rewrite ln_1; apply Req_le; f_equal; ring|].
  assert (ln z < 0) by (rewrite <- ln_1; apply ln_increasing; lra).
  destruct (Req_dec a 1) as [->|N2]; [apply Req_le; f_equal; ring|]. left. apply exp_increasing. nra.
Qed.
Section Tails.
Variables a g : R.
Hypothesis a1 : 1 <= a.
Hypothesis G : is_gamma a g.
Lemma mass_le_gamma z : 0 < z -> 0 < lower_gamma a z <= g.
Proof. intros z0. split; [apply lower_gamma_bound; lra | apply G; exists z; auto]. Qed.
Lemma scaled_derive r k x : 0 < r -> 0 < x ->
  is_derive (fun x => lower_gamma a x - k * exp (- (a * ln r)) * lower_gamma a (r * x)) x (exp ((a - 1) * ln x - x) * (1 - k * exp (x - r * x))).
Proof.
  intros r0 x0.
  replace (exp ((a - 1) * ln x - x) * (1 - k * exp (x - r * x))) with
    (exp ((a - 1) * ln x - x) - k * exp (- (a * ln r)) * (r * exp ((a - 1) * ln (r * x) - r * x))).
  - apply (is_derive_minus (V := R_NormedModule)); [apply lower_gamma_derive; lra|].
    apply (is_derive_scal (fun x => lower_gamma a (r * x)) x).
    apply (is_derive_comp (V := R_NormedModule) (lower_gamma a) (fun x => r * x)).
    + apply lower_gamma_derive; nra.
    + auto_derive; auto. ring.
  - rewrite ln_mult by auto. rewrite Rmult_minus_distr_l, Rmult_1_r. f_equal.
    rewrite <- (exp_ln r r0) at 2. replace (k * exp (- (a * ln r)) * (exp (ln r) * exp ((a - 1) * (ln r + ln x) - r * x))) with
      (k * (exp (- (a * ln r)) * (exp (ln r) * exp ((a - 1) * (ln r + ln x) - r * x)))) by ring.
    rewrite <- !exp_plus. replace (exp ((a - 1) * ln x - x) * (k * exp (x - r * x))) with (k * (exp ((a - 1) * ln x - x) * exp (x - r * x))) by ring.
    rewrite <- exp_plus. do 2 f_equal. ring.
Qed.
(* Chernoff's bounds *)
Lemma left_tail r lb : 1 < r -> 0 < lb -> lower_gamma a lb <= exp ((r - 1) * lb - a * ln r) * g.
Proof.
  intros r1 l0. pose (k := exp ((r - 1) * lb)). assert (k0 : 0 < k) by apply exp_pos.
  pose (D x := lower_gamma a x - k * exp (- (a * ln r)) * lower_gamma a (r * x)).
  assert (M : forall d, 0 < d < lb -> D lb <= D d).
  { intros d [d0 d1]. destruct (MVT_cor2 D (fun x => exp ((a - 1) * ln x - x) * (1 - k * exp (x - r * x))) d lb d1) as [x [E X]].
    - intros x X. apply is_derive_Reals, scaled_derive; lra.
    - assert (1 <= k * exp (x - r * x)).
      { unfold k. rewrite <- exp_plus. rewrite <- exp_0 at 1. left. apply exp_increasing. nra. }
      pose proof (exp_pos ((a - 1) * ln x - x)). assert (0 <= (lb - d) * (exp ((a - 1) * ln x - x) * (k * exp (x - r * x) - 1))).
      { apply Rmult_le_pos; [lra|]. apply Rmult_le_pos; lra. } nra. }
  assert (B : D lb <= 0).
  { destruct (Rle_dec (D lb) 0) as [|N]; auto. exfalso. apply Rnot_le_lt in N.
    pose (d := Rmin (Rmin (lb / 2) 1) (D lb / 2)).
    assert (D0 : 0 < d) by (unfold d; repeat apply Rmin_glb_lt; lra).
    assert (D1 : d <= lb / 2) by (unfold d; eapply Rle_trans; [apply Rmin_l | apply Rmin_l]).
    assert (D2 : d <= 1) by (unfold d; eapply Rle_trans; [apply Rmin_l | apply Rmin_r]).
    assert (D3 : d <= D lb / 2) by apply Rmin_r.
    assert (Q := M d ltac:(lra)). pose proof (small_mass a d a1 ltac:(lra)).
    assert (0 < k * exp (- (a * ln r)) * lower_gamma a (r * d)).
    { apply Rmult_lt_0_compat; [apply Rmult_lt_0_compat; auto; apply exp_pos|]. apply mass_le_gamma. nra. }
    unfold D in Q at 2. lra. }
  unfold D in B. destruct (mass_le_gamma (r * lb)) as [_ U]; [nra|].
  apply Rle_trans with (k * exp (- (a * ln r)) * lower_gamma a (r * lb)); [lra|].
  unfold k. rewrite <- exp_plus. apply Rmult_le_compat_l; [apply Rlt_le, exp_pos | exact U].
Qed.
Lemma right_tail r ub z : 0 < r < 1 -> 0 < ub <= z -> lower_gamma a z - lower_gamma a ub <= exp ((r - 1) * ub - a * ln r) * g.
Proof.
  intros [r0 r1] [u0 uz]. pose (k := exp ((r - 1) * ub)). assert (k0 : 0 < k) by apply exp_pos.
  pose (D x := lower_gamma a x - k * exp (- (a * ln r)) * lower_gamma a (r * x)).
  assert (M : D z <= D ub).
  { destruct (Req_dec ub z) as [->|N]; [lra|].
    destruct (MVT_cor2 D (fun x => exp ((a - 1) * ln x - x) * (1 - k * exp (x - r * x))) ub z ltac:(lra)) as [x [E X]].
    - intros x X. apply is_derive_Reals, scaled_derive; lra.
    - assert (1 <= k * exp (x - r * x)).
      { unfold k. rewrite <- exp_plus. rewrite <- exp_0 at 1. left. apply exp_increasing. nra. }
      pose proof (exp_pos ((a - 1) * ln x - x)). assert (0 <= (z - ub) * (exp ((a - 1) * ln x - x) * (k * exp (x - r * x) - 1))).
      { apply Rmult_le_pos; [lra|]. apply Rmult_le_pos; lra. } nra. }
  unfold D in M. destruct (mass_le_gamma (r * z)) as [_ U]; [nra|]. destruct (mass_le_gamma (r * ub)) as [U2 _]; [nra|].
  set (c := k * exp (- (a * ln r))) in *. assert (c0 : 0 < c) by (apply Rmult_lt_0_compat; auto; apply exp_pos).
  replace (exp ((r - 1) * ub - a * ln r)) with c by (unfold c, k; rewrite <- exp_plus; reflexivity).
  assert (c * lower_gamma a (r * z) <= c * g) by (apply Rmult_le_compat_l; lra). assert (0 < c * lower_gamma a (r * ub)) by (apply Rmult_lt_0_compat; auto). lra.
Qed.
End Tails.

(* ---- numbers ---- *)
Lemma exp_mult_nat x n : exp (INR n * x) = exp x ^ n.
Proof. induction n as [|n IH]; [rewrite Rmult_0_l; simpl; apply exp_0|]. rewrite S_INR, Rmult_plus_distr_r, Rmult_1_l, exp_plus, IH. simpl. ring. Qed.
Lemma exp_lower x n : (0 < n)%nat -> 0 < x -> (1 + x / INR n) ^ n <= exp x.
Proof.
  intros N x0. assert (0 < INR n) by (apply lt_0_INR; auto). replace x with (INR n * (x / INR n)) at 2 by (field; lra).
  rewrite exp_mult_nat. assert (0 < x / INR n) by (apply Rdiv_lt_0_compat; auto). apply pow_incr. split; [lra|]. left. apply exp_ineq1. lra.
Qed.
Lemma exp1_lower : 27 / 10 <= exp 1.
Proof.
  eapply Rle_trans; [|apply (exp_lower 1 128); [lia | lra]]. replace (INR 128) with 128 by (rewrite INR_IZR_INZ; reflexivity).
  change 128%nat with (2 * (2 * (2 * (2 * (2 * (2 * 2))))))%nat. rewrite !pow_mult. lra.
Qed.
Lemma exp_neg n x : x <= - INR n -> exp x <= / (27 / 10) ^ n.
Proof.
  intros L. apply Rle_trans with (exp (- INR n)).
  - destruct (Req_dec x (- INR n)) as [->|N]; [lra|]. left. apply exp_increasing. lra.
  - rewrite exp_Ropp. apply Rinv_le_contravar; [apply pow_lt; lra|]. rewrite <- (Rmult_1_r (INR n)), exp_mult_nat. apply pow_incr. pose proof exp1_lower. lra.
Qed.
Lemma ln_left u : 0 <= u < 1 -> ln (1 - u) <= - u - u ^ 2 / 2.
Proof.
  intros [u0 u1]. destruct (Req_dec u 0) as [->|N]; [replace (1 - 0) with 1 by ring; rewrite ln_1; lra|].
  destruct (MVT_cor2 (fun u => - u - u ^ 2 / 2 - ln (1 - u)) (fun u => - 1 - u + / (1 - u)) 0 u ltac:(lra)) as [x [E X]].
  - intros x X. apply is_derive_Reals. auto_derive; [lra|]. field. lra.
  - replace (1 - 0) with 1 in E by ring. rewrite ln_1 in E. assert (0 <= - 1 - x + / (1 - x)).
    { replace (- 1 - x + / (1 - x)) with (x ^ 2 * / (1 - x)) by (field; lra). apply Rmult_le_pos; [apply pow2_ge_0|]. left. apply Rinv_0_lt_compat. lra. }
    assert (0 <= (- 1 - x + / (1 - x)) * (u - 0)) by (apply Rmult_le_pos; lra). lra.
Qed.
Lemma ln_right s : 0 <= s <= 76 / 100 -> - s - 12 / 10 * s ^ 2 <= ln (1 - s).
Proof.
  intros [s0 s1]. pose (f s := ln (1 - s) + s + 12 / 10 * s ^ 2). pose (f' s := - / (1 - s) + 1 + 24 / 10 * s).
  assert (D : forall x, x < 1 -> derivable_pt_lim f x (f' x)).
  { intros x X. apply is_derive_Reals. unfold f, f'. auto_derive; [lra|]. field. lra. }
  assert (F : forall x, x < 1 -> f' x * (1 - x) = 24 / 10 * x * (7 / 12 - x)) by (intros x X; unfold f'; field; lra).
  assert (Q : 0 <= f s); [|unfold f in Q; lra].
  destruct (Rle_dec s (7 / 12)) as [L|L].
  - destruct (Req_dec s 0) as [->|N]; [unfold f; replace (1 - 0) with 1 by ring; rewrite ln_1; lra|].
    destruct (MVT_cor2 f f' 0 s ltac:(lra)) as [x [E X]]; [intros; apply D; lra|].
    assert (f 0 = 0) by (unfold f; replace (1 - 0) with 1 by ring; rewrite ln_1; lra).
    assert (0 <= f' x). { apply (Rmult_le_reg_r (1 - x)); [lra|]. rewrite F by lra. nra. }
    assert (0 <= f' x * (s - 0)) by (apply Rmult_le_pos; lra). lra.
  - apply Rnot_le_lt in L. assert (B : 0 <= f (76 / 100)).
    { unfold f. assert (- (145 / 100) <= ln (1 - 76 / 100)).
      { rewrite <- (ln_exp (- (145 / 100))). apply ln_le; [apply exp_pos|]. rewrite exp_Ropp. replace (1 - 76 / 100) with (/ (100 / 24)) by lra.
        apply Rinv_le_contravar; [lra|]. eapply Rle_trans; [|apply (exp_lower _ 64); [lia | lra]]. replace (INR 64) with 64 by (rewrite INR_IZR_INZ; reflexivity).
        change 64%nat with (2 * (2 * (2 * (2 * (2 * 2)))))%nat. rewrite !pow_mult. lra. }
      lra. }
    destruct (Req_dec s (76 / 100)) as [->|N]; auto.
    destruct (MVT_cor2 f f' s (76 / 100) ltac:(lra)) as [x [E X]]; [intros; apply D; lra|].
    assert (f' x <= 0). { apply (Rmult_le_reg_r (1 - x)); [lra|]. rewrite F by lra. nra. }
    assert (f' x * (76 / 100 - s) <= 0) by nra. lra.
Qed.
Lemma sqrt_sq a : 0 <= a -> sqrt a * sqrt a = a. Proof. apply sqrt_sqrt. Qed.
Lemma window_mass a g z : 10 <= a -> is_gamma a g -> 0 < z ->
  Rabs (lower_gamma a z / g - (lower_gamma a (window_upper a z) - gamma_mass a (window_lower a z)) / g) <= / 10 ^ 10.
Proof.
  intros a10 G z0. pose proof (gamma_pos a g ltac:(lra) G) as g0. destruct (bounds_order a z ltac:(lra) z0) as [[B1 B2] B3].
  pose proof (sqrt_sq a ltac:(lra)) as S2. pose proof (sqrt_lt_R0 a ltac:(lra)) as S0.
  assert (L : 0 <= gamma_mass a (window_lower a z) <= / (27 / 10) ^ 72 * g).
  { unfold gamma_mass. destruct (Rlt_dec 0 (window_lower a z)) as [l0|l0].
    2:{ split; [lra|]. apply Rmult_le_pos; [|lra]. left. apply Rinv_0_lt_compat, pow_lt. lra. }
    split; [apply Rlt_le, lower_gamma_bound; lra|].
    assert (l1 : window_lower a z <= a - 12 * sqrt a).
    { unfold window_lower in l0 |- *. pose proof (Rmin_r z a). unfold Rmax in *. destruct (Rle_dec 0 (Rmin z a - 12 * sqrt a)); lra. }
    set (lb := window_lower a z) in *. assert (r1 : 1 < a / lb). { apply (Rmult_lt_reg_r lb); auto. unfold Rdiv. rewrite Rmult_assoc, Rinv_l by lra. lra. }
    eapply Rle_trans; [apply (left_tail a g ltac:(lra) G (a / lb) lb r1 l0)|]. apply Rmult_le_compat_r; [lra|]. apply exp_neg.
    replace (INR 72) with 72 by (rewrite INR_IZR_INZ; reflexivity).
    replace ((a / lb - 1) * lb) with (a - lb) by (field; lra).
    replace (ln (a / lb)) with (- ln (1 - (a - lb) / a)).
    2:{ rewrite <- ln_Rinv. - f_equal. field. lra. - replace (1 - (a - lb) / a) with (lb / a) by (field; lra). apply Rdiv_lt_0_compat; lra. }
    assert (u0 : 0 <= (a - lb) / a < 1).
    { split; [apply Rle_mult_inv_pos; nra|]. apply (Rmult_lt_reg_r a); [lra|]. unfold Rdiv. rewrite Rmult_assoc, Rinv_l by lra. lra. }
    pose proof (ln_left _ u0) as U. assert (a * ln (1 - (a - lb) / a) <= a * (- ((a - lb) / a) - ((a - lb) / a) ^ 2 / 2)) by (apply Rmult_le_compat_l; lra).
    replace (a * (- ((a - lb) / a) - ((a - lb) / a) ^ 2 / 2)) with (- (a - lb) - (a - lb) ^ 2 / a / 2) in H by (field; lra).
    assert (144 <= (a - lb) ^ 2 / a). { apply (Rmult_le_reg_r a); [lra|]. unfold Rdiv. rewrite Rmult_assoc, Rinv_l by lra. nra. }
    lra. }
  assert (Rt : 0 <= lower_gamma a z - lower_gamma a (window_upper a z) <= / (27 / 10) ^ 24 * g).
  { assert (p0 : 0 <= / (27 / 10) ^ 24 * g) by (apply Rmult_le_pos; [left; apply Rinv_0_lt_compat, pow_lt|]; lra).
    unfold window_upper, Rmin. destruct (Rle_dec z (a + 13 * sqrt (a + 1))) as [L1|L1]; [lra|]. apply Rnot_le_lt in L1.
    assert (S1 : sqrt a <= sqrt (a + 1)) by (apply sqrt_le_1; lra). set (ub := a + 13 * sqrt (a + 1)) in *.
    assert (u0 : 0 < ub) by (unfold ub; lra). split.
    - destruct (MVT_cor2 (lower_gamma a) (fun x => exp ((a - 1) * ln x - x)) ub z L1) as [x [E X]].
      + intros x X. apply is_derive_Reals, lower_gamma_derive; lra.
      + rewrite E. apply Rmult_le_pos; [apply Rlt_le, exp_pos | lra].
    - pose (s := 24 / 10 / sqrt a).
      assert (s3 : 316 / 100 <= sqrt a). { rewrite <- (sqrt_Rsqr (316 / 100)) by lra. apply sqrt_le_1; unfold Rsqr; lra. }
      assert (s1 : 0 < s <= 76 / 100).
      { unfold s. split; [apply Rdiv_lt_0_compat; lra|]. apply (Rmult_le_reg_r (sqrt a)); [lra|]. unfold Rdiv at 1. rewrite Rmult_assoc, Rinv_l by lra. lra. }
      assert (ss : s * sqrt a = 24 / 10) by (unfold s; field; lra). assert (ss2 : a * s ^ 2 = 576 / 100) by (rewrite <- S2; replace (sqrt a * sqrt a * s ^ 2) with ((s * sqrt a) ^ 2) by ring; rewrite ss; lra).
      eapply Rle_trans; [apply (right_tail a g ltac:(lra) G (1 - s) ub z); lra|]. apply Rmult_le_compat_r; [lra|]. apply exp_neg.
      replace (INR 24) with 24 by (rewrite INR_IZR_INZ; reflexivity). pose proof (ln_right s ltac:(lra)) as Q.
      assert (a * (- s - 12 / 10 * s ^ 2) <= a * ln (1 - s)) by (apply Rmult_le_compat_l; lra).
      replace (a * (- s - 12 / 10 * s ^ 2)) with (- (a * s) - 12 / 10 * (a * s ^ 2)) in H by ring. rewrite ss2 in H.
      assert (s * (13 * sqrt (a + 1)) >= 312 / 10) by nra. unfold ub. nra. }
  assert (P1 : / (27 / 10) ^ 72 <= / 10 ^ 11) by (apply Rinv_le_contravar; [apply pow_lt; lra|]; lra).
  assert (P2 : / (27 / 10) ^ 24 <= 9 / 10 * / 10 ^ 10).
  { replace (9 / 10 * / 10 ^ 10) with (/ (10 / 9 * 10 ^ 10)) by lra. apply Rinv_le_contravar; lra. }
  replace (lower_gamma a z / g - _) with ((lower_gamma a z - lower_gamma a (window_upper a z) + gamma_mass a (window_lower a z)) / g) by (field; lra).
  rewrite Rabs_pos_eq by (apply Rle_mult_inv_pos; lra).
  apply (Rmult_le_reg_r g); auto. unfold Rdiv. rewrite Rmult_assoc, Rinv_l by lra. rewrite Rmult_1_r.
  assert (/ (27 / 10) ^ 72 * g <= / 10 ^ 11 * g) by (apply Rmult_le_compat_r; lra).
  assert (/ (27 / 10) ^ 24 * g <= 9 / 10 * / 10 ^ 10 * g) by (apply Rmult_le_compat_r; lra).
  replace (/ 10 ^ 11) with (/ 10 * / 10 ^ 10) in * by lra. lra.
Qed.
Lemma quadrature_accuracy lgamma a g z c e : 10 <= a -> is_gamma a g -> 0 < z -> lgamma (XFin a) = XFin (ln g) -> (length c <= 100)%nat ->
  (forall x, window_lower a z < x < window_upper a z -> Rabs (gamma_density a g x - poly c (normalised (window_lower a z) (window_upper a z) x)) <= e) ->
  exists q, incomplete_gamma_quadrature lgamma (XFin a) (XFin z) = Ok (XFin q) /\ 0 < q /\
    Rabs (q - lower_gamma a z / g) <= / 10 ^ 10 + (window_upper a z - window_lower a z) * (2 * e + / 10 ^ 32 * abs_sum c).
Proof.
  intros a10 G z0 lg N A. pose proof (gamma_pos a g ltac:(lra) G) as g0.
  destruct (quadrature_positive a g z lgamma ltac:(lra) z0 g0 lg) as [q [E q0]]. exists q. split; [exact E|]. split; [exact q0|].
  rewrite (quadrature_sum a g z lgamma) in E by (auto; lra). injection E as E. destruct (bounds_order a z ltac:(lra) z0) as [[B1 B2] B3].
  set (lb := window_lower a z) in *. set (ub := window_upper a z) in *.
  destruct (quadrature_exact c lb ub (fun x => match x with XFin x => XFin (poly c (normalised lb ub x)) | y => y end) N B2 (fun x => eq_refl)) as [p [Ep Dp]].
  rewrite (rule_sum _ (fun j => poly c (normalised lb ub (at_node lb ub j)))) in Ep by (intros; reflexivity). injection Ep as Ep.
  assert (Q : Rabs (q - p) <= e * (ub - lb)).
  { rewrite <- E, <- Ep, <- Rmult_minus_distr_l, Rabs_mult, (Rabs_pos_eq ((ub - lb) / 2)) by lra.
    replace (e * (ub - lb)) with ((ub - lb) / 2 * (e * 2)) by lra. apply Rmult_le_compat_l; [lra|].
    replace (e * 2) with (e * rsum weight (seq 0 50)) by (rewrite weights_two; reflexivity). apply rsum_close.
    intros j J. apply in_seq in J. rewrite <- Rmult_minus_distr_l, Rabs_mult, Rmult_comm. pose proof (weights_pos j ltac:(lia)).
    rewrite (Rabs_pos_eq (weight j)) by lra. apply Rmult_le_compat_r; [lra|]. apply A. apply at_node_inside; auto; lia. }
  pose proof (interval_bound a g lb ub c e ltac:(lra) g0 (conj B1 B2) A) as I. pose proof (window_mass a g z a10 G z0) as W. fold lb ub in W.
  set (T := lower_gamma a z / g) in *. set (V := (lower_gamma a ub - gamma_mass a lb) / g) in *. set (J := RInt _ lb ub) in *.
  assert (c0 : 0 <= abs_sum c) by (eapply Rle_trans; [apply Rabs_pos | apply (poly_bound c 0); lra]).
  assert (0 <= (ub - lb) / 2 * / 10 ^ 32 * abs_sum c). { apply Rmult_le_pos; auto. apply Rmult_le_pos; [lra|]. left. apply Rinv_0_lt_compat, pow_lt. lra. }
  replace (q - T) with ((q - p) + (p - J) - (V - J) - (T - V)) by ring.
  eapply Rle_trans; [apply Rabs_triang|]. rewrite Rabs_Ropp. eapply Rle_trans; [apply Rplus_le_compat_r, Rabs_triang|]. rewrite Rabs_Ropp.
  eapply Rle_trans; [apply Rplus_le_compat_r, Rplus_le_compat_r, Rabs_triang|]. lra.
Qed.

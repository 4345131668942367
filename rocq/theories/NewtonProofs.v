From Coq Require Import Reals Lra Psatz.
From Verif Require Import Base BaseProofs ExtRealModel DistanceModel DistanceProofs RadialModel RadialSpec RadialProofs.
Local Open Scope R_scope.

(* ---- bounds ---- *)
Lemma clamp_bounds l u v : l <= u -> in_bounds l u (std_min (XFin u) (std_max (XFin l) v)).
Proof.
  intros H. unfold std_min, std_max, in_bounds. destruct v as [|x| |]; simpl.
  - destruct (Rltb l u) eqn:E; [apply Rltb_true in E|apply Rltb_false in E]; eexists; split; eauto; lra.
  - destruct (Rltb l x) eqn:E1; [apply Rltb_true in E1|apply Rltb_false in E1]; simpl.
    + destruct (Rltb x u) eqn:E; [apply Rltb_true in E|apply Rltb_false in E]; eexists; split; eauto; lra.
    + destruct (Rltb l u) eqn:E; [apply Rltb_true in E|apply Rltb_false in E]; eexists; split; eauto; lra.
  - eexists; split; eauto; lra.
  - destruct (Rltb l u) eqn:E; [apply Rltb_true in E|apply Rltb_false in E]; eexists; split; eauto; lra.
Qed.
Lemma newton_loop_bounds target func grad l u tol n : l <= u -> forall guess r, in_bounds l u guess ->
  newton_loop target func grad (XFin l) (XFin u) tol n guess = Ok r -> in_bounds l u r.
Proof.
  intros H. induction n as [|n IH]; intros guess r B E; cbn [newton_loop] in E.
  - injection E as <-; auto.
  - destruct (func guess) as [f| | |]; try discriminate. cbn [bind] in E.
    destruct (negb (xisfinite (xsub target f))); [injection E as <-; auto|].
    destruct (grad guess) as [g| | |]; try discriminate. cbn [bind] in E.
    destruct (xltb (xabs (xsub target f)) tol); [injection E as <-; auto|].
    eapply IH; [|exact E]. apply clamp_bounds; auto.
Qed.

(* ---- the number of calls ---- *)
Lemma newton_loop_calls target func grad l u tol n : forall guess,
  exists points, (length points <= n)%nat /\
    forall func' grad', (forall p, In p points -> func' p = func p /\ grad' p = grad p) ->
      newton_loop target func' grad' l u tol n guess = newton_loop target func grad l u tol n guess.
Proof.
  induction n as [|n IH]; intros guess.
  - exists []. split; auto.
  - cbn [newton_loop].
    destruct (func guess) as [f| | |] eqn:Ef.
    2-4: exists [guess]; split; [simpl; lia|]; intros func' grad' H;
         destruct (H guess (or_introl eq_refl)) as [H1 H2]; rewrite H1, Ef; auto.
    destruct (negb (xisfinite (xsub target f))) eqn:En.
    { exists [guess]; split; [simpl; lia|]; intros func' grad' H;
      destruct (H guess (or_introl eq_refl)) as [H1 H2]; rewrite H1, Ef. cbn [bind]. rewrite En. auto. }
    destruct (grad guess) as [g| | |] eqn:Eg.
    2-4: exists [guess]; split; [simpl; lia|]; intros func' grad' H;
         destruct (H guess (or_introl eq_refl)) as [H1 H2]; rewrite H1, Ef; cbn [bind]; rewrite En, H2, Eg; auto.
    destruct (xltb (xabs (xsub target f)) tol) eqn:Et.
    { exists [guess]; split; [simpl; lia|]; intros func' grad' H;
      destruct (H guess (or_introl eq_refl)) as [H1 H2]; rewrite H1, Ef; cbn [bind]; rewrite En, H2, Eg; cbn [bind].
      rewrite Et. auto. }
    cbn [bind]. rewrite ?En, ?Et.
    match goal with |- context [newton_loop _ _ _ _ _ _ n ?g'] => destruct (IH g') as [pts [L P]] end.
    exists (guess :: pts). split; [simpl; lia|]. intros func' grad' H.
    destruct (H guess (or_introl eq_refl)) as [H1 H2]; rewrite H1, Ef; cbn [bind]; rewrite En, H2, Eg; cbn [bind].
    rewrite Et. apply P. intros p Ip. apply H. right. auto.
Qed.

(* ---- functions with finite values ---- *)
Section Finite.
Variables (target lower upper tol : R) (func grad : xr -> outcome xr) (f slope : R -> R).
Hypothesis Hlu : lower <= upper.
Hypothesis Hf : forall x, lower <= x <= upper -> func (XFin x) = Ok (XFin (f x)).
Hypothesis Hg : forall x, lower <= x <= upper -> grad (XFin x) = Ok (XFin (slope x)).
Hypothesis Hs : forall x, lower <= x <= upper -> slope x <> 0.
Notation step := (safeguarded_step target f slope lower upper).
Notation iterate := (safeguarded_iterate target f slope lower upper).

Lemma step_bounds g : lower <= g <= upper -> lower <= step g <= upper.
Proof.
  intros B. unfold safeguarded_step. destruct (Rle_dec _ _); [lra|]. destruct (Rle_dec _ _); lra.
Qed.
Lemma loop_step n g : lower <= g <= upper ->
  newton_loop (XFin target) func grad (XFin lower) (XFin upper) (XFin tol) (S n) (XFin g) =
  if Rlt_dec (Rabs (target - f g)) tol then Ok (XFin g)
  else newton_loop (XFin target) func grad (XFin lower) (XFin upper) (XFin tol) n (XFin (step g)).
Proof.
  intros B. cbn [newton_loop]. rewrite (Hf g B). cbn [bind xsub xopp xadd xisfinite negb xabs xltb].
  rewrite (Hg g B). cbn [bind]. change (target + - f g) with (target - f g).
  destruct (Rlt_dec (Rabs (target - f g)) tol) as [T|T].
  - rewrite (proj2 (Rltb_true _ _)) by auto. auto.
  - rewrite (proj2 (Rltb_false _ _)) by lra. f_equal.
    pose proof (step_bounds g B) as SB. pose proof (Hs g B) as N.
    unfold xgeb. cbn [xdiv]. rewrite (proj2 (Reqb_false _ _)) by auto. cbn [xopp xadd xleb lit xmul xscale].
    assert (M : (if Rleb (g + - ((target - f g) / slope g)) lower then XFin (1 / 2 * (g + lower))
            else if Rleb upper (g + - ((target - f g) / slope g)) then XFin (1 / 2 * (g + upper))
            else XFin (g + - ((target - f g) / slope g))) = XFin (step g)).
    { unfold safeguarded_step. change (g + - ((target - f g) / slope g)) with (g - (target - f g) / slope g).
      set (z := g - (target - f g) / slope g).
      destruct (Rle_dec z lower).
      - rewrite (proj2 (Rleb_true _ _)) by auto. f_equal. field.
      - rewrite (proj2 (Rleb_false z lower)) by lra. destruct (Rle_dec upper z).
        + rewrite (proj2 (Rleb_true _ _)) by auto. f_equal. field.
        + rewrite (proj2 (Rleb_false upper z)) by lra. auto. }
    rewrite M. unfold std_min, std_max. cbn [xltb].
    destruct (Rltb lower (step g)) eqn:E1; [apply Rltb_true in E1|apply Rltb_false in E1]; cbn [xltb].
    + destruct (Rltb (step g) upper) eqn:E2; [auto|apply Rltb_false in E2]. f_equal. lra.
    + destruct (Rltb lower upper) eqn:E2; [|apply Rltb_false in E2]; f_equal; lra.
Qed.
Lemma iterate_shift g k : iterate (step g) k = iterate g (S k).
Proof. induction k as [|k IH]; auto. cbn [safeguarded_iterate] in *. rewrite IH. auto. Qed.
Lemma loop_result n : forall g, lower <= g <= upper ->
  exists r, newton_loop (XFin target) func grad (XFin lower) (XFin upper) (XFin tol) n (XFin g) = Ok (XFin r) /\
    newton_result target f slope lower upper tol g n r.
Proof.
  induction n as [|n IH]; intros g B.
  - exists g. split; auto. exists 0%nat. repeat split; auto. intros i Hi; lia.
  - rewrite loop_step by auto. destruct (Rlt_dec (Rabs (target - f g)) tol) as [T|T].
    + exists g. split; auto. exists 0%nat. repeat split; auto; [lia|]. intros i Hi; lia.
    + destruct (IH (step g) (step_bounds g B)) as [r [E [k (K1 & K2 & K3 & K4)]]].
      exists r. split; auto. exists (S k). repeat split.
      * lia.
      * rewrite K2. apply iterate_shift.
      * intros [|i] Hi; [simpl; lra|]. rewrite <- iterate_shift. apply K3. lia.
      * destruct K4 as [K4|K4]; [left; lia|right]. rewrite <- iterate_shift. auto.
Qed.
Lemma iterate_bounds g k : lower <= g <= upper -> lower <= iterate g k <= upper.
Proof. intros B. induction k; auto. cbn [safeguarded_iterate]. apply step_bounds; auto. Qed.

(* convex decreasing functions are approached from the left *)
Section Convex.
Hypothesis Hpos : forall x, lower <= x <= upper -> 0 < slope x.
Hypothesis Hconvex : forall x y, lower <= x <= upper -> lower <= y <= upper -> f x - slope x * (y - x) <= f y.
Hypothesis Hroot : f upper < target.
Lemma step_convex g : lower <= g <= upper -> target <= f g ->
  g <= step g <= upper /\ target <= f (step g).
Proof.
  intros B T. pose proof (Hpos g B) as P. unfold safeguarded_step.
  set (z := g - (target - f g) / slope g).
  assert (Z : z = g + (f g - target) / slope g) by (unfold z; field; lra).
  assert (Z1 : slope g * (z - g) = f g - target) by (rewrite Z; field; lra).
  assert (Zg : g <= z) by nra.
  assert (Zu : z < upper).
  { destruct (Rlt_or_le z upper) as [|L]; auto. exfalso.
    pose proof (Hconvex g upper B ltac:(lra)). nra. }
  destruct (Rle_dec z lower) as [L|L].
  - assert (E : g = lower) by lra. replace ((g + lower) / 2) with g by (rewrite <- E; field). repeat split; lra.
  - destruct (Rle_dec upper z); [lra|]. repeat split; try lra.
    pose proof (Hconvex g z B ltac:(lra)). lra.
Qed.
Lemma iterate_convex g k : lower <= g <= upper -> target <= f g ->
  g <= iterate g k <= upper /\ target <= f (iterate g k).
Proof.
  intros B T. induction k as [|k [I1 I2]]; [cbn; split; lra|]. cbn [safeguarded_iterate].
  destruct (step_convex (iterate g k) ltac:(lra) I2). split; lra.
Qed.
End Convex.
End Finite.

(* ---- the Matern functions ---- *)
Lemma m32_func r : 0 < r -> matern_32_func (XFin r) = Ok (XFin (rho Matern32 (1 / r))).
Proof.
  intros H. pose proof (covariance_value Matern32 1 r 1) as E. simpl covariance_of in E.
  unfold matern_32_func, lit. rewrite E. destruct (Rle_dec r 0); [lra|]. destruct (Rlt_dec 1 0); [lra|].
  rewrite pow1, Rmult_1_l. auto.
Qed.
Lemma m52_func r : 0 < r -> matern_52_func (XFin r) = Ok (XFin (rho Matern52 (1 / r))).
Proof.
  intros H. pose proof (covariance_value Matern52 1 r 1) as E. simpl covariance_of in E.
  unfold matern_52_func, lit. rewrite E. destruct (Rle_dec r 0); [lra|]. destruct (Rlt_dec 1 0); [lra|].
  rewrite pow1, Rmult_1_l. auto.
Qed.
(* derivatives of the covariance at distance 1 as a function of the length scale *)
Definition m32_slope r := 3 * exp (- (sqrt 3 * (1 / r))) / (r * r * r).
Definition m52_slope r := 5 / 3 * (1 + sqrt 5 / r) * exp (- (sqrt 5 * (1 / r))) / (r * r * r).
Lemma m32_grad r : 0 < r -> matern_32_grad (XFin r) = Ok (XFin (m32_slope r)).
Proof.
  intros H. unfold matern_32_grad, lit. simpl. rb. simpl. rb.
  assert (N : r * r <> 0) by nra. simpl.
  repeat (rewrite !(proj2 (Reqb_false _ _)) by (auto; lra); simpl).
  do 2 f_equal. unfold m32_slope. assert (S : sqrt 3 * sqrt 3 = 3) by (apply sqrt_sqrt; lra).
  replace (- (sqrt 3 * (1 / r))) with (- sqrt 3 / r) by (field; lra).
  set (e := exp (- sqrt 3 / r)).
  replace (3 * e / (r * r * r)) with (sqrt 3 * sqrt 3 * e / (r * r * r)) by (rewrite S; auto). field. lra.
Qed.
Lemma m52_grad r : 0 < r -> matern_52_grad (XFin r) = Ok (XFin (m52_slope r)).
Proof.
  intros H. unfold matern_52_grad, lit, xpow2, xpow3. simpl. rb. simpl.
  assert (N : r * r <> 0) by nra. assert (N3 : r * (r * r) <> 0) by nra.
  repeat (rewrite !(proj2 (Reqb_false _ _)) by (auto; lra); simpl).
  do 2 f_equal. unfold m52_slope. assert (S : sqrt 5 * sqrt 5 = 5) by (apply sqrt_sqrt; lra).
  replace (- (sqrt 5 * (1 / r))) with (- sqrt 5 / r) by (field; lra).
  set (e := exp (- sqrt 5 / r)).
  replace ((- sqrt 5 / (r * r) + - (10 / 3 / (r * (r * r)))) * e +
    sqrt 5 * (1 + sqrt 5 / r + 10 / 6 / (r * r)) * e / (r * r)) with
    ((- (10 / 3) + sqrt 5 * sqrt 5 + sqrt 5 / r * (10 / 6)) * e / (r * r * r)) by (field; lra).
  rewrite S. field. lra.
Qed.
Lemma inv_deriv r : r <> 0 -> derivable_pt_lim (fun x => 1 / x) r (- / (r * r)).
Proof.
  intros H. replace (- / (r * r)) with ((0 * r - 1 * 1) / (r)²) by (unfold Rsqr; field; auto).
  apply (derivable_pt_lim_div (fun _ => 1) (fun x => x) r 0 1); auto.
  - apply derivable_pt_lim_const.
  - apply derivable_pt_lim_id.
Qed.
Lemma expc_deriv c r : r <> 0 ->
  derivable_pt_lim (fun x => exp (- (c * (1 / x)))) r (exp (- (c * (1 / r))) * (c / (r * r))).
Proof.
  intros H. apply (derivable_pt_lim_comp (fun x => - (c * (1 / x))) exp); [|apply derivable_pt_lim_exp].
  replace (c / (r * r)) with (- (c * - / (r * r))) by (field; auto).
  apply derivable_pt_lim_opp. apply (derivable_pt_lim_scal (fun x => 1 / x)). apply inv_deriv; auto.
Qed.
Lemma m32_deriv r : 0 < r -> derivable_pt_lim (fun x => rho Matern32 (1 / x)) r (m32_slope r).
Proof.
  intros H. simpl. replace (m32_slope r) with
    ((0 + sqrt 3 * - / (r * r)) * exp (- (sqrt 3 * (1 / r))) +
     (1 + sqrt 3 * (1 / r)) * (exp (- (sqrt 3 * (1 / r))) * (sqrt 3 / (r * r)))).
  - apply (derivable_pt_lim_mult (fun x => 1 + sqrt 3 * (1 / x)) (fun x => exp (- (sqrt 3 * (1 / x))))).
    + apply (derivable_pt_lim_plus (fun _ => 1) (fun x => sqrt 3 * (1 / x))); [apply derivable_pt_lim_const|].
      apply (derivable_pt_lim_scal (fun x => 1 / x)). apply inv_deriv; lra.
    + apply expc_deriv; lra.
  - unfold m32_slope. assert (S : sqrt 3 * sqrt 3 = 3) by (apply sqrt_sqrt; lra).
    set (e := exp _). replace (3 * e / (r * r * r)) with (sqrt 3 * sqrt 3 * e / (r * r * r)) by (rewrite S; auto).
    field. lra.
Qed.
Lemma m52_deriv r : 0 < r -> derivable_pt_lim (fun x => rho Matern52 (1 / x)) r (m52_slope r).
Proof.
  intros H. assert (S : sqrt 5 * sqrt 5 = 5) by (apply sqrt_sqrt; lra).
  replace (m52_slope r) with
    ((0 + sqrt 5 * - / (r * r) + 5 / 3 * (- / (r * r) * (1 / r) + 1 / r * - / (r * r))) * exp (- (sqrt 5 * (1 / r))) +
     (1 + sqrt 5 * (1 / r) + 5 / 3 * (1 / r * (1 / r))) * (exp (- (sqrt 5 * (1 / r))) * (sqrt 5 / (r * r)))).
  - assert (D : derivable_pt_lim (fun x => (1 + sqrt 5 * (1 / x) + 5 / 3 * (1 / x * (1 / x))) * exp (- (sqrt 5 * (1 / x)))) r
     ((0 + sqrt 5 * - / (r * r) + 5 / 3 * (- / (r * r) * (1 / r) + 1 / r * - / (r * r))) * exp (- (sqrt 5 * (1 / r))) +
     (1 + sqrt 5 * (1 / r) + 5 / 3 * (1 / r * (1 / r))) * (exp (- (sqrt 5 * (1 / r))) * (sqrt 5 / (r * r))))).
    { apply (derivable_pt_lim_mult (fun x => 1 + sqrt 5 * (1 / x) + 5 / 3 * (1 / x * (1 / x))) (fun x => exp (- (sqrt 5 * (1 / x))))).
      - apply (derivable_pt_lim_plus (fun x => 1 + sqrt 5 * (1 / x)) (fun x => 5 / 3 * (1 / x * (1 / x)))).
        + apply (derivable_pt_lim_plus (fun _ => 1) (fun x => sqrt 5 * (1 / x))); [apply derivable_pt_lim_const|].
          apply (derivable_pt_lim_scal (fun x => 1 / x)). apply inv_deriv; lra.
        + apply (derivable_pt_lim_scal (fun x => 1 / x * (1 / x))).
          apply (derivable_pt_lim_mult (fun x => 1 / x) (fun x => 1 / x)); apply inv_deriv; lra.
      - apply expc_deriv; lra. }
    intros eps He. destruct (D eps He) as [del Hd]. exists del. intros h h0 hh. specialize (Hd h h0 hh).
    simpl. match type of Hd with Rabs ((?a - ?b) / h - _) < _ => match goal with |- Rabs ((?a' - ?b') / h - _) < _ =>
      replace a' with a; [replace b' with b|] end end; auto; unfold Rdiv; ring.
  - unfold m52_slope. set (e := exp _).
    replace (5 / 3 * (1 + sqrt 5 / r) * e / (r * r * r)) with
      ((sqrt 5 * sqrt 5 - 10 / 3 + 5 / 3 * sqrt 5 / r) * e / (r * r * r)) by (rewrite S; field; lra).
    field. lra.
Qed.

(* C51 (values), C52, C53: radial covariance functions, length scales and the solver for them. *)
From Coq Require Import Reals Lra Psatz.
From Verif Require Import Base BaseProofs ExtRealModel DistanceModel DistanceSpec DistanceProofs DistanceProps
  RadialModel RadialSpec RadialProofs NewtonProofs MaternProofs.
Local Open Scope R_scope.

(* ------------------------------------------------------------------ C51 *)
(* the value is sigma^2 rho(distance / length_scale); 0 if the length scale is not positive *)
Theorem C51_value (s : shape) (d ell sigma : R) :
  covariance_of s (XFin d) (XFin ell) (XFin sigma) =
  if Rle_dec ell 0 then Ok (XFin 0)
  else if Rlt_dec d 0 then Abort else Ok (XFin (sigma ^ 2 * rho s (d / ell))).
Proof. exact (covariance_value s d ell sigma). Qed.
Print Assumptions C51_value.

(* sigma^2 at distance 0, positive and strictly decreasing with the distance *)
Theorem C51_decreasing (s : shape) (ell sigma : R) : 0 < ell -> sigma <> 0 ->
  covariance_of s (XFin 0) (XFin ell) (XFin sigma) = Ok (XFin (sigma ^ 2)) /\
  forall a b, 0 <= a < b -> exists va vb,
    covariance_of s (XFin a) (XFin ell) (XFin sigma) = Ok (XFin va) /\
    covariance_of s (XFin b) (XFin ell) (XFin sigma) = Ok (XFin vb) /\ 0 < vb < va /\ va <= sigma ^ 2.
Proof.
  intros L S. assert (P : 0 < sigma ^ 2) by (pose proof (pow2_ge_0 sigma); assert (sigma ^ 2 <> 0) by (apply pow_nonzero; auto); lra).
  split.
  - rewrite covariance_value. destruct (Rle_dec ell 0); [lra|]. destruct (Rlt_dec 0 0); [lra|].
    unfold Rdiv. rewrite Rmult_0_l, rho_0, Rmult_1_r. auto.
  - intros a b H. exists (sigma ^ 2 * rho s (a / ell)), (sigma ^ 2 * rho s (b / ell)).
    rewrite !covariance_value. destruct (Rle_dec ell 0); [lra|].
    destruct (Rlt_dec a 0); [lra|]. destruct (Rlt_dec b 0); [lra|].
    assert (I : 0 < / ell) by (apply Rinv_0_lt_compat; auto).
    assert (Q : 0 <= a / ell < b / ell) by (unfold Rdiv; split; [apply Rmult_le_pos; lra|apply Rmult_lt_compat_r; lra]).
    pose proof (rho_decreasing s (a / ell) (b / ell) ltac:(lra) ltac:(lra)).
    pose proof (rho_pos s (b / ell) ltac:(lra)). pose proof (rho_le1 s (a / ell) ltac:(lra)).
    repeat split; auto; nra.
Qed.
Print Assumptions C51_decreasing.

(* longer length scales correlate more *)
Theorem C51_length_scale (s : shape) (d a b sigma : R) : 0 < d -> 0 < a < b -> sigma <> 0 ->
  exists va vb,
    covariance_of s (XFin d) (XFin a) (XFin sigma) = Ok (XFin va) /\
    covariance_of s (XFin d) (XFin b) (XFin sigma) = Ok (XFin vb) /\ va < vb.
Proof.
  intros D L S. assert (P : 0 < sigma ^ 2) by (pose proof (pow2_ge_0 sigma); assert (sigma ^ 2 <> 0) by (apply pow_nonzero; auto); lra).
  exists (sigma ^ 2 * rho s (d / a)), (sigma ^ 2 * rho s (d / b)). rewrite !covariance_value.
  destruct (Rle_dec a 0); [lra|]. destruct (Rle_dec b 0); [lra|]. destruct (Rlt_dec d 0); [lra|].
  repeat split; auto. apply Rmult_lt_compat_l; auto. apply rho_decreasing.
  - apply Rmult_le_pos; [lra|apply Rlt_le, Rinv_0_lt_compat; lra].
  - unfold Rdiv. apply Rmult_lt_compat_l; auto. apply Rinv_lt_contravar; [|lra]. apply Rmult_lt_0_compat; lra.
Qed.
Print Assumptions C51_length_scale.

(* calls on features: symmetric and between 0 and sigma^2, for every metric that is a distance *)
Theorem C51_bounded {X} (P : X -> Prop) same metric (s : shape) (ell sigma : R) (x y : X) :
  distance_on P same metric -> P x -> P y ->
  exists v, radial_call metric (covariance_of s) (XFin ell) (XFin sigma) x y = Ok (XFin v) /\
            radial_call metric (covariance_of s) (XFin ell) (XFin sigma) y x = Ok (XFin v) /\
            0 <= v <= sigma ^ 2 /\ (same x y -> 0 < ell -> v = sigma ^ 2).
Proof.
  intros [D _] Px Py. destruct (D x y Px Py) as [d (E1 & E2 & E3 & E4)].
  unfold radial_call. rewrite E1, E2. cbn [bind]. rewrite covariance_value. pose proof (pow2_ge_0 sigma).
  destruct (Rle_dec ell 0) as [L|L].
  - exists 0. repeat split; lra.
  - destruct (Rlt_dec d 0); [lra|]. eexists. split; [reflexivity|split; [reflexivity|]].
    assert (Q : 0 <= d / ell) by (apply Rmult_le_pos; [lra|apply Rlt_le, Rinv_0_lt_compat; lra]).
    pose proof (rho_pos s _ Q). pose proof (rho_le1 s _ Q). repeat split; try nra.
    intros Sm _. apply E4 in Sm. subst d. unfold Rdiv. rewrite Rmult_0_l, rho_0. ring.
Qed.
Print Assumptions C51_bounded.
Example C51_bounded_meets : distance_on (fun x => length x = 2%nat) eq euclidean_distance /\ length [1; 3] = 2%nat.
Proof. split; [apply C64_euclidean|auto]. Qed.

(* an infinite distance: 0 for the exponentials but NaN for the Matern functions *)
Theorem C51_infinite_distance_refuted (s : shape) (ell sigma : R) : 0 < ell -> sigma <> 0 ->
  covariance_of s XPos (XFin ell) (XFin sigma) =
  Ok (match s with Matern32 | Matern52 => XNaN | _ => XFin 0 end).
Proof.
  intros L S. assert (0 < sigma * sigma) by nra. pose proof sqrt3_pos. pose proof sqrt5_pos.
  destruct s; simpl; unfold squared_exponential_covariance, exponential_covariance,
      matern_32_covariance, matern_52_covariance, xgeb, assert_then; simpl; repeat (rb; simpl);
  rewrite ?Rmult_0_r; auto.
Qed.
Print Assumptions C51_infinite_distance_refuted.

(* the angular distance of a zero vector is NaN: an assertion fails *)
Theorem C51_zero_vector_refuted (ell sigma : R) (x y : list R) : 0 < ell -> length x = length y ->
  ~ nonzero x \/ ~ nonzero y ->
  radial_call angular_distance exponential_covariance (XFin ell) (XFin sigma) x y = Abort.
Proof.
  intros L H Z. unfold radial_call. rewrite (C64_angular_zero_refuted x y H Z). cbn [bind].
  exact (covariance_nan Exponential ell sigma L).
Qed.
Print Assumptions C51_zero_vector_refuted.

(* ------------------------------------------------------------------ C52 *)
(* the derived length scale is the one positive length scale with the requested process noise *)
Theorem C52_reproduces (s : shape) (ref prior inc : R) : s = SquaredExponential \/ s = Exponential ->
  0 < ref -> 0 < inc < prior ->
  exists ell, derive_of s (XFin ref) (XFin prior) (XFin inc) = Ok (XFin ell) /\ 0 < ell /\
    process_noise_equivalent (fun d => covariance_of s d (XFin ell) (XFin prior)) (XFin ref) = Ok (XFin inc) /\
    forall ell', 0 < ell' -> noise_after s ref ell' prior = inc <-> ell' = ell.
Proof.
  intros Hs Hr [Hi Hp]. destruct (derive_closed_ok ref prior inc Hr Hi Hp s Hs) as [ell E].
  destruct (derive_closed ref prior inc Hr Hi Hp s ell Hs E) as [L N].
  exists ell. split; [auto|split; [auto|split]].
  - assert (Q : 0 <= ref / ell) by (apply Rmult_le_pos; [lra|apply Rlt_le, Rinv_0_lt_compat; lra]).
    rewrite (pne_value _ ref (prior ^ 2) (prior ^ 2 * rho s (ref / ell))).
    + f_equal. f_equal. exact N.
    + unfold lit. rewrite covariance_value. destruct (Rle_dec ell 0); [lra|]. destruct (Rlt_dec 0 0); [lra|].
      unfold Rdiv. rewrite Rmult_0_l, rho_0, Rmult_1_r. auto.
    + rewrite covariance_value. destruct (Rle_dec ell 0); [lra|]. destruct (Rlt_dec ref 0); [lra|]. auto.
    + apply pow_lt. lra.
    + pose proof (rho_pos s _ Q). pose proof (rho_le1 s _ Q). assert (0 < prior ^ 2) by (apply pow_lt; lra).
      assert (prior ^ 2 * rho s (ref / ell) <= prior ^ 2) by nra.
      assert (0 <= prior ^ 2 * rho s (ref / ell)) by nra. nra.
  - intros ell' L'. split; [|intros ->; auto]. intros N'. apply (noise_inj s ref ell' ell prior); auto; lra.
Qed.
Print Assumptions C52_reproduces.
Example C52_reproduces_meets : 0 < 10 /\ 0 < 1 < 2. Proof. lra. Qed.

(* process_noise_equivalent of any of the functions is the conditional standard deviation *)
Theorem C52_process_noise (s : shape) (d ell sigma : R) : 0 <= d -> 0 < ell -> 0 < sigma ->
  process_noise_equivalent (fun d => covariance_of s d (XFin ell) (XFin sigma)) (XFin d) =
  Ok (XFin (noise_after s d ell sigma)).
Proof.
  intros D L S. apply pne_value.
  - unfold lit. rewrite covariance_value. destruct (Rle_dec ell 0); [lra|]. destruct (Rlt_dec 0 0); [lra|].
    unfold Rdiv. rewrite Rmult_0_l, rho_0, Rmult_1_r. auto.
  - rewrite covariance_value. destruct (Rle_dec ell 0); [lra|]. destruct (Rlt_dec d 0); [lra|]. auto.
  - apply pow_lt. lra.
  - assert (Q : 0 <= d / ell) by (apply Rmult_le_pos; [lra|apply Rlt_le, Rinv_0_lt_compat; lra]).
    pose proof (rho_pos s _ Q). pose proof (rho_le1 s _ Q). assert (0 < sigma ^ 2) by (apply pow_lt; lra).
    assert (sigma ^ 2 * rho s (d / ell) <= sigma ^ 2) by nra.
    assert (0 <= sigma ^ 2 * rho s (d / ell)) by nra. nra.
Qed.
Print Assumptions C52_process_noise.

(* arguments that no length scale matches *)
Theorem C52_invalid (s : shape) (ref prior inc : R) :
  derive_of s (XFin ref) (XFin prior) (XFin inc) =
    (if Rle_dec ref 0 then Abort
     else if Rle_dec inc 0 then Ok (XFin (10 ^ 7 * ref))
     else if Rle_dec prior 0 then Ok (XFin (10 ^ 7 * ref))
     else if Rle_dec prior inc then Ok (XFin (/ 10 ^ 7 * ref))
     else derive_of s (XFin ref) (XFin prior) (XFin inc)).
Proof.
  destruct (Rle_dec ref 0); [apply derive_bad_reference; auto|].
  destruct (Rle_dec inc 0); [apply derive_large; lra|].
  destruct (Rle_dec prior 0); [apply derive_large; lra|].
  destruct (Rle_dec prior inc); [apply derive_small; lra|auto].
Qed.
Print Assumptions C52_invalid.

(* ------------------------------------------------------------------ C67 *)
(* Matern functions: no assertion fails, the result is within the allowed ratios; the bound is returned when
   the requested noise is out of reach, and otherwise the result is that of at most 50 safeguarded Newton steps
   for the log of the process noise, whose derivative is exact. (MaternProps.v: the steps are enough for small
   requests, and not for some larger ones.) *)
Theorem C67_matern (s : shape) (ref prior inc : R) : s = Matern32 \/ s = Matern52 ->
  0 < ref -> 0 < inc < prior ->
  exists ell, derive_of s (XFin ref) (XFin prior) (XFin inc) = Ok (XFin ell) /\
    / 10 ^ 7 * ref <= ell <= 10 ^ 7 * ref /\
    let lowest := noise_after s ref (10 ^ 7 * ref) prior in
    let highest := noise_after s ref (/ 10 ^ 7 * ref) prior in
    (highest <= inc -> ell = / 10 ^ 7 * ref) /\
    (inc <= lowest -> inc < highest -> ell = 10 ^ 7 * ref) /\
    (lowest < inc < highest ->
       let log_noise r := ln (noise_after s ref (r * ref) prior) in
       exists r start slope, ell = r * ref /\ / 10 ^ 7 <= start <= 10 ^ 7 /\
         (forall r, / 10 ^ 7 <= r <= 10 ^ 7 -> derivable_pt_lim log_noise r (- slope r)) /\
         newton_result (ln inc) log_noise slope (/ 10 ^ 7) (10 ^ 7) (/ 10 ^ 12) start 50 r).
Proof.
  intros Hs Hr [Hi Hp]. destruct (derive_matern s ref prior inc Hs Hr Hi Hp) as [ell (E & B & O1 & O2 & O3)].
  exists ell. split; [auto|split; [auto|]]. cbv zeta. split; [auto|split; [auto|]].
  intros [L H]. destruct (O3 H L) as [r [Er Nr]].
  exists r, (guess0 s prior inc), (log_slope s).
  pose proof min_pos as P. pose proof max_gt as Q. assert (P2 : 0 < 10 ^ 7) by lra.
  assert (EQ : forall x, 0 < x -> log_noise s prior x = ln (noise_after s ref (x * ref) prior))
    by (intros x Hx; unfold log_noise; rewrite (scaled_noise s ref prior Hr x Hx); auto).
  assert (GB : / 10 ^ 7 <= guess0 s prior inc <= 10 ^ 7).
  { apply guess0_bounds; rewrite EQ by auto; apply ln_increasing; auto.
    rewrite (scaled_noise s ref prior Hr) by auto. exact (noise_pos s prior inc Hi Hp _ P2). }
  split; [auto|split; [auto|split]].
  - intros x Hx. assert (X : 0 < x) by lra. pose proof (log_noise_deriv s prior inc Hs Hi Hp x X) as D.
    intros eps He. destruct (D eps He) as [del Hd].
    assert (M : 0 < Rmin del x) by (apply Rmin_glb_lt; [apply cond_pos|auto]).
    exists (mkposreal _ M). simpl. intros h h0 hh.
    assert (hh1 : Rabs h < del) by (eapply Rlt_le_trans; [exact hh|apply Rmin_l]).
    assert (hh2 : Rabs h < x) by (eapply Rlt_le_trans; [exact hh|apply Rmin_r]).
    assert (0 < x + h) by (pose proof (Rle_abs (- h)); rewrite Rabs_Ropp in *; lra).
    rewrite <- !EQ by auto. apply Hd; auto.
  - destruct Nr as [k (K1 & K2 & K3 & K4)].
    assert (SE : forall g, / 10 ^ 7 <= g <= 10 ^ 7 ->
      safeguarded_step (ln inc) (fun r => ln (noise_after s ref (r * ref) prior)) (log_slope s) (/ 10 ^ 7) (10 ^ 7) g =
      safeguarded_step (ln inc) (log_noise s prior) (log_slope s) (/ 10 ^ 7) (10 ^ 7) g).
    { intros g Bg. unfold safeguarded_step. rewrite EQ by lra. auto. }
    assert (IE : forall i,
      safeguarded_iterate (ln inc) (fun r => ln (noise_after s ref (r * ref) prior)) (log_slope s) (/ 10 ^ 7) (10 ^ 7) (guess0 s prior inc) i =
      safeguarded_iterate (ln inc) (log_noise s prior) (log_slope s) (/ 10 ^ 7) (10 ^ 7) (guess0 s prior inc) i).
    { induction i as [|i IH]; auto. cbn [safeguarded_iterate]. rewrite IH. apply SE.
      apply iterate_bounds; auto. lra. }
    assert (IB : forall i, 0 < safeguarded_iterate (ln inc) (log_noise s prior) (log_slope s) (/ 10 ^ 7) (10 ^ 7) (guess0 s prior inc) i).
    { intros i. pose proof (iterate_bounds (ln inc) (/ 10 ^ 7) (10 ^ 7) (log_noise s prior) (log_slope s) ltac:(lra) (guess0 s prior inc) i GB). lra. }
    exists k. split; [auto|split; [rewrite IE; auto|split]].
    + intros i Hik. rewrite IE, <- EQ by auto. apply K3; auto.
    + destruct K4 as [K4|K4]; [left; auto|right]. rewrite IE, <- EQ by auto. auto.
Qed.
Print Assumptions C67_matern.

(* ------------------------------------------------------------------ C53 *)
(* the result is within the bounds, whatever the function and the gradient return (NaN and infinities
   included), if the start is *)
Theorem C53_bounds target func grad (lower upper : R) tolerance guess r : lower <= upper ->
  in_bounds lower upper guess ->
  newton_solve target func grad (XFin lower) (XFin upper) tolerance guess = Ok r -> in_bounds lower upper r.
Proof.
  unfold newton_solve. generalize MAX_NEWTON_ITERATIONS as n. intros n H B E.
  exact (newton_loop_bounds target func grad lower upper tolerance n H guess r B E).
Qed.
Print Assumptions C53_bounds.
Example C53_bounds_meets : exists r,
  newton_solve (XFin 0) (fun _ => Ok XNaN) (fun _ => Ok XNaN) (XFin 1) (XFin 2) (XFin 1) (XFin 1) = Ok r /\ in_bounds 1 2 (XFin 1).
Proof. eexists. split; [reflexivity|]. exists 1. split; [auto|lra]. Qed.

(* it evaluates the function and the gradient at 50 points at most *)
Theorem C53_calls target func grad lower upper tolerance guess :
  exists points, (length points <= 50)%nat /\
    forall func' grad', (forall p, In p points -> func' p = func p /\ grad' p = grad p) ->
      newton_solve target func' grad' lower upper tolerance guess =
      newton_solve target func grad lower upper tolerance guess.
Proof.
  unfold newton_solve. change 50%nat with MAX_NEWTON_ITERATIONS. generalize MAX_NEWTON_ITERATIONS as n. intros n.
  exact (newton_loop_calls target func grad lower upper tolerance n guess).
Qed.
Print Assumptions C53_calls.

(* for functions with finite values and gradients other than 0 it is the safeguarded Newton iteration *)
Theorem C53_iteration (target lower upper tol : R) func grad f slope (g : R) :
  lower <= g <= upper ->
  (forall x, lower <= x <= upper -> func (XFin x) = Ok (XFin (f x))) ->
  (forall x, lower <= x <= upper -> grad (XFin x) = Ok (XFin (slope x))) ->
  (forall x, lower <= x <= upper -> slope x <> 0) ->
  exists r, newton_solve (XFin target) func grad (XFin lower) (XFin upper) (XFin tol) (XFin g) = Ok (XFin r) /\
    newton_result target f slope lower upper tol g 50 r.
Proof.
  unfold newton_solve. change 50%nat with MAX_NEWTON_ITERATIONS. generalize MAX_NEWTON_ITERATIONS as n.
  intros n B Hf Hg Hs. exact (loop_result target lower upper tol func grad f slope ltac:(lra) Hf Hg Hs n g B).
Qed.
Print Assumptions C53_iteration.
Example C53_iteration_meets :
  (forall x, 1 <= x <= 3 -> (fun v => Ok (xsub (XFin 2) v)) (XFin x) = Ok (XFin (2 - x))) /\
  (forall x, 1 <= x <= 3 -> (fun _ : R => 1) x <> 0).
Proof. split; intros; [auto|lra]. Qed.

(* a straight line is solved whatever the start *)
Theorem C53_line (target lower upper tol a b : R) func grad (g : R) :
  lower <= g <= upper -> 0 < tol -> b <> 0 -> lower < (a - target) / b < upper ->
  (forall x, func (XFin x) = Ok (XFin (a - b * x))) -> (forall x, grad (XFin x) = Ok (XFin b)) ->
  exists r, newton_solve (XFin target) func grad (XFin lower) (XFin upper) (XFin tol) (XFin g) = Ok (XFin r) /\
    Rabs (target - (a - b * r)) < tol.
Proof.
  intros B T Nb Root Hf Hg. unfold newton_solve. replace MAX_NEWTON_ITERATIONS with (S (S 48)) by auto.
  generalize 48%nat as n. intros n.
  assert (Hf' : forall x, lower <= x <= upper -> func (XFin x) = Ok (XFin ((fun x => a - b * x) x))) by auto.
  assert (Hg' : forall x, lower <= x <= upper -> grad (XFin x) = Ok (XFin ((fun _ => b) x))) by auto.
  rewrite (loop_step target lower upper tol func grad _ _ ltac:(lra) Hf' Hg' (fun _ _ => Nb)) by auto.
  destruct (Rlt_dec _ _) as [L|L]; [exists g; auto|].
  assert (E : safeguarded_step target (fun x => a - b * x) (fun _ => b) lower upper g = (a - target) / b).
  { unfold safeguarded_step.
    replace (g - (target - (a - b * g)) / b) with ((a - target) / b) by (field; auto).
    destruct (Rle_dec _ _); [lra|]. destruct (Rle_dec _ _); lra. }
  rewrite E, (loop_step target lower upper tol func grad _ _ ltac:(lra) Hf' Hg' (fun _ _ => Nb)) by lra.
  replace (target - (a - b * ((a - target) / b))) with 0 by (field; auto). rewrite Rabs_R0.
  destruct (Rlt_dec 0 tol); [|lra]. exists ((a - target) / b). split; auto.
  replace (target - (a - b * ((a - target) / b))) with 0 by (field; auto). rewrite Rabs_R0. auto.
Qed.
Print Assumptions C53_line.
Example C53_line_meets : 1 <= 1 <= 3 /\ 0 < 1 /\ (1 <> 0) /\ 1 < (2 - 0) / 1 < 3. Proof. lra. Qed.

(* a convex decreasing function started left of its root is approached from the left *)
Theorem C53_convex (target lower upper tol : R) func grad f slope (g : R) :
  lower <= g <= upper ->
  (forall x, lower <= x <= upper -> func (XFin x) = Ok (XFin (f x))) ->
  (forall x, lower <= x <= upper -> grad (XFin x) = Ok (XFin (slope x))) ->
  (forall x, lower <= x <= upper -> 0 < slope x) ->
  (forall x y, lower <= x <= upper -> lower <= y <= upper -> f x - slope x * (y - x) <= f y) ->
  f upper < target -> target <= f g ->
  exists r, newton_solve (XFin target) func grad (XFin lower) (XFin upper) (XFin tol) (XFin g) = Ok (XFin r) /\
    g <= r <= upper /\ target <= f r.
Proof.
  intros B Hf Hg Hp Hc Hr Ht.
  assert (Hs : forall x, lower <= x <= upper -> slope x <> 0) by (intros x Hx; specialize (Hp x Hx); lra).
  destruct (C53_iteration target lower upper tol func grad f slope g B Hf Hg Hs) as [r [E [k (_ & -> & _)]]].
  eexists. split; [exact E|]. apply (iterate_convex target lower upper); auto. lra.
Qed.
Print Assumptions C53_convex.
Example C53_convex_meets :
  (forall x, 1 <= x <= 3 -> 0 < 1 / (x * x)) /\
  (forall x y, 1 <= x <= 3 -> 1 <= y <= 3 -> 1 / x - 1 / (x * x) * (y - x) <= 1 / y).
Proof.
  split.
  - intros x H. apply Rmult_lt_0_compat; [lra|]. apply Rinv_0_lt_compat. nra.
  - intros x y Hx Hy.
    assert (E : 1 / y - (1 / x - 1 / (x * x) * (y - x)) = (x - y) * (x - y) / (x * x * y)) by (field; lra).
    assert (0 <= (x - y) * (x - y) / (x * x * y)).
    { apply Rmult_le_pos; [apply Rle_0_sqr|]. apply Rlt_le, Rinv_0_lt_compat. repeat apply Rmult_lt_0_compat; lra. }
    lra.
Qed.

(* the start is not moved into the bounds when no step is needed or possible *)
Theorem C53_start_refuted : exists func grad guess r,
  newton_solve (XFin 0) func grad (XFin 1) (XFin 2) (XFin (/ 10 ^ 12)) guess = Ok r /\ ~ in_bounds 1 2 r.
Proof.
  exists (fun _ => Ok (XFin 0)), (fun _ => Ok (XFin 1)), (XFin 5), (XFin 5).
  split.
  - unfold newton_solve. replace MAX_NEWTON_ITERATIONS with (S 49) by auto. generalize 49%nat as n. intros n. cbn [newton_loop bind xsub xopp xadd xisfinite negb xabs xltb].
    rewrite (proj2 (Rltb_true _ _)); auto. replace (0 + - 0) with 0 by ring. rewrite Rabs_R0.
    apply Rinv_0_lt_compat, pow_lt. lra.
  - intros [x [E H]]. injection E as <-. lra.
Qed.
Print Assumptions C53_start_refuted.

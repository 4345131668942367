(* C72: the chi-squared distribution function and the incomplete gamma function. C95: from twenty degrees of freedom on. *)
From Coq Require Import Reals List ZArith Bool Lra Lia.
From Coquelicot Require Import Coquelicot.
From Verif Require Import Base ExtRealModel ExtRealProofs DistanceModel DistanceProofs RadialModel ChiSquaredModel ChiSquaredSpec ChiSquaredProofs
  IncompleteGammaProofs QuadratureProofs GammaExample GammaTail FractionAccuracy.
Import ListNotations.
Local Open Scope R_scope.

Lemma eps_pos : 0 < epsilon < / 2.
Proof. unfold epsilon. split; [apply Rinv_0_lt_compat, pow_lt; lra|]. apply Rinv_lt_contravar; lra. Qed.
Ltac decide_lt := repeat match goal with
  | |- context [Rltb ?a ?b] => first [rewrite (proj2 (Rltb_true a b)) by lra | rewrite (proj2 (Rltb_false a b)) by lra]
  | |- context [Reqb ?a ?b] => first [rewrite (proj2 (Reqb_true a b)) by lra | rewrite (proj2 (Reqb_false a b)) by lra] end.

Section C72.
Variables tgamma lgamma : xr -> xr.
Notation cdf := (chi_squared_cdf tgamma lgamma).
Notation inc := (incomplete_gamma tgamma lgamma).

(* ---- arguments at the boundary; no assumption about the gamma function ---- *)
Theorem C72_invalid x dof : (x = XNaN \/ x = XNeg \/ exists r, x = XFin r /\ r < 0) -> cdf x dof = Ok XNaN.
Proof.
  unfold chi_squared_cdf. intros [->|[->|[r [-> r0]]]]; auto. cbn [xisnan xltb]. decide_lt. reflexivity.
Qed.
Theorem C72_invalid_dof x dof : epsilon <= x -> (dof = XNaN \/ dof = XNeg \/ exists r, dof = XFin r /\ r < 0) -> cdf (XFin x) dof = Ok XNaN.
Proof.
  pose proof eps_pos. intros xe D. unfold chi_squared_cdf, xgtb. cbn [xisnan xltb orb]. decide_lt. unfold incomplete_gamma.
  destruct D as [->|[->|[r [-> r0]]]]; cbn [xisinf xeqb xmul xscale xisnan orb xltb]; decide_lt; reflexivity.
Qed.
(* no degrees of freedom: all the mass is at 0 *)
Theorem C72_zero_dof x : (x = XPos \/ exists r, x = XFin r /\ 0 <= r) -> cdf x (XFin 0) = Ok (XFin 1).
Proof.
  intros H. assert (E : xisnan x || xltb x (XFin 0) = false).
  { destruct H as [->|[r [-> r0]]]; auto. cbn [xisnan xltb]. decide_lt. reflexivity. }
  unfold chi_squared_cdf. rewrite E. cbn [xeqb]. decide_lt. reflexivity.
Qed.
(* the limits at 0 and at infinity *)
Theorem C72_limits n : 0 < n -> cdf XPos (XFin n) = Ok (XFin 1) /\ forall x, 0 <= x < 2 * epsilon -> cdf (XFin x) (XFin n) = Ok (XFin 0).
Proof.
  pose proof eps_pos. intros n0. unfold chi_squared_cdf, xgtb. cbn [xeqb xisnan xltb orb]. split; [decide_lt; reflexivity|]. intros x X. decide_lt.
  destruct (Rltb x epsilon) eqn:E; [reflexivity|]. cbn [xisinf xmul xscale]. unfold incomplete_gamma, xgtb. cbn [xisnan xltb orb]. decide_lt. reflexivity.
Qed.
(* the checks come in the wrong order: negative or NaN degrees of freedom still give 0 or 1 *)
Theorem C72_invalid_dof_refuted dof : dof <> XFin 0 -> (forall x, 0 <= x < epsilon -> cdf (XFin x) dof = Ok (XFin 0)) /\ cdf XPos dof = Ok (XFin 1).
Proof.
  pose proof eps_pos. intros N. assert (E : xeqb dof (XFin 0) = false).
  { destruct dof; auto. cbn [xeqb]. apply Reqb_false. intros ->. auto. }
  unfold chi_squared_cdf, xgtb. rewrite E. cbn [xisnan xltb orb]. split; [|reflexivity]. intros x X. decide_lt. reflexivity.
Qed.

(* ---- a function of deviation and variance ---- *)
Theorem C72_deviation d v n : 0 < v -> chi_squared_cdf_deviation tgamma lgamma (XFin d) (XFin v) n = cdf (XFin (d ^ 2 / v)) (XFin (INR n)).
Proof. intros v0. unfold chi_squared_cdf_deviation. cbn [xmul xscale xdiv]. decide_lt. do 2 f_equal. simpl. unfold Rdiv. ring. Qed.
Theorem C72_deviation_scale d v k n : 0 < v -> k <> 0 ->
  chi_squared_cdf_deviation tgamma lgamma (XFin (k * d)) (XFin (k ^ 2 * v)) n = chi_squared_cdf_deviation tgamma lgamma (XFin d) (XFin v) n.
Proof.
  intros v0 k0. assert (0 < k ^ 2) by (apply pow2_gt_0; auto). rewrite !C72_deviation by (auto; nra). do 2 f_equal. field. split; auto; lra.
Qed.
(* no variance: certain, unless the deviation is 0 too; a negative variance: NaN *)
Theorem C72_deviation_degenerate d n : (0 < n)%nat -> d <> 0 ->
  chi_squared_cdf_deviation tgamma lgamma (XFin d) (XFin 0) n = Ok (XFin 1) /\
  chi_squared_cdf_deviation tgamma lgamma (XFin 0) (XFin 0) n = Ok XNaN /\
  forall v, v < 0 -> chi_squared_cdf_deviation tgamma lgamma (XFin d) (XFin v) n = Ok XNaN.
Proof.
  intros n0 d0. assert (0 < d * d) by nra. assert (0 < INR n) by (apply lt_0_INR; auto).
  unfold chi_squared_cdf_deviation. cbn [xmul xscale]. repeat split.
  - unfold xdiv. decide_lt. apply C72_limits; auto.
  - unfold xdiv. decide_lt. apply C72_invalid. left. decide_lt. reflexivity.
  - intros v v0. unfold xdiv. decide_lt. apply C72_invalid. right. right. eexists. split; [reflexivity|].
    unfold Rdiv. assert (/ v < 0) by (apply Rinv_lt_0_compat; auto). nra.
Qed.

(* ---- the quadrature rule integrates polynomials of degree up to 99 ---- *)
Theorem C72_quadrature c lb ub fn : (length c <= 100)%nat -> lb < ub -> (forall x, fn (XFin x) = XFin (poly c (normalised lb ub x))) ->
  exists q, quadrature_rule fn (XFin lb) (XFin ub) = Ok (XFin q) /\
    Rabs (q - RInt (fun x => poly c (normalised lb ub x)) lb ub) <= (ub - lb) / 2 * (/ 10 ^ 32) * abs_sum c.
Proof. exact (quadrature_exact c lb ub fn). Qed.

(* the specification: the integral of t^(a-1) exp(-t) from 0 *)
Theorem C72_specification a z : 0 < a -> 0 < z ->
  is_derive (fun z => lower_gamma a z) z (exp ((a - 1) * ln z - z)) /\ 0 < lower_gamma a z <= exp (a * ln z) / a /\ exists g, is_gamma a g.
Proof.
  intros a0 z0. split; [apply lower_gamma_derive; auto|]. split; [apply lower_gamma_bound; auto|].
  destruct (gamma a a0) as [g G]. exists g. exact G.
Qed.

(* ---- with the gamma function of the standard library ---- *)
Hypothesis hg : gamma_contract tgamma lgamma.

Lemma unfold_small x n : 0 < n < 20 -> 2 * epsilon <= n -> 2 * epsilon <= x ->
  cdf (XFin x) (XFin n) = Ok (incomplete_gamma_continuous_fraction tgamma (XFin (n / 2)) (XFin (x / 2))).
Proof.
  pose proof eps_pos. intros n0 ne xe. unfold chi_squared_cdf, xgtb. cbn [xeqb xisnan xltb orb xisinf xmul xscale]. decide_lt.
  unfold incomplete_gamma, xgtb. cbn [xisnan xltb orb]. decide_lt. do 3 f_equal; lra.
Qed.
Lemma unfold_large x n : 20 <= n -> 2 * epsilon <= x -> cdf (XFin x) (XFin n) = incomplete_gamma_quadrature lgamma (XFin (n / 2)) (XFin (x / 2)).
Proof.
  pose proof eps_pos. intros n0 xe. unfold chi_squared_cdf, xgtb. cbn [xeqb xisnan xltb orb xisinf xmul xscale]. decide_lt.
  unfold incomplete_gamma, xgtb. cbn [xisnan xltb orb]. decide_lt. do 2 f_equal; lra.
Qed.

(* a probability, for up to twenty degrees of freedom *)
Theorem C72_probability x n : 0 <= x -> 0 <= n < 20 -> exists p, cdf (XFin x) (XFin n) = Ok (XFin p) /\ 0 <= p <= 1.
Proof.
  pose proof eps_pos. intros x0 n0. destruct (Req_dec n 0) as [->|N].
  { exists 1. split; [apply C72_zero_dof; right; eexists; split; [reflexivity | auto] | lra]. }
  destruct (Rlt_dec x (2 * epsilon)) as [X|X].
  { exists 0. split; [apply C72_limits; lra | lra]. }
  destruct (Rlt_dec n (2 * epsilon)) as [X'|X'].
  { exists 1. split; [|lra]. unfold chi_squared_cdf, xgtb. cbn [xeqb xisnan xltb orb xisinf xmul xscale]. decide_lt.
    unfold incomplete_gamma, xgtb. cbn [xisnan xltb orb]. decide_lt. reflexivity. }
  rewrite unfold_small by lra. destruct (hg (n / 2) ltac:(lra)) as [g [G [tg _]]].
  destruct (fraction_probability tgamma (n / 2) (x / 2) g) as [p [-> P]]; auto; [lra | apply (gamma_pos (n / 2)); auto; lra | exists p; auto].
Qed.

(* the distribution function, for every degree of freedom below twenty and every argument the code does not round to 0:
   never below the true value, and above it by at most 3e-5 *)
Theorem C72_accuracy x n : 0 < n < 20 -> 2 * epsilon <= x ->
  exists p g, cdf (XFin x) (XFin n) = Ok (XFin p) /\ is_gamma (n / 2) g /\
    lower_gamma (n / 2) (x / 2) / g <= p <= lower_gamma (n / 2) (x / 2) / g + 3 / 10 ^ 5.
Proof.
  pose proof eps_pos. intros n0 x0. destruct (hg (n / 2) ltac:(lra)) as [g [G [tg _]]]. destruct (Rlt_dec n (2 * epsilon)) as [X'|X'].
  - exists 1, g. split; [|split; auto; apply tiny_shape; auto; lra]. unfold chi_squared_cdf, xgtb. cbn [xeqb xisnan xltb orb xisinf xmul xscale]. decide_lt.
    unfold incomplete_gamma, xgtb. cbn [xisnan xltb orb]. decide_lt. reflexivity.
  - rewrite unfold_small by lra. destruct (fraction_close tgamma (n / 2) (x / 2) g) as [p [-> P]]; auto; try lra. exists p, g. auto.
Qed.
(* what the code rounds to 0 is that small, from one degree of freedom on *)
Theorem C72_near_zero x n g : 1 <= n -> 0 < x < 2 * epsilon -> is_gamma (n / 2) g ->
  cdf (XFin x) (XFin n) = Ok (XFin 0) /\ 0 < lower_gamma (n / 2) (x / 2) / g <= / 10 ^ 7.
Proof. intros n0 x0 G. split; [apply C72_limits; lra | apply near_zero; auto; lra]. Qed.
(* finding: for a small fraction of a degree of freedom most of the mass is below epsilon, and the code answers 0 there *)
Theorem C72_near_zero_refuted x g : epsilon <= x < 2 * epsilon -> is_gamma (/ 100 / 2) g ->
  cdf (XFin x) (XFin (/ 100)) = Ok (XFin 0) /\ 7 / 10 <= lower_gamma (/ 100 / 2) (x / 2) / g.
Proof. pose proof eps_pos. intros x0 G. split; [apply C72_limits; lra | apply mass_near_zero; auto]. Qed.

(* up to a little above the mean it is 11 digits *)
Theorem C72_eleven_digits x n : 1 <= n < 20 -> 2 * epsilon <= x <= n + 2 ->
  exists p g, cdf (XFin x) (XFin n) = Ok (XFin p) /\ is_gamma (n / 2) g /\ Rabs (p - lower_gamma (n / 2) (x / 2) / g) <= / 10 ^ 11.
Proof.
  pose proof eps_pos. intros n0 x0. rewrite unfold_small by lra. destruct (hg (n / 2) ltac:(lra)) as [g [G [tg _]]].
  destruct (fraction_accuracy tgamma (n / 2) (x / 2) g) as [p [-> P]]; auto; try lra. exists p, g. auto.
Qed.

(* twenty degrees of freedom or more: positive, and as accurate as the best polynomial of degree 99 for the density on the
   window. Missing: a bound e for the density, which would also give at most 1 + 10^-10 *)
Theorem C95_accuracy_partial x n c e : 20 <= n -> 2 * epsilon <= x -> (length c <= 100)%nat ->
  let a := n / 2 in let z := x / 2 in let lb := window_lower a z in let ub := window_upper a z in
  (forall g, is_gamma a g -> forall t, lb < t < ub -> Rabs (gamma_density a g t - poly c (normalised lb ub t)) <= e) ->
  exists q g, cdf (XFin x) (XFin n) = Ok (XFin q) /\ 0 < q /\ is_gamma a g /\
    Rabs (q - lower_gamma a z / g) <= / 10 ^ 10 + (ub - lb) * (2 * e + / 10 ^ 32 * abs_sum c).
Proof.
  pose proof eps_pos. intros n0 xe L a z lb ub A. rewrite unfold_large by auto. destruct (hg a) as [g [G [_ lg]]]; [unfold a; lra|].
  destruct (quadrature_accuracy lgamma a g z c e) as [q [E [q0 B]]]; auto; try (unfold a, z; lra). exists q, g. auto.
Qed.
Theorem C95_positive x n : 20 <= n -> 2 * epsilon <= x -> exists q, cdf (XFin x) (XFin n) = Ok (XFin q) /\ 0 < q.
Proof.
  pose proof eps_pos. intros n0 xe. rewrite unfold_large by auto. destruct (hg (n / 2) ltac:(lra)) as [g [G [_ lg]]].
  apply (quadrature_positive (n / 2) g); auto; try lra. apply (gamma_pos (n / 2)); auto; lra.
Qed.
(* far in the tail the value no longer changes *)
Theorem C95_saturates x y n : 20 <= n -> n + 26 * sqrt (n / 2 + 1) <= x -> x <= y -> cdf (XFin x) (XFin n) = cdf (XFin y) (XFin n).
Proof.
  pose proof eps_pos. intros n0 xe xy. assert (0 <= sqrt (n / 2 + 1)) by apply sqrt_pos. rewrite !unfold_large by lra.
  unfold incomplete_gamma_quadrature. rewrite !bounds_saturate by lra. reflexivity.
Qed.

(* incomplete_gamma at infinity is 1 in the limit, but the code gives NaN for a < 10 and a positive number from there *)
Theorem C72_infinite_refuted a : epsilon <= a < 10 -> inc (XFin a) XPos = Ok XNaN.
Proof.
  pose proof eps_pos. intros a0. unfold incomplete_gamma, xgtb. cbn [xisnan xltb orb]. decide_lt. rewrite fraction_infinite by lra. reflexivity.
Qed.
End C72.
Print Assumptions C72_invalid.
Print Assumptions C72_invalid_dof.
Print Assumptions C72_zero_dof.
Print Assumptions C72_limits.
Print Assumptions C72_invalid_dof_refuted.
Print Assumptions C72_deviation.
Print Assumptions C72_deviation_scale.
Print Assumptions C72_deviation_degenerate.
Print Assumptions C72_quadrature.
Print Assumptions C72_specification.
Print Assumptions C72_probability.
Print Assumptions C72_accuracy.
Print Assumptions C72_near_zero.
Print Assumptions C72_near_zero_refuted.
Print Assumptions C72_eleven_digits.
Print Assumptions C95_accuracy_partial.
Print Assumptions C95_positive.
Print Assumptions C95_saturates.
Print Assumptions C72_infinite_refuted.

(* the contract is met, and two degrees of freedom give the exponential distribution *)
Example C72_meets : gamma_contract the_tgamma the_lgamma. Proof. exact the_contract. Qed.
Example C72_two_degrees tgamma lgamma x : gamma_contract tgamma lgamma -> 2 * epsilon <= x <= 4 ->
  exists p, chi_squared_cdf tgamma lgamma (XFin x) (XFin 2) = Ok (XFin p) /\ Rabs (p - (1 - exp (- x / 2))) <= / 10 ^ 11.
Proof.
  pose proof eps_pos. intros hg X. destruct (C72_eleven_digits tgamma lgamma hg x 2 ltac:(lra) ltac:(lra)) as [p [g [E [G B]]]]. exists p. split; auto.
  replace (2 / 2) with 1 in * by lra. assert (g = 1) by (apply (is_lub_u _ _ _ G), gamma_one). subst g.
  rewrite mass_one in B by lra. replace (- x / 2) with (- (x / 2)) by lra. replace (1 - exp (- (x / 2))) with ((1 - exp (- (x / 2))) / 1) by lra. exact B.
Qed.
Example C72_meets_tail tgamma lgamma x : gamma_contract tgamma lgamma -> 4 <= x ->
  exists p, chi_squared_cdf tgamma lgamma (XFin x) (XFin 2) = Ok (XFin p) /\ 1 - exp (- (x / 2)) <= p <= 1 - exp (- (x / 2)) + 3 / 10 ^ 5.
Proof.
  pose proof eps_pos. intros hg X. destruct (C72_accuracy tgamma lgamma hg x 2 ltac:(lra) ltac:(lra)) as [p [g [E [G B]]]]. exists p. split; auto.
  replace (2 / 2) with 1 in * by lra. assert (g = 1) by (apply (is_lub_u _ _ _ G), gamma_one). subst g.
  rewrite mass_one in B by lra. replace ((1 - exp (- (x / 2))) / 1) with (1 - exp (- (x / 2))) in B by lra. exact B.
Qed.
Example C95_meets : exists c e, (length c <= 100)%nat /\
  forall g, is_gamma 10 g -> forall t, window_lower 10 10 < t < window_upper 10 10 ->
  Rabs (gamma_density 10 g t - poly c (normalised (window_lower 10 10) (window_upper 10 10) t)) <= e.
Proof.
  destruct (gamma 10 ltac:(lra)) as [g0 G0]. exists [], (exp (9 * ln 10) / g0). split; [simpl; lia|]. intros g G t T.
  assert (g = g0) by (apply (is_lub_u _ _ _ G), G0). subst g0. pose proof (gamma_pos 10 g ltac:(lra) G) as g1.
  destruct (bounds_order 10 10) as [[B1 B2] B3]; try lra. cbn [poly]. rewrite Rminus_0_r. rewrite Rabs_pos_eq by (apply Rlt_le, density_pos; auto).
  unfold gamma_density, Rdiv. apply Rmult_le_compat_r; [left; apply Rinv_0_lt_compat; auto|]. assert (ln t <= ln 10) by (apply ln_le; lra).
  left. apply exp_increasing. lra.
Qed.

(* The gamma function of ChiSquaredSpec.v exists, and its value at 1. *)
From Coq Require Import Reals List Bool Lra Lia.
From Coquelicot Require Import Coquelicot.
From Verif Require Import Base ExtRealModel ExtRealProofs DistanceModel DistanceProofs ChiSquaredSpec IncompleteGammaProofs QuadratureProofs.
Local Open Scope R_scope.

Lemma mass_increasing a x y : 0 < a -> 0 < x -> x <= y -> lower_gamma a x <= lower_gamma a y.
Proof.
  intros a0 x0 L. destruct (Req_dec x y) as [->|N]; [lra|].
  destruct (MVT_cor2 (lower_gamma a) (fun x => exp ((a - 1) * ln x - x)) x y ltac:(lra)) as [t [E T]].
  - intros t T. apply is_derive_Reals, lower_gamma_derive; lra.
  - pose proof (exp_pos ((a - 1) * ln t - t)). assert (0 <= exp ((a - 1) * ln t - t) * (y - x)) by (apply Rmult_le_pos; lra). lra.
Qed.
Lemma ln_linear c x : 0 < c -> 0 < x -> ln x <= x / c + ln c.
Proof.
  intros c0 x0. replace x with (c * (x / c)) at 1 by (field; lra). assert (P : 0 < x / c) by (apply Rdiv_lt_0_compat; auto).
  rewrite ln_mult by auto. assert (ln (x / c) < x / c); [|lra].
  apply exp_lt_inv. rewrite exp_ln by auto. pose proof (exp_ineq1 (x / c) ltac:(lra)). lra.
Qed.
Lemma mass_bounded a : 0 < a -> bound (fun y => exists z, 0 < z /\ y = lower_gamma a z).
Proof.
  intros a0. pose (K := (a + 1) * ln (2 * (a + 1))). assert (K0 : 0 <= K).
  { apply Rmult_le_pos; [lra|]. rewrite <- ln_1. apply ln_le; lra. }
  assert (T : forall x, 1 <= x -> (a - 1) * ln x - x <= K - x / 2).
  { intros x x1. assert (0 <= ln x) by (rewrite <- ln_1; apply ln_le; lra). pose proof (ln_linear (2 * (a + 1)) x ltac:(lra) ltac:(lra)) as Q.
    assert ((a + 1) * ln x <= x / 2 + K).
    { unfold K. replace (x / 2) with ((a + 1) * (x / (2 * (a + 1)))) by (field; lra). rewrite <- Rmult_plus_distr_l. apply Rmult_le_compat_l; lra. }
    nra. }
  exists (lower_gamma a 1 + 2 * exp K). intros y [z [z0 ->]]. pose proof (exp_pos K).
  destruct (Rle_dec z 1) as [L|L]; [pose proof (mass_increasing a z 1 a0 z0 L); lra|]. apply Rnot_le_lt in L.
  destruct (MVT_cor2 (fun x => lower_gamma a x + 2 * exp (K - x / 2)) (fun x => exp ((a - 1) * ln x - x) + - exp (K - x / 2)) 1 z L) as [t [E X]].
  - intros t X. apply is_derive_Reals. apply (is_derive_plus (V := R_NormedModule)); [apply lower_gamma_derive; lra|].
    auto_derive; auto. unfold Rminus, Rdiv. lra.
  - assert (exp ((a - 1) * ln t - t) <= exp (K - t / 2)).
    { pose proof (T t ltac:(lra)) as Q. destruct (Req_dec ((a - 1) * ln t - t) (K - t / 2)) as [->|N]; [lra|]. left. apply exp_increasing. lra. }
    assert ((exp ((a - 1) * ln t - t) + - exp (K - t / 2)) * (z - 1) <= 0) by nra.
    pose proof (exp_pos (K - z / 2)). assert (exp (K - 1 / 2) < exp K) by (apply exp_increasing; lra). lra.
Qed.
Definition gamma (a : R) (a0 : 0 < a) : {g | is_gamma a g} :=
  completeness _ (mass_bounded a a0) (ex_intro _ (lower_gamma a 1) (ex_intro _ 1 (conj Rlt_0_1 eq_refl))).
Definition the_tgamma (x : xr) : xr :=
  match x with XFin a => match Rlt_dec 0 a with left a0 => XFin (proj1_sig (gamma a a0)) | right _ => XNaN end | y => y end.
Definition the_lgamma (x : xr) : xr :=
  match x with XFin a => match Rlt_dec 0 a with left a0 => XFin (ln (proj1_sig (gamma a a0))) | right _ => XNaN end | y => y end.
Lemma the_contract : gamma_contract the_tgamma the_lgamma.
Proof.
  intros a a0. unfold the_tgamma, the_lgamma. destruct (Rlt_dec 0 a) as [p|p]; [|lra]. exists (proj1_sig (gamma a p)).
  split; [exact (proj2_sig (gamma a p)) | auto].
Qed.

Lemma mass_one z : 0 < z -> lower_gamma 1 z = 1 - exp (- z).
Proof.
  intros z0. pose (D x := lower_gamma 1 x - (1 - exp (- x))).
  assert (C : forall d, 0 < d < z -> D z = D d).
  { intros d [d0 d1]. destruct (MVT_cor2 D (fun _ => 0) d z d1) as [t [E T]]; [|lra].
    intros t T. apply is_derive_Reals. unfold D. replace 0 with (exp ((1 - 1) * ln t - t) - exp (- t)) by (replace ((1 - 1) * ln t - t) with (- t) by ring; ring).
    apply (is_derive_minus (V := R_NormedModule)); [apply lower_gamma_derive; lra|]. auto_derive; auto. ring. }
  assert (S : forall d, 0 < d < z -> d <= 1 -> Rabs (D d) <= d).
  { intros d [d0 d1] d2. unfold D. pose proof (small_mass 1 d (Rle_refl 1) (conj d0 d2)). pose proof (lower_gamma_bound 1 d ltac:(lra) d0).
    pose proof (exp_ineq1 (- d) ltac:(lra)). assert (exp (- d) < 1) by (rewrite <- exp_0; apply exp_increasing; lra). apply Rabs_le. lra. }
  destruct (Req_dec (D z) 0) as [E|N]; [unfold D in E; lra|]. exfalso. pose proof (Rabs_pos_lt _ N) as P.
  pose (d := Rmin (Rmin (z / 2) 1) (Rabs (D z) / 2)).
  assert (D0 : 0 < d) by (unfold d; repeat apply Rmin_glb_lt; lra).
  assert (D1 : d <= z / 2) by (unfold d; eapply Rle_trans; [apply Rmin_l | apply Rmin_l]).
  assert (D2 : d <= 1) by (unfold d; eapply Rle_trans; [apply Rmin_l | apply Rmin_r]).
  assert (D3 : d <= Rabs (D z) / 2) by apply Rmin_r.
  pose proof (S d ltac:(lra) D2) as Q. rewrite <- (C d) in Q by lra. lra.
Qed.
Lemma gamma_one : is_gamma 1 1.
Proof.
  split.
  - intros y [z [z0 ->]]. rewrite mass_one by auto. pose proof (exp_pos (- z)). lra.
  - intros b U. destruct (Rle_dec 1 b) as [|N]; auto. exfalso. apply Rnot_le_lt in N.
    assert (X : 0 < 1 - exp (- (1))). { assert (exp (- (1)) < exp 0) by (apply exp_increasing; lra); rewrite exp_0 in H. lra. }
    assert (b0 : 0 < b). { specialize (U (lower_gamma 1 1)). rewrite mass_one in U by lra. assert (1 - exp (- (1)) <= b) by (apply U; exists 1; split; [lra | rewrite mass_one; lra]). lra. }
    assert (z0 : 0 < 1 - ln (1 - b)). { assert (ln (1 - b) < 0) by (rewrite <- ln_1; apply ln_increasing; lra). lra. }
    specialize (U (lower_gamma 1 (1 - ln (1 - b)))). rewrite mass_one in U by auto.
    assert (Q : 1 - exp (- (1 - ln (1 - b))) <= b) by (apply U; eexists; split; [exact z0 | rewrite mass_one; auto]).
    assert (exp (- (1 - ln (1 - b))) < exp (ln (1 - b))) by (apply exp_increasing; lra). rewrite exp_ln in H by lra. lra.
Qed.

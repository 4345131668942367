From Coq Require Import Reals Lra.
From Verif Require Import ErfSpec.
Local Open Scope R_scope.

Lemma derive_ext f x l l' : derivable_pt_lim f x l -> l = l' -> derivable_pt_lim f x l'.
Proof. intros H <-. exact H. Qed.
Lemma derive_fun f g x l : (forall t, f t = g t) -> derivable_pt_lim f x l -> derivable_pt_lim g x l.
Proof.
  intros E H eps He. destruct (H eps He) as [d Hd]. exists d. intros h h0 hd. rewrite <- !E. auto.
Qed.

(* monotonicity from the sign of a derivative *)
Lemma increasing_from f f' a b : a < b -> (forall t, a <= t <= b -> derivable_pt_lim f t (f' t)) ->
  (forall t, a < t < b -> 0 < f' t) -> f a < f b.
Proof.
  intros ab D P. destruct (MVT_cor2 f f' a b ab D) as [c [E C]]. specialize (P c C).
  assert (0 < f' c * (b - a)) by (apply Rmult_lt_0_compat; lra). lra.
Qed.
Lemma constant_from f : (forall t, derivable_pt_lim f t 0) -> forall a b, f a = f b.
Proof.
  assert (G : (forall t, derivable_pt_lim f t 0) -> forall a b, a < b -> f a = f b).
  { intros D a b ab. destruct (MVT_cor2 f (fun _ => 0) a b ab ltac:(auto)) as [c [E _]]. lra. }
  intros D a b. destruct (Rtotal_order a b) as [H|[H|H]]; [|subst|]; auto. symmetry. auto.
Qed.

(* limits *)
Lemma limit_low_high f l : limit_low f l <-> limit_high (fun t => f (- t)) l.
Proof.
  split; intros H eps He; destruct (H eps He) as [m Hm]; exists (- m); intros t Ht.
  - apply Hm. lra.
  - replace t with (- - t) by lra. apply Hm. lra.
Qed.
Lemma limit_high_low f l : limit_high f l <-> limit_low (fun t => f (- t)) l.
Proof.
  split; intros H eps He; destruct (H eps He) as [m Hm]; exists (- m); intros t Ht.
  - apply Hm. lra.
  - replace t with (- - t) by lra. apply Hm. lra.
Qed.
Lemma limit_low_ext f g l : (forall t, f t = g t) -> limit_low f l -> limit_low g l.
Proof. intros E H eps He. destruct (H eps He) as [m Hm]. exists m. intros t Ht. rewrite <- E. auto. Qed.
Lemma limit_low_plus f g a b : limit_low f a -> limit_low g b -> limit_low (fun t => f t + g t) (a + b).
Proof.
  intros F G eps He. destruct (F (eps / 2) ltac:(lra)) as [m Hm], (G (eps / 2) ltac:(lra)) as [k Hk].
  exists (Rmin m k). intros t Ht. assert (t < m) by (eapply Rlt_le_trans; [exact Ht|apply Rmin_l]).
  assert (t < k) by (eapply Rlt_le_trans; [exact Ht|apply Rmin_r]).
  specialize (Hm t ltac:(auto)). specialize (Hk t ltac:(auto)).
  replace (f t + g t - (a + b)) with ((f t - a) + (g t - b)) by lra. pose proof (Rabs_triang (f t - a) (g t - b)). lra.
Qed.
Lemma limit_low_scal c f a : limit_low f a -> limit_low (fun t => c * f t) (c * a).
Proof.
  intros F eps He. assert (C : 0 < Rabs c + 1) by (pose proof (Rabs_pos c); lra).
  destruct (F (eps / (Rabs c + 1)) ltac:(apply Rdiv_lt_0_compat; lra)) as [m Hm]. exists m. intros t Ht.
  specialize (Hm t Ht). replace (c * f t - c * a) with (c * (f t - a)) by lra. rewrite Rabs_mult.
  assert (Rabs c * Rabs (f t - a) <= Rabs c * (eps / (Rabs c + 1))) by (apply Rmult_le_compat_l; [apply Rabs_pos|lra]).
  assert (Rabs c * (eps / (Rabs c + 1)) < eps); [|lra].
  replace eps with ((Rabs c + 1) * (eps / (Rabs c + 1))) at 2 by (field; lra).
  apply Rmult_lt_compat_r; [apply Rdiv_lt_0_compat|]; lra.
Qed.
(* squeezed to 0 for negative t *)
Lemma limit_low_squeeze f g : (forall t, t < 0 -> Rabs (f t) <= g t) -> limit_low g 0 -> limit_low f 0.
Proof.
  intros H G eps He. destruct (G eps He) as [m Hm]. exists (Rmin m 0). intros t Ht.
  assert (t < m) by (eapply Rlt_le_trans; [exact Ht|apply Rmin_l]).
  assert (t < 0) by (eapply Rlt_le_trans; [exact Ht|apply Rmin_r]).
  specialize (Hm t ltac:(auto)). specialize (H t ltac:(auto)). rewrite Rminus_0_r in *.
  eapply Rle_lt_trans; [exact H|]. eapply Rle_lt_trans; [apply Rle_abs|]. auto.
Qed.
Lemma limit_low_affine f l a b : 0 < a -> limit_low f l -> limit_low (fun t => f (a * t + b)) l.
Proof.
  intros A H eps He. destruct (H eps He) as [m Hm]. exists ((m - b) / a). intros t Ht. apply Hm.
  assert (a * t < a * ((m - b) / a)) by (apply Rmult_lt_compat_l; auto).
  replace (a * ((m - b) / a)) with (m - b) in H0 by (field; lra). lra.
Qed.
Lemma limit_low_le f l c : limit_low f l -> (forall t, f t <= c) -> l <= c.
Proof.
  intros H B. destruct (Rle_dec l c) as [|N]; auto. destruct (H (l - c) ltac:(lra)) as [m Hm].
  specialize (Hm (m - 1) ltac:(lra)). specialize (B (m - 1)). apply Rabs_def2 in Hm. lra.
Qed.

Section Erf.
Variable erf : R -> R.
Hypothesis H : is_erf erf.

Lemma erf_0 : erf 0 = 0. Proof. apply H. Qed.
Lemma erf_derive x : derivable_pt_lim erf x (2 / sqrt PI * exp (- (x * x))). Proof. apply H. Qed.
Lemma sqrt_pi_pos : 0 < sqrt PI. Proof. apply sqrt_lt_R0. exact PI_RGT_0. Qed.
Lemma sqrt2_pos : 0 < sqrt 2. Proof. apply sqrt_lt_R0. lra. Qed.
Lemma sqrt2_sq : sqrt 2 * sqrt 2 = 2. Proof. apply sqrt_def. lra. Qed.
Lemma sqrt_2pi : sqrt (2 * PI) = sqrt 2 * sqrt PI.
Proof. apply sqrt_mult_alt. lra. Qed.
Lemma erf_slope x : 0 < 2 / sqrt PI * exp (- (x * x)).
Proof. pose proof sqrt_pi_pos. apply Rmult_lt_0_compat; [apply Rdiv_lt_0_compat; lra|apply exp_pos]. Qed.
Lemma erf_increasing x y : x < y -> erf x < erf y.
Proof. intros L. apply (increasing_from erf _ x y L (fun t _ => erf_derive t)). intros t _. apply erf_slope. Qed.
Lemma erf_odd x : erf (- x) = - erf x.
Proof.
  assert (D : forall t, derivable_pt_lim (fun t => erf (- t) + erf t) t 0).
  { intros t. apply (derive_ext _ _ (2 / sqrt PI * exp (- (- t * - t)) * -1 + 2 / sqrt PI * exp (- (t * t)))).
    - apply (derivable_pt_lim_plus (fun t => erf (- t)) erf); [|apply erf_derive].
      apply (derivable_pt_lim_comp (fun t => - t) erf t (-1)); [|apply erf_derive].
      apply (derive_ext _ _ (- 1)); [|lra]. apply derivable_pt_lim_opp, derivable_pt_lim_id.
    - rewrite Rmult_opp_opp. lra. }
  pose proof (constant_from _ D x 0) as E. cbv beta in E. rewrite Ropp_0, erf_0 in E. lra.
Qed.
Lemma erf_pos x : 0 < x -> 0 < erf x.
Proof. intros L. rewrite <- erf_0. apply erf_increasing. auto. Qed.
Lemma erf_lt_1 x : erf x < 1.
Proof.
  assert (B : forall t, t < 0 -> erf (- t) <= 1 -> True) by auto.
  destruct (Rlt_dec (erf x) 1) as [|N]; auto. exfalso.
  destruct H as [_ [_ L]]. pose proof (erf_increasing x (x + 1) ltac:(lra)) as I.
  destruct (L (erf (x + 1) - 1) ltac:(lra)) as [m Hm].
  pose proof (Rmax_l m (x + 1)). pose proof (Rmax_r m (x + 1)).
  specialize (Hm (Rmax m (x + 1) + 1) ltac:(lra)). pose proof (erf_increasing (x + 1) (Rmax m (x + 1) + 1) ltac:(lra)).
  apply Rabs_def2 in Hm. lra.
Qed.
Lemma erf_gt_m1 x : -1 < erf x.
Proof. pose proof (erf_lt_1 (- x)) as L. rewrite erf_odd in L. lra. Qed.

(* standard normal distribution *)
Definition phi (z : R) : R := exp (- (1 / 2) * z * z) / sqrt (2 * PI).
Definition Phi (z : R) : R := (1 + erf (z / sqrt 2)) / 2.
Lemma sqrt_2pi_pos : 0 < sqrt (2 * PI).
Proof. rewrite sqrt_2pi. apply Rmult_lt_0_compat; [apply sqrt2_pos|apply sqrt_pi_pos]. Qed.
Lemma phi_pos z : 0 < phi z.
Proof. apply Rdiv_lt_0_compat; [apply exp_pos|apply sqrt_2pi_pos]. Qed.
Lemma phi_even z : phi (- z) = phi z.
Proof. unfold phi. f_equal. f_equal. lra. Qed.
Lemma Phi_bounds z : 0 < Phi z < 1.
Proof. unfold Phi. pose proof (erf_lt_1 (z / sqrt 2)). pose proof (erf_gt_m1 (z / sqrt 2)). lra. Qed.
Lemma Phi_sym z : Phi (- z) = 1 - Phi z.
Proof. unfold Phi. replace (- z / sqrt 2) with (- (z / sqrt 2)) by (unfold Rdiv; lra). rewrite erf_odd. lra. Qed.
Lemma derive_scaled f x l c : derivable_pt_lim f (x * c) l -> derivable_pt_lim (fun t => f (t * c)) x (l * c).
Proof.
  intros D. apply (derivable_pt_lim_comp (fun t => t * c) f x c l); auto.
  apply (derive_ext _ _ (1 * c + x * 0)); [|lra].
  apply (derivable_pt_lim_mult (fun t => t) (fun _ => c)); [apply derivable_pt_lim_id|apply derivable_pt_lim_const].
Qed.
Lemma Phi_derive z : derivable_pt_lim Phi z (phi z).
Proof.
  pose proof sqrt2_pos. pose proof sqrt_pi_pos. pose proof sqrt2_sq as S2.
  apply (derive_ext _ _ ((1 / 2) * (2 / sqrt PI * exp (- (z * / sqrt 2 * (z * / sqrt 2))) * / sqrt 2))).
  - apply (derive_fun (mult_real_fct (1 / 2) (fct_cte 1 + (fun t => erf (t * / sqrt 2)))%F)).
    { intros t. unfold mult_real_fct, plus_fct, fct_cte, Phi, Rdiv. lra. }
    apply derivable_pt_lim_scal. apply (derive_ext _ _ (0 + 2 / sqrt PI * exp (- (z * / sqrt 2 * (z * / sqrt 2))) * / sqrt 2)); [|lra].
    apply derivable_pt_lim_plus; [apply derivable_pt_lim_const|]. apply derive_scaled, erf_derive.
  - unfold phi. rewrite sqrt_2pi. replace (- (z * / sqrt 2 * (z * / sqrt 2))) with (- (1 / 2) * z * z).
    + field. lra.
    + replace (z * / sqrt 2 * (z * / sqrt 2)) with (z * z / (sqrt 2 * sqrt 2)) by (field; lra). rewrite S2. lra.
Qed.
Lemma phi_derive z : derivable_pt_lim phi z (- z * phi z).
Proof.
  pose proof sqrt_2pi_pos.
  apply (derive_ext _ _ (/ sqrt (2 * PI) * (exp (- (1 / 2) * z * z) * (- (1 / 2) * (1 * z + z * 1))))); [|unfold phi; field; lra].
  apply (derive_fun (mult_real_fct (/ sqrt (2 * PI)) (fun t => exp (- (1 / 2) * t * t)))).
  { intros t. unfold mult_real_fct, phi, Rdiv. lra. }
  apply derivable_pt_lim_scal. apply (derivable_pt_lim_comp (fun t => - (1 / 2) * t * t) exp); [|apply derivable_pt_lim_exp].
  apply (derive_fun (mult_real_fct (- (1 / 2)) (fun t => t * t))). { intros t. unfold mult_real_fct. lra. }
  apply derivable_pt_lim_scal. apply (derivable_pt_lim_mult (fun t => t) (fun t => t)); apply derivable_pt_lim_id.
Qed.
Lemma Phi_low : limit_low Phi 0.
Proof.
  destruct H as [_ [_ L]]. apply limit_low_high. intros eps He. destruct (L eps He) as [m Hm]. exists (m * sqrt 2). intros t Ht.
  rewrite Phi_sym. unfold Phi. pose proof sqrt2_pos.
  assert (m < t / sqrt 2) by (apply Rmult_lt_reg_r with (sqrt 2); auto; unfold Rdiv; rewrite Rmult_assoc, Rinv_l; lra).
  specialize (Hm _ H1). pose proof (erf_lt_1 (t / sqrt 2)). apply Rabs_def2 in Hm. apply Rabs_def1; lra.
Qed.
Lemma phi_low : limit_low phi 0.
Proof.
  intros eps He. pose proof sqrt_2pi_pos as S. set (m := 2 / (eps * sqrt (2 * PI))).
  assert (M : 0 < m) by (apply Rdiv_lt_0_compat; [lra|apply Rmult_lt_0_compat; auto]).
  exists (- (m + 1)). intros t Ht. rewrite Rminus_0_r, Rabs_pos_eq by (left; apply phi_pos). unfold phi.
  assert (Q : exp (- (1 / 2) * t * t) < 2 / (t * t)).
  { replace (- (1 / 2) * t * t) with (- (t * t / 2)) by lra. rewrite exp_Ropp.
    replace (2 / (t * t)) with (/ (t * t / 2)) by (field; nra). apply Rinv_lt_contravar.
    - apply Rmult_lt_0_compat; [nra|apply exp_pos].
    - pose proof (exp_ineq1 (t * t / 2) ltac:(nra)). lra. }
  assert (2 / (t * t) < eps * sqrt (2 * PI)).
  { assert (E : 0 < eps * sqrt (2 * PI)) by (apply Rmult_lt_0_compat; auto).
    apply Rmult_lt_reg_r with (t * t); [nra|]. replace (2 / (t * t) * (t * t)) with 2 by (field; nra).
    replace 2 with (eps * sqrt (2 * PI) * m) at 1 by (unfold m; field; split; lra).
    apply Rmult_lt_compat_l; auto. nra. }
  apply Rmult_lt_reg_r with (sqrt (2 * PI)); auto. unfold Rdiv. rewrite Rmult_assoc, Rinv_l by lra. lra.
Qed.
(* the tail: -z Phi(z) < phi(z) for negative z *)
Lemma mills z : z < 0 -> - z * Phi z <= phi z.
Proof.
  intros Hz.
  assert (D : forall t, t < 0 -> derivable_pt_lim (fun t => phi t * / (- t) - Phi t) t (phi t / (t * t))).
  { intros t Ht. apply (derive_ext _ _ ((- t * phi t * / - t + phi t * (- (-1) / Rsqr (- t))) - phi t)).
    - apply (derivable_pt_lim_minus (fun t => phi t * / (- t)) Phi); [|apply Phi_derive].
      apply (derivable_pt_lim_mult phi (fun t => / (- t))); [apply phi_derive|].
      apply (derive_fun (div_fct (fct_cte 1) (opp_fct id))).
      { intros u. unfold div_fct, fct_cte, opp_fct, id, Rdiv. apply Rmult_1_l. }
      apply (derive_ext _ _ ((0 * (opp_fct id t) - (- 1) * fct_cte 1 t) / Rsqr (opp_fct id t))).
      + apply derivable_pt_lim_div; [apply derivable_pt_lim_const|apply derivable_pt_lim_opp, derivable_pt_lim_id|].
        unfold opp_fct, id. lra.
      + unfold opp_fct, id, fct_cte. f_equal. lra.
    - unfold Rsqr. field. lra. }
  assert (K : 0 <= phi z * / (- z) - Phi z).
  { destruct (Rle_dec 0 (phi z * / (- z) - Phi z)) as [|N]; auto. exfalso.
    destruct (Phi_low (- (phi z * / (- z) - Phi z)) ltac:(lra)) as [m Hm].
    set (t := Rmin m z - 1). pose proof (Rmin_l m z). pose proof (Rmin_r m z).
    specialize (Hm t ltac:(unfold t; lra)). rewrite Rminus_0_r, Rabs_pos_eq in Hm by (pose proof (Phi_bounds t); lra).
    assert (I : phi t * / (- t) - Phi t < phi z * / (- z) - Phi z).
    { apply (increasing_from (fun t => phi t * / (- t) - Phi t) (fun t => phi t / (t * t))); [unfold t; lra| |].
      - intros u Hu. apply D. lra.
      - intros u Hu. apply Rdiv_lt_0_compat; [apply phi_pos|nra]. }
    assert (0 < phi t * / (- t)) by (apply Rmult_lt_0_compat; [apply phi_pos|apply Rinv_0_lt_compat; unfold t; lra]). lra. }
  apply Rmult_le_reg_r with (/ - z); [apply Rinv_0_lt_compat; lra|].
  replace (- z * Phi z * / - z) with (Phi z) by (field; lra). lra.
Qed.

Lemma standardize g g' mu sigma : 0 < sigma -> (forall z, derivable_pt_lim g z (g' z)) ->
  forall t, derivable_pt_lim (fun t => sigma * g ((t - mu) / sigma)) t (g' ((t - mu) / sigma)).
Proof.
  intros S D t. apply (derive_ext _ _ (sigma * (g' ((t - mu) / sigma) * / sigma))); [|field; lra].
  apply (derivable_pt_lim_scal (fun t => g ((t - mu) / sigma))).
  apply (derivable_pt_lim_comp (fun t => (t - mu) / sigma) g); [|apply D].
  apply (derive_ext _ _ (/ sigma * (1 - 0))); [|lra].
  apply (derive_fun (mult_real_fct (/ sigma) (id - fct_cte mu)%F)).
  { intros u. unfold mult_real_fct, minus_fct, fct_cte, id, Rdiv. lra. }
  apply derivable_pt_lim_scal, derivable_pt_lim_minus; [apply derivable_pt_lim_id|apply derivable_pt_lim_const].
Qed.
Lemma standardize_low g l mu sigma : 0 < sigma -> limit_low g l -> limit_low (fun t => g ((t - mu) / sigma)) l.
Proof.
  intros S L. apply (limit_low_ext (fun t => g (/ sigma * t + - mu / sigma))).
  { intros t. f_equal. field. lra. }
  apply (limit_low_affine g l (/ sigma) (- mu / sigma)); auto. apply Rinv_0_lt_compat. auto.
Qed.
Lemma derive_reflect f x l : derivable_pt_lim f (- x) l -> derivable_pt_lim (fun t => - f (- t)) x l.
Proof.
  intros D. apply (derive_ext _ _ (- (l * - 1))); [|lra].
  apply (derivable_pt_lim_opp (fun t => f (- t))). apply (derivable_pt_lim_comp (fun t => - t) f); auto.
  apply derivable_pt_lim_opp, derivable_pt_lim_id.
Qed.
Lemma cdf_std mu sigma t : 0 < sigma -> normal_cdf erf mu sigma t = Phi ((t - mu) / sigma).
Proof.
  intros S. unfold normal_cdf, Phi. do 3 f_equal. pose proof sqrt2_pos. field. lra.
Qed.
Lemma pdf_std mu sigma t : 0 < sigma -> normal_pdf mu sigma t = phi ((t - mu) / sigma) / sigma.
Proof.
  intros S. unfold normal_pdf, phi. pose proof sqrt_2pi_pos. replace (- (1 / 2) * ((t - mu) / sigma) * ((t - mu) / sigma)) with (- ((t - mu) / sigma) ^ 2 / 2) by (simpl; lra).
  field. lra.
Qed.

(* the density is that of the distribution *)
Lemma cdf_derive mu sigma t : 0 < sigma -> derivable_pt_lim (normal_cdf erf mu sigma) t (normal_pdf mu sigma t).
Proof.
  intros S. rewrite pdf_std by auto. apply (derive_fun (mult_real_fct (/ sigma) (fun t => sigma * Phi ((t - mu) / sigma)))).
  { intros u. rewrite cdf_std by auto. unfold mult_real_fct. field. lra. }
  apply (derive_ext _ _ (/ sigma * phi ((t - mu) / sigma))); [|unfold Rdiv; lra].
  apply derivable_pt_lim_scal. apply (standardize Phi phi); auto. apply Phi_derive.
Qed.
Lemma cdf_low mu sigma : 0 < sigma -> limit_low (normal_cdf erf mu sigma) 0.
Proof.
  intros S. apply (limit_low_ext (fun t => Phi ((t - mu) / sigma))); [intros t; rewrite cdf_std; auto|].
  apply standardize_low; auto. apply Phi_low.
Qed.

(* ---- continuous ranked probability score ---- *)
Definition G1 (z : R) : R := z * (Phi z * Phi z) + 2 * (phi z * Phi z) - / sqrt PI * Phi (z * sqrt 2).
Lemma G1_derive z : derivable_pt_lim G1 z (Phi z * Phi z).
Proof.
  pose proof sqrt_pi_pos. pose proof sqrt2_pos. pose proof sqrt2_sq as S2.
  assert (SP : sqrt PI * sqrt PI = PI) by (apply sqrt_def; left; apply PI_RGT_0).
  apply (derive_ext _ _ ((1 * (Phi z * Phi z) + z * (phi z * Phi z + Phi z * phi z)) +
     2 * (- z * phi z * Phi z + phi z * phi z) - / sqrt PI * (phi (z * sqrt 2) * sqrt 2))).
  - apply (derivable_pt_lim_minus (fun z => z * (Phi z * Phi z) + 2 * (phi z * Phi z)) (fun z => / sqrt PI * Phi (z * sqrt 2))).
    + apply (derivable_pt_lim_plus (fun z => z * (Phi z * Phi z)) (fun z => 2 * (phi z * Phi z))).
      * apply (derivable_pt_lim_mult (fun z => z) (fun z => Phi z * Phi z)); [apply derivable_pt_lim_id|].
        apply (derivable_pt_lim_mult Phi Phi); apply Phi_derive.
      * apply (derivable_pt_lim_scal (fun z => phi z * Phi z)). apply (derivable_pt_lim_mult phi Phi); [apply phi_derive|apply Phi_derive].
    + apply (derivable_pt_lim_scal (fun z => Phi (z * sqrt 2))). apply derive_scaled, Phi_derive.
  - assert (E : 2 * (phi z * phi z) = / sqrt PI * (phi (z * sqrt 2) * sqrt 2)); [|lra].
    unfold phi. rewrite sqrt_2pi.
    replace (- (1 / 2) * (z * sqrt 2) * (z * sqrt 2)) with (- (1 / 2) * z * z + - (1 / 2) * z * z)
      by (replace (- (1 / 2) * (z * sqrt 2) * (z * sqrt 2)) with (- (1 / 2) * z * z * (sqrt 2 * sqrt 2)) by ring; rewrite S2; lra).
    rewrite exp_plus. set (e := exp (- (1 / 2) * z * z)).
    replace (2 * (e / (sqrt 2 * sqrt PI) * (e / (sqrt 2 * sqrt PI)))) with (2 * (e * e) / (sqrt 2 * sqrt 2) * / (sqrt PI * sqrt PI)) by (field; lra).
    rewrite S2. field. lra.
Qed.
Lemma G1_low : limit_low G1 0.
Proof.
  assert (P : limit_low (fun z => phi z * Phi z) 0).
  { apply (limit_low_squeeze _ phi); [|apply phi_low]. intros t Ht. pose proof (phi_pos t). pose proof (Phi_bounds t).
    rewrite Rabs_pos_eq by nra. nra. }
  assert (Q : limit_low (fun z => z * (Phi z * Phi z)) 0).
  { apply (limit_low_squeeze _ (fun z => phi z * Phi z)); auto. intros t Ht. pose proof (mills t Ht). pose proof (Phi_bounds t).
    rewrite Rabs_left1 by nra. nra. }
  replace 0 with (0 + 2 * 0 + - / sqrt PI * 0) by lra.
  apply (limit_low_ext (fun z => z * (Phi z * Phi z) + 2 * (phi z * Phi z) + - / sqrt PI * Phi (z * sqrt 2))).
  { intros t. unfold G1. lra. }
  apply (limit_low_plus (fun z => z * (Phi z * Phi z) + 2 * (phi z * Phi z)) (fun z => - / sqrt PI * Phi (z * sqrt 2))).
  - apply (limit_low_plus (fun z => z * (Phi z * Phi z)) (fun z => 2 * (phi z * Phi z))); auto.
    apply (limit_low_scal 2 (fun z => phi z * Phi z)). auto.
  - apply (limit_low_scal (- / sqrt PI) (fun z => Phi (z * sqrt 2))).
    apply (limit_low_ext (fun z => Phi (sqrt 2 * z + 0))). { intros t. f_equal. lra. }
    apply (limit_low_affine Phi 0 (sqrt 2) 0); [apply sqrt2_pos|apply Phi_low].
Qed.
Definition crps_std (z : R) : R := z * erf (z / sqrt 2) + 2 * phi z - 1 / sqrt PI.
Lemma crps_split z : crps_std z = G1 z + G1 (- z).
Proof.
  unfold G1. rewrite phi_even, Phi_sym. replace (- z * sqrt 2) with (- (z * sqrt 2)) by lra. rewrite Phi_sym.
  assert (E : erf (z / sqrt 2) = 2 * Phi z - 1) by (unfold Phi; lra). unfold crps_std. rewrite E. unfold Rdiv. ring.
Qed.
Lemma cdf_sq_integral mu sigma y : 0 < sigma ->
  integral_to (fun t => normal_cdf erf mu sigma t ^ 2) y (sigma * G1 ((y - mu) / sigma)).
Proof.
  intros S. exists (fun t => sigma * G1 ((t - mu) / sigma)), 0. split; [|split].
  - intros t. rewrite cdf_std by auto. apply (derive_ext _ _ (Phi ((t - mu) / sigma) * Phi ((t - mu) / sigma))); [|simpl; lra].
    apply (standardize G1 (fun z => Phi z * Phi z)); auto. apply G1_derive.
  - replace 0 with (sigma * 0) by lra. apply (limit_low_scal sigma (fun t => G1 ((t - mu) / sigma))).
    apply standardize_low; auto. apply G1_low.
  - lra.
Qed.
Lemma tail_sq_integral mu sigma y : 0 < sigma ->
  integral_from (fun t => (1 - normal_cdf erf mu sigma t) ^ 2) y (sigma * G1 (- ((y - mu) / sigma))).
Proof.
  intros S. exists (fun t => sigma * - G1 (- ((t - mu) / sigma))), 0. split; [|split].
  - intros t. rewrite cdf_std by auto.
    apply (derive_ext _ _ (Phi (- ((t - mu) / sigma)) * Phi (- ((t - mu) / sigma)))); [|rewrite Phi_sym; simpl; lra].
    apply (standardize (fun z => - G1 (- z)) (fun z => Phi (- z) * Phi (- z))); auto.
    intros z. apply derive_reflect, G1_derive.
  - apply limit_high_low. replace 0 with ((- sigma) * 0) by lra.
    apply (limit_low_ext (fun t => (- sigma) * G1 ((t - - mu) / sigma))).
    { intros t. replace (- ((- t - mu) / sigma)) with ((t - - mu) / sigma) by (field; lra). lra. }
    apply (limit_low_scal (- sigma) (fun t => G1 ((t - - mu) / sigma))). apply standardize_low; auto. apply G1_low.
  - lra.
Qed.

(* smallest at the mean, increasing with the distance from it *)
Lemma crps_derive z : derivable_pt_lim crps_std z (erf (z / sqrt 2)).
Proof.
  apply (derive_ext _ _ (Phi z * Phi z + - (Phi (- z) * Phi (- z)))).
  - apply (derive_fun (fun z => G1 z + G1 (- z))); [intros t; rewrite crps_split; auto|].
    apply (derivable_pt_lim_plus G1 (fun z => G1 (- z))); [apply G1_derive|].
    apply (derive_ext _ _ (Phi (- z) * Phi (- z) * - 1)); [|lra].
    apply (derivable_pt_lim_comp (fun t => - t) G1); [apply derivable_pt_lim_opp, derivable_pt_lim_id|apply G1_derive].
  - rewrite Phi_sym. unfold Phi. lra.
Qed.
Lemma crps_even z : crps_std (- z) = crps_std z.
Proof. rewrite !crps_split, Ropp_involutive. lra. Qed.
Lemma crps_increasing z z' : 0 <= z < z' -> crps_std z < crps_std z'.
Proof.
  intros [Z L]. apply (increasing_from crps_std (fun z => erf (z / sqrt 2))); auto.
  - intros t _. apply crps_derive.
  - intros t Ht. apply erf_pos. apply Rdiv_lt_0_compat; [lra|apply sqrt2_pos].
Qed.
Lemma crps_abs z : crps_std (Rabs z) = crps_std z.
Proof. unfold Rabs. destruct (Rcase_abs z); auto. apply crps_even. Qed.
Lemma crps_zero : crps_std 0 = (sqrt 2 - 1) / sqrt PI.
Proof.
  unfold crps_std, phi. rewrite sqrt_2pi. replace (- (1 / 2) * 0 * 0) with 0 by lra. rewrite exp_0.
  pose proof sqrt2_pos. pose proof sqrt_pi_pos. pose proof sqrt2_sq as S2.
  replace (2 * (1 / (sqrt 2 * sqrt PI))) with (sqrt 2 * sqrt 2 * (1 / (sqrt 2 * sqrt PI))) by (rewrite S2; auto). field. lra.
Qed.

(* ---- moments ---- *)
Lemma zphi_low : limit_low (fun z => z * phi z) 0.
Proof.
  intros eps He. pose proof sqrt_2pi_pos as S. set (m := 2 / (eps * sqrt (2 * PI))).
  assert (E : 0 < eps * sqrt (2 * PI)) by (apply Rmult_lt_0_compat; auto).
  assert (M : 0 < m) by (apply Rdiv_lt_0_compat; [lra|auto]).
  exists (- (m + 1)). intros t Ht. rewrite Rminus_0_r, Rabs_left1 by (pose proof (phi_pos t); nra). unfold phi.
  assert (Q : exp (- (1 / 2) * t * t) < 2 / (t * t)).
  { replace (- (1 / 2) * t * t) with (- (t * t / 2)) by lra. rewrite exp_Ropp.
    replace (2 / (t * t)) with (/ (t * t / 2)) by (field; nra). apply Rinv_lt_contravar.
    - apply Rmult_lt_0_compat; [nra|apply exp_pos].
    - pose proof (exp_ineq1 (t * t / 2) ltac:(nra)). lra. }
  assert (- t * exp (- (1 / 2) * t * t) < 2 / - t).
  { replace (2 / - t) with (- t * (2 / (t * t))) by (field; lra). apply Rmult_lt_compat_l; lra. }
  assert (2 / - t < eps * sqrt (2 * PI)).
  { apply Rmult_lt_reg_r with (- t); [lra|]. replace (2 / - t * - t) with 2 by (field; lra).
    replace 2 with (eps * sqrt (2 * PI) * m) at 1 by (unfold m; field; split; lra).
    apply Rmult_lt_compat_l; auto. lra. }
  apply Rmult_lt_reg_r with (sqrt (2 * PI)); auto.
  replace (- (t * (exp (- (1 / 2) * t * t) / sqrt (2 * PI))) * sqrt (2 * PI)) with (- t * exp (- (1 / 2) * t * t)) by (field; lra). lra.
Qed.
(* antiderivative of t pdf(t), scaled *)
Definition M1 (c z : R) : R := c * Phi z - phi z.
Lemma M1_derive c z : derivable_pt_lim (M1 c) z ((c + z) * phi z).
Proof.
  apply (derive_ext _ _ (c * phi z - - z * phi z)); [|lra].
  apply (derivable_pt_lim_minus (fun z => c * Phi z) phi); [|apply phi_derive].
  apply (derivable_pt_lim_scal Phi), Phi_derive.
Qed.
Lemma M1_low c : limit_low (M1 c) 0.
Proof.
  apply (limit_low_ext (fun z => c * Phi z + (-1) * phi z)); [intros t; unfold M1; lra|].
  replace 0 with (c * 0 + (-1) * 0) by lra.
  apply (limit_low_plus (fun z => c * Phi z) (fun z => (-1) * phi z));
  [apply (limit_low_scal c Phi), Phi_low|apply (limit_low_scal (-1) phi), phi_low].
Qed.
Lemma M1_reflect c z : - M1 (- c) (- z) = M1 c (z) + (c * (1 - 2 * Phi z) + 2 * phi z).
Proof. unfold M1. rewrite phi_even, Phi_sym. lra. Qed.

Lemma mean_abs_integrals mu sigma : 0 < sigma -> exists a b,
  integral_to (fun t => - t * normal_pdf mu sigma t) 0 a /\ integral_from (fun t => t * normal_pdf mu sigma t) 0 b /\
  mean_abs_normal erf mu sigma = a + b.
Proof.
  intros S. set (c := mu / sigma). set (z0 := (0 - mu) / sigma).
  exists (sigma * - M1 c z0 - 0), (0 - sigma * M1 (- c) (- z0)). split; [|split].
  - exists (fun t => sigma * - M1 c ((t - mu) / sigma)), 0. split; [|split; auto].
    + intros t. rewrite pdf_std by auto.
      apply (derive_ext _ _ (- ((c + (t - mu) / sigma) * phi ((t - mu) / sigma)))); [|unfold c; field; lra].
      apply (standardize (fun z => - M1 c z) (fun z => - ((c + z) * phi z))); auto.
      intros z. apply (derivable_pt_lim_opp (M1 c)), M1_derive.
    + replace 0 with ((- sigma) * 0) by lra. apply (limit_low_ext (fun t => (- sigma) * M1 c ((t - mu) / sigma))); [intros t; lra|].
      apply (limit_low_scal (- sigma) (fun t => M1 c ((t - mu) / sigma))), standardize_low; auto. apply M1_low.
  - exists (fun t => sigma * M1 (- c) (- ((t - mu) / sigma))), 0. split; [|split; auto].
    + intros t. rewrite pdf_std by auto.
      apply (derive_ext _ _ (- ((- c + - ((t - mu) / sigma)) * phi (- ((t - mu) / sigma))))).
      2: { rewrite phi_even. unfold c. field. lra. }
      apply (standardize (fun z => M1 (- c) (- z)) (fun z => - ((- c + - z) * phi (- z)))); auto.
      intros z. apply (derive_fun (opp_fct (fun z => - M1 (- c) (- z)))). { intros u. unfold opp_fct. lra. }
      apply derivable_pt_lim_opp, derive_reflect, M1_derive.
    + apply limit_high_low. replace 0 with (sigma * 0) by lra.
      apply (limit_low_ext (fun t => sigma * M1 (- c) ((t - - mu) / sigma))).
      { intros t. replace (- ((- t - mu) / sigma)) with ((t - - mu) / sigma) by (field; lra). lra. }
      apply (limit_low_scal sigma (fun t => M1 (- c) ((t - - mu) / sigma))), standardize_low; auto. apply M1_low.
  - assert (Z : z0 = - c) by (unfold z0, c; field; lra). rewrite Z, Ropp_involutive. unfold M1. rewrite phi_even, Phi_sym.
    assert (A : Rabs mu * erf (Rabs mu / (sigma * sqrt 2)) = mu * erf (mu / (sigma * sqrt 2))).
    { unfold Rabs. destruct (Rcase_abs mu); auto. replace (- mu / (sigma * sqrt 2)) with (- (mu / (sigma * sqrt 2))) by (unfold Rdiv; lra).
      rewrite erf_odd. lra. }
    assert (B : sqrt (2 / PI) * exp (- (mu * mu) / (2 * (sigma * sigma))) = 2 * phi c).
    { unfold phi, c. rewrite sqrt_2pi, sqrt_div_alt by apply PI_RGT_0. pose proof sqrt2_pos. pose proof sqrt_pi_pos. pose proof sqrt2_sq as S2.
      replace (- (1 / 2) * (mu / sigma) * (mu / sigma)) with (- (mu * mu) / (2 * (sigma * sigma))) by (field; lra).
      set (e := exp _). replace (2 * (e / (sqrt 2 * sqrt PI))) with (sqrt 2 * sqrt 2 * (e / (sqrt 2 * sqrt PI))) by (rewrite S2; auto). field. lra. }
    assert (C : erf (mu / (sigma * sqrt 2)) = 2 * Phi c - 1).
    { unfold Phi, c. pose proof sqrt2_pos. replace (mu / sigma / sqrt 2) with (mu / (sigma * sqrt 2)) by (field; lra). lra. }
    unfold mean_abs_normal. rewrite A, Rmult_assoc, B, C. unfold c. field. lra.
Qed.
(* second moment *)
Definition M2 (c z : R) : R := (c * c + 1) * Phi z - 2 * c * phi z - z * phi z.
Lemma M2_derive c z : derivable_pt_lim (M2 c) z ((c + z) * (c + z) * phi z).
Proof.
  apply (derive_ext _ _ ((c * c + 1) * phi z - 2 * c * (- z * phi z) - (1 * phi z + z * (- z * phi z)))); [|ring].
  apply (derivable_pt_lim_minus (fun z => (c * c + 1) * Phi z - 2 * c * phi z) (fun z => z * phi z)).
  - apply (derivable_pt_lim_minus (fun z => (c * c + 1) * Phi z) (fun z => 2 * c * phi z)).
    + apply (derivable_pt_lim_scal Phi), Phi_derive.
    + apply (derivable_pt_lim_scal phi), phi_derive.
  - apply (derivable_pt_lim_mult (fun z => z) phi); [apply derivable_pt_lim_id|apply phi_derive].
Qed.
Lemma M2_low c : limit_low (M2 c) 0.
Proof.
  apply (limit_low_ext (fun z => (c * c + 1) * Phi z + (- 2 * c) * phi z + (-1) * (z * phi z))); [intros t; unfold M2; lra|].
  replace 0 with ((c * c + 1) * 0 + (- 2 * c) * 0 + (-1) * 0) by lra.
  apply (limit_low_plus (fun z => (c * c + 1) * Phi z + (- 2 * c) * phi z) (fun z => (-1) * (z * phi z))).
  - apply (limit_low_plus (fun z => (c * c + 1) * Phi z) (fun z => (- 2 * c) * phi z));
    [apply (limit_low_scal _ Phi), Phi_low|apply (limit_low_scal _ phi), phi_low].
  - apply (limit_low_scal (-1) (fun z => z * phi z)), zphi_low.
Qed.
Lemma second_moment mu sigma : 0 < sigma -> exists a b,
  integral_to (fun t => t ^ 2 * normal_pdf mu sigma t) 0 a /\ integral_from (fun t => t ^ 2 * normal_pdf mu sigma t) 0 b /\
  mu * mu + sigma * sigma = a + b.
Proof.
  intros S. set (c := mu / sigma). set (z0 := (0 - mu) / sigma).
  exists (sigma * (sigma * M2 c z0) - 0), (0 - sigma * (sigma * - M2 (- c) (- z0))). split; [|split].
  - exists (fun t => sigma * (sigma * M2 c ((t - mu) / sigma))), 0. split; [|split; auto].
    + intros t. rewrite pdf_std by auto.
      apply (derive_ext _ _ (sigma * ((c + (t - mu) / sigma) * (c + (t - mu) / sigma) * phi ((t - mu) / sigma)))); [|unfold c; simpl; field; lra].
      apply (standardize (fun z => sigma * M2 c z) (fun z => sigma * ((c + z) * (c + z) * phi z))); auto.
      intros z. apply (derivable_pt_lim_scal (M2 c)), M2_derive.
    + replace 0 with (sigma * sigma * 0) by lra. apply (limit_low_ext (fun t => (sigma * sigma) * M2 c ((t - mu) / sigma))); [intros t; lra|].
      apply (limit_low_scal (sigma * sigma) (fun t => M2 c ((t - mu) / sigma))), standardize_low; auto. apply M2_low.
  - exists (fun t => sigma * (sigma * - M2 (- c) (- ((t - mu) / sigma)))), 0. split; [|split; auto].
    + intros t. rewrite pdf_std by auto.
      apply (derive_ext _ _ (sigma * ((- c + - ((t - mu) / sigma)) * (- c + - ((t - mu) / sigma)) * phi (- ((t - mu) / sigma))))).
      2: { rewrite phi_even. unfold c. simpl. field. lra. }
      apply (standardize (fun z => sigma * - M2 (- c) (- z)) (fun z => sigma * ((- c + - z) * (- c + - z) * phi (- z)))); auto.
      intros z. apply (derivable_pt_lim_scal (fun z => - M2 (- c) (- z))). apply derive_reflect, M2_derive.
    + apply limit_high_low. replace 0 with ((- sigma) * sigma * 0) by lra.
      apply (limit_low_ext (fun t => ((- sigma) * sigma) * M2 (- c) ((t - - mu) / sigma))).
      { intros t. replace (- ((- t - mu) / sigma)) with ((t - - mu) / sigma) by (field; lra). lra. }
      apply (limit_low_scal _ (fun t => M2 (- c) ((t - - mu) / sigma))), standardize_low; auto. apply M2_low.
  - assert (Z : z0 = - c) by (unfold z0, c; field; lra). rewrite Z, Ropp_involutive. unfold M2. rewrite phi_even, Phi_sym.
    unfold c. field. lra.
Qed.
End Erf.

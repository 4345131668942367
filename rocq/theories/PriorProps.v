(* C57: the log densities, supports and equality of priors. *)
From Coq Require Import Reals Lra Psatz String.
From Verif Require Import Base ExtRealModel DistanceProofs PriorModel PriorSpec PriorProofs.
Local Open Scope R_scope.

(* the uniform prior is exact: minus infinity outside the bounds *)
Theorem C57_uniform (l u x : R) : l < u ->
  log_pdf (UniformPrior (XFin l) (XFin u)) (XFin x) = log_of (uniform_density l u x) /\
  (within (lower_bound (UniformPrior (XFin l) (XFin u))) (upper_bound (UniformPrior (XFin l) (XFin u))) (XFin x) <->
   uniform_density l u x <> 0).
Proof.
  intros H. split; [exact (uniform_value false l u x H)|]. unfold within, uniform_density. cbn [lower_bound upper_bound xleb].
  rewrite !Rleb_true. assert (0 < / (u - l)) by (apply Rinv_0_lt_compat; lra).
  destruct (Rle_dec l x); [|split; [lra|intros []; auto]]. destruct (Rle_dec x u); [|split; [lra|intros []; auto]].
  split; [lra|auto].
Qed.
Print Assumptions C57_uniform.
Example C57_uniform_meets : 1 < 3. Proof. lra. Qed.

(* the improper priors: constant on their supports *)
Theorem C57_improper (x : R) :
  log_pdf UninformativePrior (XFin x) = XFin 0 /\ log_pdf FixedPrior (XFin x) = XFin 0 /\
  log_pdf NonNegativePrior (XFin x) = (if Rle_dec 0 x then XFin 0 else XNeg) /\
  log_pdf PositivePrior (XFin x) = (if Rlt_dec 0 x then XFin 0 else XNeg).
Proof.
  simpl. repeat split; auto.
  - destruct (Rle_dec 0 x); [rewrite (proj2 (Rleb_true _ _)) by auto|rewrite (proj2 (Rleb_false _ _)) by lra]; auto.
  - destruct (Rlt_dec 0 x); [rewrite (proj2 (Rltb_true _ _)) by auto|rewrite (proj2 (Rltb_false _ _)) by lra]; auto.
Qed.
Print Assumptions C57_improper.

(* a value that is not excluded is within the bounds, for all but the positive priors *)
Theorem C57_support (p : prior) (x : R) :
  match p with
  | PositivePrior | PositiveGaussianPrior _ _ => False
  | _ => True
  end ->
  log_pdf p (XFin x) <> XNeg -> within (lower_bound p) (upper_bound p) (XFin x).
Proof.
  unfold within. destruct p; cbn [log_pdf lower_bound upper_bound]; try tauto; intros _ H; auto.
  - destruct (xleb (XFin 0) (XFin x)); auto; tauto.
  - destruct (xleb lower (XFin x)), (xleb (XFin x) upper); simpl in H; tauto.
  - destruct (xleb lower (XFin x)), (xleb (XFin x) upper); simpl in H; tauto.
Qed.
Print Assumptions C57_support.
Example C57_support_meets : log_pdf (UniformPrior (XFin 0) (XFin 1)) (XFin (1 / 2)) <> XNeg.
Proof.
  rewrite (uniform_value false 0 1 (1 / 2)) by lra. unfold uniform_density, log_of.
  destruct (Rle_dec 0 (1 / 2)); [|lra]. destruct (Rle_dec (1 / 2) 1); [|lra].
  destruct (Req_EM_T _ _) as [E|]; [|discriminate]. rewrite Rminus_0_r, Rinv_1 in E. lra.
Qed.

(* small positive values are not excluded by log_pdf but they are outside of the bounds *)
Theorem C57_positive_bounds_refuted (x : R) : 0 < x < / 2 ^ 52 ->
  log_pdf PositivePrior (XFin x) = XFin 0 /\ ~ within (lower_bound PositivePrior) (upper_bound PositivePrior) (XFin x).
Proof.
  intros H. split.
  - simpl. rewrite (proj2 (Rltb_true _ _)) by lra. auto.
  - unfold within. cbn [lower_bound xleb]. unfold double_epsilon. rewrite Rleb_true. lra.
Qed.
Print Assumptions C57_positive_bounds_refuted.
Example C57_positive_bounds_meets : 0 < / 2 ^ 53 < / 2 ^ 52.
Proof. split; [apply Rinv_0_lt_compat, pow_lt; lra|apply Rinv_lt_contravar; simpl; lra]. Qed.

(* differences of Gaussian log densities are right ... *)
Theorem C57_gaussian_differences (mu sigma x y : R) : 0 < sigma ->
  exists a b, log_pdf (GaussianPrior mu sigma) (XFin x) = XFin a /\ log_pdf (GaussianPrior mu sigma) (XFin y) = XFin b /\
    a - b = ln (normal_density mu sigma x) - ln (normal_density mu sigma y).
Proof. intros H. rewrite !gaussian_value by auto. do 2 eexists. repeat split. lra. Qed.
Print Assumptions C57_gaussian_differences.

(* ... but not the log densities: the normalisation multiplies log(2 pi) and log(sigma^2) instead of adding them.
   It is right for one sigma only; for sigma = 1 it is always wrong. *)
Theorem C57_gaussian_refuted (mu sigma x : R) : 0 < sigma ->
  (log_pdf (GaussianPrior mu sigma) (XFin x) = log_of (normal_density mu sigma x) <->
   ln sigma * (2 * ln (2 * PI) - 2) = ln (2 * PI)) /\
  log_pdf (GaussianPrior mu 1) (XFin x) <> log_of (normal_density mu 1 x).
Proof.
  assert (A : forall s, 0 < s -> log_pdf (GaussianPrior mu s) (XFin x) = log_of (normal_density mu s x) <->
     ln s * (2 * ln (2 * PI) - 2) = ln (2 * PI)).
  { intros s Hs. rewrite gaussian_value by auto. rewrite log_of_pos by (apply normal_pos; auto).
    unfold LOG_2PI_. split; intros E; [injection E as E; lra|f_equal; lra]. }
  intros H. split; [apply A; auto|]. rewrite A by lra. rewrite ln_1, Rmult_0_l. intros E.
  assert (0 < ln (2 * PI)); [|lra]. rewrite <- ln_1. apply ln_increasing; [lra|].
  pose proof PI2_3_2. unfold PI2 in *. lra.
Qed.
Print Assumptions C57_gaussian_refuted.

(* the prior named positive Gaussian does not exclude negative numbers, its log density is that of the Gaussian
   prior plus log 2 everywhere; the bounds ignore mu *)
Theorem C57_positive_gaussian_refuted (mu sigma x : R) : 0 < sigma ->
  (exists v, log_pdf (GaussianPrior mu sigma) (XFin x) = XFin v /\
             log_pdf (PositiveGaussianPrior mu sigma) (XFin x) = XFin (v + ln 2)) /\
  (x < 0 -> log_pdf (PositiveGaussianPrior 0 sigma) (XFin x) <> log_of (half_normal_density sigma x)) /\
  (within (lower_bound (PositiveGaussianPrior mu sigma)) (upper_bound (PositiveGaussianPrior mu sigma)) (XFin mu) <->
   0 <= mu <= 10 * sigma).
Proof.
  intros H. split; [|split].
  - eexists. split; reflexivity.
  - intros Hx. unfold half_normal_density. destruct (Rle_dec 0 x); [lra|]. rewrite log_of_0. discriminate.
  - unfold within. cbn [lower_bound upper_bound xleb]. rewrite !Rleb_true. tauto.
Qed.
Print Assumptions C57_positive_gaussian_refuted.

(* the log-normal prior squares the deviation without halving it; 0 and negative numbers give NaN *)
Theorem C57_log_normal_refuted (mu sigma x : R) : 0 < sigma ->
  (0 < x -> (log_pdf (LogNormalPrior mu sigma) (XFin x) = log_of (log_normal_density mu sigma x) <-> ln x = mu) /\
            exists v, log_pdf (LogNormalPrior mu sigma) (XFin x) = XFin v /\
                      v = ln (log_normal_density mu (sigma / sqrt 2) x) - ln 2 / 2) /\
  (x <= 0 -> log_pdf (LogNormalPrior mu sigma) (XFin x) = XNaN).
Proof.
  intros H. split.
  - intros X. destruct (log_normal_pos mu sigma x H X) as [P E].
    rewrite log_normal_value, log_of_pos by auto. split.
    + split.
      * intros Q. injection Q as Q. assert (Z : ((ln x - mu) / sigma) ^ 2 = 0) by lra.
        assert (Z2 : (ln x - mu) / sigma = 0) by nra.
        assert (ln x - mu = (ln x - mu) / sigma * sigma) by (field; lra). rewrite Z2 in *. lra.
      * intros ->. f_equal. replace ((mu - mu) / sigma) with 0 by (field; lra). simpl. lra.
    + eexists. split; [reflexivity|]. rewrite E.
      assert (S2 : 0 < sqrt 2) by (apply sqrt_lt_R0; lra).
      assert (0 < sigma / sqrt 2) by (apply Rmult_lt_0_compat; auto using Rinv_0_lt_compat).
      destruct (log_normal_pos mu (sigma / sqrt 2) x) as [_ ->]; auto.
      assert (L : ln (sigma / sqrt 2) = ln sigma - ln 2 / 2).
      { unfold Rdiv at 1. rewrite ln_mult, ln_Rinv, ln_root by (auto using Rinv_0_lt_compat; lra). lra. }
      rewrite L.
      assert (D : ((ln x - mu) / (sigma / sqrt 2)) ^ 2 = 2 * ((ln x - mu) / sigma) ^ 2).
      { replace ((ln x - mu) / (sigma / sqrt 2)) with ((ln x - mu) / sigma * sqrt 2) by (field; lra).
        rewrite Rpow_mult_distr. replace (sqrt 2 ^ 2) with 2; [ring|]. simpl. rewrite Rmult_1_r, sqrt_sqrt; lra. }
      rewrite D. lra.
  - intros X. simpl. rewrite (proj2 (Rltb_false 0 x)) by auto. destruct (Reqb x 0); simpl; auto.
    rewrite (proj2 (Rltb_true 0 (/ sigma))) by (apply Rinv_0_lt_compat; auto). auto.
Qed.
Print Assumptions C57_log_normal_refuted.

(* the log-scale uniform prior has the density of the uniform prior, not of the log-uniform distribution *)
Theorem C57_log_scale_uniform_refuted (l u x : R) : 0 < l < u -> l <= x <= u ->
  log_pdf (LogScaleUniformPrior (XFin l) (XFin u)) (XFin x) = log_of (uniform_density l u x) /\
  (log_pdf (LogScaleUniformPrior (XFin l) (XFin u)) (XFin x) = log_of (log_uniform_density l u x) <->
   x * ln (u / l) = u - l).
Proof.
  intros H X. assert (E := uniform_value true l u x ltac:(lra)). simpl in E. split; [exact E|]. simpl. rewrite E.
  unfold uniform_density, log_uniform_density.
  destruct (Rle_dec l x); [|lra]. destruct (Rle_dec x u); [|lra].
  assert (0 < u - l) by lra. assert (A : 0 < / (u - l)) by (apply Rinv_0_lt_compat; auto).
  assert (Q : 1 < u / l) by (apply (Rmult_lt_reg_r l); [lra|]; unfold Rdiv; rewrite Rmult_assoc, Rinv_l; lra).
  assert (L : 0 < ln (u / l)) by (rewrite <- ln_1; apply ln_increasing; lra).
  assert (P : 0 < x * ln (u / l)) by (apply Rmult_lt_0_compat; lra).
  assert (B : 0 < / (x * ln (u / l))) by (apply Rinv_0_lt_compat; auto).
  rewrite !log_of_pos by auto. split.
  - intros Z. injection Z as Z. apply ln_inv in Z; auto. apply (f_equal Rinv) in Z. rewrite !Rinv_inv in Z. auto.
  - intros ->. auto.
Qed.
Print Assumptions C57_log_scale_uniform_refuted.
Example C57_log_scale_uniform_meets : 0 < 1 < 4 /\ 1 <= 2 <= 4. Proof. lra. Qed.

(* priors other than the uniform ones are equal exactly if they are the same *)
Theorem C57_equality print (p q : prior) :
  match p with UniformPrior _ _ | LogScaleUniformPrior _ _ => False | _ => True end ->
  prior_equal print p q = true <-> p = q.
Proof.
  intros U. split.
  - destruct p, q; simpl; try tauto; try discriminate; intros H; auto;
    apply andb_prop in H; destruct H as [H1 H2]; apply Reqb_true in H1, H2; subst; auto.
  - intros <-. destruct p; simpl; try tauto; auto;
    rewrite !(proj2 (Reqb_true _ _)) by auto; auto.
Qed.
Print Assumptions C57_equality.
Example C57_equality_meets : GaussianPrior 0 1 <> GaussianPrior 0 2. Proof. intros [= E]. lra. Qed.

(* uniform priors are equal if their bounds print alike: with the default precision of streams, bounds that agree
   to six significant digits do *)
Theorem C57_uniform_equality_refuted print (l u l' u' : xr) :
  (print l = print l' -> print u = print u' -> prior_equal print (UniformPrior l u) (UniformPrior l' u') = true) /\
  (print (XFin (1 / 2)) = print (XFin (1 / 2 + / 10 ^ 9)) -> exists a b x, a <> b /\
     prior_equal print (UniformPrior (XFin 0) a) (UniformPrior (XFin 0) b) = true /\
     log_pdf (UniformPrior (XFin 0) a) x <> log_pdf (UniformPrior (XFin 0) b) x).
Proof.
  split.
  - intros E1 E2. simpl. rewrite E1, E2. apply String.eqb_refl.
  - intros E. assert (P : 0 < / 10 ^ 9) by (apply Rinv_0_lt_compat, pow_lt; lra).
    exists (XFin (1 / 2)), (XFin (1 / 2 + / 10 ^ 9)), (XFin (1 / 2 + / 10 ^ 9)). split; [intros [= Q]; lra|split].
    + simpl. rewrite E. apply String.eqb_refl.
    + rewrite !(uniform_value false) by lra. unfold uniform_density.
      destruct (Rle_dec 0 (1 / 2 + / 10 ^ 9)); [|lra]. destruct (Rle_dec (1 / 2 + / 10 ^ 9) (1 / 2)); [lra|].
      destruct (Rle_dec (1 / 2 + / 10 ^ 9) (1 / 2 + / 10 ^ 9)); [|lra].
      rewrite log_of_0, log_of_pos by (apply Rinv_0_lt_compat; lra). discriminate.
Qed.
Print Assumptions C57_uniform_equality_refuted.

(* C60: the variogram score and the continuous ranked probability score. *)
From Coq Require Import Reals Lra Lia.
From Verif Require Import ExtRealModel DistanceModel DistanceProofs RadialModel ErfSpec ErfProofs.
From Verif Require ErfExample.
From mathcomp Require Import all_ssreflect all_algebra.
From Verif Require Import RealStruct GpModel GpSpec GpProofs PsdProofs LdltModel LdltSpec LdltProofs RealPsd SparseGpProofs2 LikelihoodProofs
  ScoreModel ScoreSpec ScoreProofs.
From Verif Require Base.
Set Implicit Arguments.
Unset Strict Implicit.
Unset Printing Implicit Defensive.
Import Order.TTheory GRing.Theory Num.Theory.
Local Open Scope ring_scope.

Definition some_weights n (w : 'M[R]_n) : option {w : nat * nat & 'M[R]_(w.1, w.2)} :=
  Some (existT (fun s : nat * nat => 'M[R]_(s.1, s.2)) (n, n) w).

(* ---- the variogram score ---- *)
(* the score is the sum of the weighted terms above the diagonal; standard deviations of differences below 1e-16 are
   excluded for the madogram *)
Theorem C60_variogram erf n (prediction : joint R_fieldType n) (y : 'cV[R]_n) (w : 'M[R]_n) order :
  psd (j_cov prediction) ->
  (order = cMadogram -> forall i j, resolved (difference_deviation (j_cov prediction) i j)) ->
  let v := (\sum_(i < n) \sum_(j < n | (i < j)%N) w i j * variogram_term erf (is_madogram order) (j_mean prediction) (j_cov prediction) y i j)%R in
  (0 <= v -> variogram_score erf prediction y (some_weights w) order = Base.Ok (XFin v)) /\
  (v < 0 -> variogram_score erf prediction y (some_weights w) order = Base.Abort) /\
  ((forall i j : 'I_n, (i < j)%N -> 0 <= w i j) -> 0 <= v).
Proof.
move=> Cp hr v; have e := variogram_value erf y w Cp hr; rewrite -/v /= in e.
split => [h|]; first by rewrite /some_weights e h.
split => [h|h]; first by rewrite /some_weights e leNgt h.
by apply: sumr_ge0 => i _; apply: sumr_ge0 => j ij; apply: mulr_ge0; [exact: h|exact: sqr_ge0].
Qed.
Print Assumptions C60_variogram.

(* no weights: every weight is 1 *)
Theorem C60_variogram_unweighted erf n m (prediction : joint R_fieldType n) (y : 'cV[R]_m) order :
  variogram_score erf prediction y None order = variogram_score erf prediction y (some_weights (const_mx 1 : 'M[R]_m)) order.
Proof. by []. Qed.
(* truths with uncertainty: the variances of the truth are added to the covariance *)
Theorem C60_variogram_uncertain erf n (prediction : joint R_fieldType n) (truth : marginal R_fieldType n) weights order :
  variogram_score_uncertain erf prediction truth weights order =
  variogram_score erf
    (Joint (F := R_fieldType) (j_mean prediction) (\matrix_(i, j) (j_cov prediction i j + (if i == j then m_var truth i 0 else 0))))
    (m_mean truth) weights order.
Proof.
rewrite /variogram_score_uncertain; have -> : j_cov prediction + diag (m_var truth) =
  \matrix_(i, j) (j_cov prediction i j + (if i == j then m_var truth i 0 else 0)) => //.
by apply/matrixP => i j; rewrite !mxE; case: eqP => [->|] /=; rewrite ?mulr1n ?mulr0n.
Qed.
Print Assumptions C60_variogram_uncertain.

(* mismatched sizes abort *)
Theorem C60_variogram_aborts erf n m (prediction : joint R_fieldType n) (y : 'cV[R]_m) weights order :
  n <> m \/ (exists k l (w : 'M[R]_(k, l)), weights = Some (existT (fun s : nat * nat => 'M[R]_(s.1, s.2)) (k, l) w) /\ (k <> m \/ l <> m)) ->
  variogram_score erf prediction y weights order = Base.Abort.
Proof.
rewrite /variogram_score; case: eqP => //= e [//|[k [l [w [-> h]]]]] /=.
case: eqP => //= kl; case: eqP => //= km; case: h => // lm; by rewrite -kl in lm.
Qed.
Print Assumptions C60_variogram_aborts.

(* the documented sum runs over all i and j; with symmetric weights it is twice the result *)
Theorem C60_variogram_half erf n (prediction : joint R_fieldType n) (y : 'cV[R]_n) (w : 'M[R]_n) order :
  psd (j_cov prediction) -> w^T = w -> (forall i j, 0 <= w i j) ->
  (order = cMadogram -> forall i j, resolved (difference_deviation (j_cov prediction) i j)) ->
  let documented := (\sum_(i < n) \sum_(j < n) w i j * variogram_term erf (is_madogram order) (j_mean prediction) (j_cov prediction) y i j)%R in
  variogram_score erf prediction y (some_weights w) order = Base.Ok (XFin (documented / 2%:R)%R).
Proof.
move=> Cp ws w0 hr documented.
have [h [_ /(_ (fun i j _ => w0 i j)) v0]] := C60_variogram erf y w Cp hr; rewrite h //; congr (Base.Ok (XFin _)).
set t := variogram_term erf _ _ _ _ in documented *.
set v := \sum_(i < n) \sum_(j < n | (i < j)%N) w i j * t i j.
have s i j : w j i * t j i = w i j * t i j by rewrite -{1}ws mxE /t term_sym //; case: Cp.
have d i : w i i * t i i = 0.
  have -> : t i i = 0; last by rewrite mulr0.
  rewrite /t /variogram_term /difference_deviation !subrr normr0; set c := j_cov prediction i i.
  have -> : Rminus (Rplus c c) (Rmult (IZR 2) c) = IZR 0 by ring.
  set m := j_mean prediction i 0; have -> : Rminus m m = IZR 0 by ring.
  rewrite R_sqrt.sqrt_0 /mean_power; case: (is_madogram order).
    case: Rlt_dec => h0; first by case: (Rlt_irrefl _ h0).
    by rewrite Rbasic_fun.Rabs_R0; toR; eqR; rewrite expr2; toR; ring.
  by rewrite !expr2; toR; eqR; ring.
suff -> : documented = v + v by rewrite -mulr2n -mulr_natr mulfK // pnatr_eq0.
have lower : v = \sum_(i < n) \sum_(j < n | (j < i)%N) w i j * t i j.
  rewrite /v (exchange_big_dep predT) //=; apply: eq_bigr => j _; apply: eq_bigr => i _; exact: s.
rewrite {2}lower /documented /v -big_split /=; apply: eq_bigr => i _.
rewrite (bigID (fun j : 'I_n => (i < j)%N)) /=; congr (_ + _).
rewrite (bigD1 i) /=; last by rewrite ltnn.
rewrite d add0r; apply: eq_bigl => j; rewrite -leqNgt ltn_neqAle; rewrite andbC; congr (_ && _).
Qed.
Print Assumptions C60_variogram_half.

Definition two_unit : joint R_fieldType 2 := Joint (F := R_fieldType) 0 1%:M.
Definition step_truth : 'cV[R]_2 := \col_i (i == 1)%:R.
Example C60_variogram_meets : psd (j_cov two_unit) /\ (forall i j, resolved (difference_deviation (j_cov two_unit) i j)) /\
  ((const_mx 1 : 'M[R]_2)^T = const_mx 1) /\ forall i j, 0 <= (const_mx 1 : 'M[R]_2) i j.
Proof.
split; first by apply: pd_psd; apply: pd_scalar_mx; exact: ltr01.
split; last by split => [|i j]; [apply/matrixP => i j|]; rewrite !mxE ?ler01.
have t : Rle (Rinv (Rpow_def.pow 10 16)) 1.
  by rewrite -[X in Rle _ X]Rinv_1; apply: Rinv_le_contravar; [lra|apply: pow_R1_Rle; lra].
move=> i j; rewrite /resolved; move: (Rinv _) t => e0 t; rewrite /difference_deviation !mxE !eqxx; case: eqP => [e|_] /=; [left|right].
  by have -> : Rminus (Rplus 1 1) (Rmult (IZR 2) 1) = IZR 0 by [toR; ring]; rewrite R_sqrt.sqrt_0; apply: Rle_refl.
have -> : Rminus (Rplus 1 1) (Rmult (IZR 2) 0) = IZR 2 by toR; ring.
have s : Rlt 1 (R_sqrt.sqrt 2) by rewrite -{1}R_sqrt.sqrt_1; apply: R_sqrt.sqrt_lt_1; lra.
lra.
Qed.
(* finding: the variogram score is half the documented sum over all pairs *)
Theorem C60_variogram_half_refuted : exists (prediction : joint R_fieldType 2) (y : 'cV[R]_2), psd (j_cov prediction) /\
  forall erf, variogram_score erf prediction y None cVariogram = Base.Ok (XFin 1%R) /\
    (\sum_(i < 2) \sum_(j < 2) variogram_term erf false (j_mean prediction) (j_cov prediction) y i j)%R = 2%:R.
Proof.
exists two_unit, step_truth; split; first by case: C60_variogram_meets.
move=> erf; have s : (\sum_(i < 2) \sum_(j < 2) variogram_term erf false (j_mean two_unit) (j_cov two_unit) step_truth i j)%R = 2%:R.
  rewrite !big_ord_recl !big_ord0 /variogram_term /mean_power /difference_deviation !mxE /=.
  have -> : Rminus (Rplus 1 1) (Rmult (IZR 2) 1) = IZR 0 by toR; ring.
  have -> : Rminus (Rplus 1 1) (Rmult (IZR 2) 0) = IZR 2 by toR; ring.
  have s2 : (R_sqrt.sqrt (IZR 2) * R_sqrt.sqrt (IZR 2) = IZR 2)%R by apply: R_sqrt.sqrt_sqrt; lra.
  rewrite R_sqrt.sqrt_0 s2.
  rewrite !subrr !normr0 sub0r subr0 normrN normr1 two_R !expr2; toR; eqR; ring.
split => //; have [pC [hr [ws w0]]] := C60_variogram_meets.
rewrite C60_variogram_unweighted (@C60_variogram_half erf 2 two_unit step_truth (const_mx 1) cVariogram) //.
congr (Base.Ok (XFin _)); rewrite -[RHS](@mulfV R_fieldType 2%:R); last by rewrite pnatr_eq0.
congr (_ / _); rewrite -s; apply: eq_bigr => i _; apply: eq_bigr => j _; by rewrite mxE mul1r.
Qed.
Print Assumptions C60_variogram_half_refuted.

(* a difference of negative variance aborts *)
Lemma foldl_nan (I : Type) (s : seq I) (F : I -> xr) : foldl (fun acc i => xadd acc (F i)) XNaN s = XNaN.
Proof. by elim: s. Qed.
Lemma xadd_nan x : xadd x XNaN = XNaN. Proof. by case: x. Qed.
Lemma foldl_hit (I : eqType) (s : seq I) (F : I -> xr) a i : i \in s -> F i = XNaN -> foldl (fun acc i => xadd acc (F i)) a s = XNaN.
Proof.
elim: s a => //= k s IH a; rewrite inE => /orP[/eqP <- ->|h e]; last exact: IH.
by rewrite xadd_nan foldl_nan.
Qed.
Theorem C60_variogram_indefinite erf n (prediction : joint R_fieldType n) (y : 'cV[R]_n) (w : 'M[R]_n) order (i j : 'I_n) :
  (i < j)%N -> j_cov prediction i i + j_cov prediction j j - 2%:R * j_cov prediction i j < 0 ->
  variogram_score erf prediction y (some_weights w) order = Base.Abort.
Proof.
move=> ij /RltP h; rewrite /variogram_score /some_weights !eqxx /= !conform_mx_id.
rewrite (@foldl_hit _ _ _ _ i) //.
  rewrite mem_filter mem_enum andbT; apply: leq_trans ij _; by rewrite -ltnS prednK ?ltn_ord // (leq_ltn_trans (leq0n i) (ltn_ord i)).
rewrite /variogram_row (@foldl_hit _ _ _ _ j) //; first by rewrite mem_filter mem_enum ij.
rewrite {1}/xsqrt (proj2 (Rltb_true _ _) h); by case: order.
Qed.
Print Assumptions C60_variogram_indefinite.

(* ---- moments ---- *)
(* the expected absolute value and square are those of the normal distribution, as integrals against its density *)
Theorem C60_expected_abs erf (mu sigma : R) : is_erf erf -> Rle (Rinv (Rpow_def.pow 10 16)) sigma -> exists a b,
  integral_to (fun t => Rmult (Ropp t) (normal_pdf mu sigma t)) 0 a /\ integral_from (fun t => Rmult t (normal_pdf mu sigma t)) 0 b /\
  expected_abs_normal erf (XFin mu) (XFin sigma) cMadogram = XFin (Rplus a b).
Proof.
move=> H h; have s0 : Rlt 0 sigma.
  by apply: Rlt_le_trans h; apply: Rinv_0_lt_compat; apply: pow_lt; lra.
have [a [b [ha [hb e]]]] := mean_abs_integrals erf H mu sigma s0; exists a, b; do 2!split => //.
rewrite expected_value; last by right.
by rewrite /mean_power /=; case: Rlt_dec => h1 //; rewrite e.
Qed.
Print Assumptions C60_expected_abs.
Theorem C60_expected_square erf (mu sigma : R) : is_erf erf -> Rlt 0 sigma -> exists a b,
  integral_to (fun t => Rmult (Rpow_def.pow t 2) (normal_pdf mu sigma t)) 0 a /\
  integral_from (fun t => Rmult (Rpow_def.pow t 2) (normal_pdf mu sigma t)) 0 b /\
  expected_abs_normal erf (XFin mu) (XFin sigma) cVariogram = XFin (Rplus a b).
Proof.
move=> H s0; have [a [b [ha [hb e]]]] := second_moment erf H mu sigma s0; exists a, b; do 2!split => //.
by rewrite expected_value // /mean_power /=; congr XFin; rewrite -e.
Qed.
Print Assumptions C60_expected_square.
(* point masses *)
Theorem C60_expected_degenerate erf (mu sigma : R) :
  (Rle sigma 0 -> expected_abs_normal erf (XFin mu) (XFin sigma) cMadogram = XFin (Rbasic_fun.Rabs mu)) /\
  expected_abs_normal erf (XFin mu) (XFin 0) cVariogram = XFin (Rmult mu mu).
Proof.
split => [h|]; last by rewrite /expected_abs_normal /expected_abs_normal_2 /=; congr XFin; toR; ring.
rewrite expected_value; last by left.
by rewrite /mean_power /=; case: Rlt_dec => // h0; exfalso; lra.
Qed.
Print Assumptions C60_expected_degenerate.
Example C60_erf_meets : is_erf ErfExample.erf_.
Proof. exact: ErfExample.exists_erf. Qed.

(* ---- the continuous ranked probability score ---- *)
Lemma crps_value erf (mu sigma y : R) : crps_normal erf (XFin mu) (XFin sigma) (XFin y) =
  if Rleb sigma 0 then XFin (Rbasic_fun.Rabs (Rminus y mu)) else XFin (Rmult sigma (crps_std erf (Rdiv (Rminus y mu) sigma))).
Proof.
rewrite /crps_normal; case: ifP => // _; congr XFin; rewrite /crps_std /phi two_R; by [].
Qed.
(* the score is the integral of the squared distance between the distribution function and that of a point mass at y *)
Theorem C60_crps erf (mu sigma y : R) : is_erf erf -> Rlt 0 sigma -> exists a b,
  integral_to (fun t => Rpow_def.pow (normal_cdf erf mu sigma t) 2) y a /\
  integral_from (fun t => Rpow_def.pow (Rminus 1 (normal_cdf erf mu sigma t)) 2) y b /\
  crps_normal erf (XFin mu) (XFin sigma) (XFin y) = XFin (Rplus a b).
Proof.
move=> H s0; have A := cdf_sq_integral erf H mu sigma y s0; have B := tail_sq_integral erf H mu sigma y s0.
eexists; eexists; split; [exact: A|split; [exact: B|]].
rewrite crps_value (proj2 (Rleb_false _ _)) // (crps_split erf H); congr XFin; ring.
Qed.
Print Assumptions C60_crps.
(* it is least at the mean and grows with the distance from it *)
Theorem C60_crps_minimum erf (mu sigma y : R) : is_erf erf -> Rlt 0 sigma ->
  crps_normal erf (XFin mu) (XFin sigma) (XFin mu) = XFin (Rmult sigma (Rdiv (Rminus (R_sqrt.sqrt 2) 1) (R_sqrt.sqrt Rtrigo1.PI))) /\
  Rlt 0 (Rmult sigma (Rdiv (Rminus (R_sqrt.sqrt 2) 1) (R_sqrt.sqrt Rtrigo1.PI))) /\
  forall y' v v', Rlt (Rbasic_fun.Rabs (Rminus y mu)) (Rbasic_fun.Rabs (Rminus y' mu)) ->
    crps_normal erf (XFin mu) (XFin sigma) (XFin y) = XFin v -> crps_normal erf (XFin mu) (XFin sigma) (XFin y') = XFin v' -> Rlt v v'.
Proof.
move=> H s0; have nz : Rleb sigma 0 = false by apply/Rleb_false.
split; first by rewrite crps_value nz (_ : Rdiv (Rminus mu mu) sigma = IZR 0) ?(crps_zero erf) //; field; lra.
split.
  apply: Rmult_lt_0_compat => //; apply: Rdiv_lt_0_compat; last by apply: sqrt_lt_R0; exact: PI_RGT_0.
  have s : Rlt 1 (R_sqrt.sqrt 2) by rewrite -{1}R_sqrt.sqrt_1; apply: R_sqrt.sqrt_lt_1; lra.
  lra.
move=> y' v v' h; rewrite !crps_value !nz => [[<-] [<-]].
apply: Rmult_lt_compat_l => //; rewrite -(crps_abs erf H (Rdiv _ _)) -(crps_abs erf H (Rdiv (Rminus y' mu) sigma)).
have i0 : Rlt 0 (Rinv sigma) by apply: Rinv_0_lt_compat.
apply: (crps_increasing erf H); rewrite /Rdiv !Rabs_mult (Rabs_pos_eq (Rinv sigma)); last by lra.
split; last exact: Rmult_lt_compat_r.
by apply: Rmult_le_pos; [exact: Rbasic_fun.Rabs_pos|lra].
Qed.
Print Assumptions C60_crps_minimum.
(* point masses and arguments that are not finite *)
Theorem C60_crps_degenerate erf (mu sigma y : xr) :
  (forall m s t, mu = XFin m -> sigma = XFin s -> y = XFin t -> Rle s 0 -> crps_normal erf mu sigma y = XFin (Rbasic_fun.Rabs (Rminus t m))) /\
  (xisfinite mu && xisfinite sigma && xisfinite y = false -> crps_normal erf mu sigma y = XNaN).
Proof.
split => [m s t -> -> -> h|]; first by rewrite crps_value (proj2 (Rleb_true _ _)).
by case: mu; case: sigma; case: y.
Qed.
Print Assumptions C60_crps_degenerate.

(* C69: root mean square errors, standard deviations and likelihoods of predictions. *)
From Coq Require Import Reals Lra.
From Verif Require Import ExtRealModel DistanceModel RadialModel.
From Verif Require Base.
From mathcomp Require Import all_ssreflect fingroup perm all_algebra.
From Verif Require Import RealStruct GpModel GpSpec PsdProofs LdltModel LdltSpec LikelihoodModel LikelihoodProofs SparseGpSpec ScoreModel ScoreSpec ScoreProofs RealPsd SparseGpProofs2 LikelihoodProps MetricsModel MetricsSpec MetricsProofs.
Set Implicit Arguments.
Unset Strict Implicit.
Unset Printing Implicit Defensive.
Import Order.TTheory GRing.Theory Num.Theory.
Local Open Scope ring_scope.

(* ---- root mean square error ---- *)
Theorem C69_rmse n (p t : 'cV[R]_n) :
  root_mean_square_error p t = Base.Ok (if (n == 0)%N then XNaN else XFin (R_sqrt.sqrt (mean_square (p - t)))).
Proof. by case: n p t => [|n] p t; [exact: rmse_empty|exact: rmse_value]. Qed.
Print Assumptions C69_rmse.

(* a metric: nonnegative, zero exactly for perfect predictions, symmetric, and the triangle inequality *)
Theorem C69_rmse_metric n (a b c : 'cV[R]_n) : (0 < n)%N -> exists ab bc ac : R,
  root_mean_square_error a b = Base.Ok (XFin ab) /\ root_mean_square_error b a = Base.Ok (XFin ab) /\
  root_mean_square_error b c = Base.Ok (XFin bc) /\ root_mean_square_error a c = Base.Ok (XFin ac) /\
  0 <= ab /\ (ab = 0 <-> a = b) /\ ac <= ab + bc.
Proof.
move=> n0; exists (R_sqrt.sqrt (mean_square (a - b))), (R_sqrt.sqrt (mean_square (b - c))), (R_sqrt.sqrt (mean_square (a - c))).
rewrite !rmse_value // -[a - b]opprB mean_squareN; do 4!split => //.
split; first by apply/RleP; exact: sqrt_pos.
split; first split.
- move/(sqrt_eq0 (mean_square_ge0 _))/(mean_square_eq0 n0)/eqP; by rewrite subr_eq0 => /eqP ->.
- by move=> ->; rewrite subrr /mean_square big1 ?mul0r => [|i _]; rewrite ?mxE ?expr0n // R_sqrt.sqrt_0.
rewrite -[mean_square (b - a)]mean_squareN opprB !mean_square_norm; have -> : a - c = (a - b) + (b - c) by rewrite addrA subrK.
by apply: weighted_norm_triangle => i; rewrite mxE invr_ge0 ler0n.
Qed.
Print Assumptions C69_rmse_metric.

(* at least the average error in absolute value, at most the largest *)
Theorem C69_rmse_bounds n (p t : 'cV[R]_n) (r worst : R) : root_mean_square_error p t = Base.Ok (XFin r) ->
  (forall i, `|p i 0 - t i 0| <= worst) -> `|average (p - t)| <= r /\ r <= worst.
Proof.
rewrite C69_rmse; case: n p t => [//|n] p t; set x := p - t; set m := n.+1 => -[<-] h.
have w0 : 0 <= worst by apply: le_trans (h 0); rewrite normr_ge0.
have sq (y z : R) : 0 <= y -> 0 <= z -> (R_sqrt.sqrt y <= z) = (y <= z ^+ 2).
  move=> /RleP y0 /RleP z0; apply/RleP/RleP => k.
    rewrite -[y in Rle y _](sqrt_sqrt y) // expr2; apply: Rmult_le_compat => //; exact: sqrt_pos.
  rewrite -[z](sqrt_square z) //; apply: R_sqrt.sqrt_le_1_alt; by rewrite expr2 in k.
split; last first.
  rewrite sq ?mean_square_ge0 // /mean_square ler_pdivr_mulr ?ltr0n //.
  rewrite mulr_natr -[X in _ *+ X](card_ord m) -sumr_const; apply: ler_sum => i _; rewrite !mxE -real_normK ?num_real //.
  by rewrite ler_sqr ?nnegrE ?normr_ge0 //; have := h i.
have : average x ^+ 2 <= mean_square x.
  have := cauchy (fun i => x i 0) (fun _ => 1%R) ; under eq_bigr do rewrite mulr1.
  have -> : \sum_(i < m) (1 : R) ^+ 2 = m%:R by under eq_bigr do rewrite expr1n; rewrite sumr_const card_ord.
  move=> k; rewrite /average /mean_square expr_div_n ler_pdivr_mulr ?exprn_gt0 ?ltr0n //.
  by rewrite [_ ^+ 2 in X in _ <= X]expr2 mulrA mulfVK ?n_neq0.
move=> /RleP k; have -> : `|average x| = R_sqrt.sqrt (average x ^+ 2) by rewrite expr2; have := sqrt_Rsqr_abs (average x); rewrite /Rsqr => ->; rewrite RnormE.
by apply/RleP; apply: R_sqrt.sqrt_le_1_alt.
Qed.
Print Assumptions C69_rmse_bounds.

(* ---- standard deviation ---- *)
Theorem C69_standard_deviation n (x : 'cV[R]_n) :
  standard_deviation x = if (n == 0)%N then XNaN else if (n == 1)%N then XFin 0 else XFin (R_sqrt.sqrt (sample_variance x)).
Proof. by case: n x => [|[|n]] x //; exact: sd_value. Qed.
Print Assumptions C69_standard_deviation.

(* a constant offset does not matter, a factor scales it, and it is zero exactly for constant errors *)
Theorem C69_standard_deviation_laws n (x : 'cV[R]_n) (c : R) : (0 < n)%N ->
  standard_deviation (x + const_mx c) = standard_deviation x /\
  standard_deviation (c *: x) = xmul (XFin `|c|) (standard_deviation x) /\
  (standard_deviation x = XFin 0 <-> exists v, x = const_mx v) /\
  xltb (standard_deviation x) (XFin 0) = false.
Proof.
move=> n0; rewrite !C69_standard_deviation; case: n x n0 => [//|[|n]] x n0.
  split=> //; split; first by rewrite /= Rmult_0_r.
  split; last by rewrite /= /Rltb; case: Rlt_dec => // h; exfalso; lra.
  by split=> // _; exists (x 0 0); apply/matrixP => i j; rewrite mxE (ord1 i) (ord1 j).
rewrite /= varianceD // varianceZ; set v := sample_variance x; have v0 : 0 <= v := sample_variance_ge0 x n0.
split=> //; split; last split.
- congr XFin; have -> : c ^+ 2 = Rsqr c by rewrite expr2.
  by have := sqrt_mult_alt (Rsqr c) v (Rle_0_sqr c); rewrite sqrt_Rsqr_abs RnormE => <-.
- split=> [[]|[w e]].
    by move/(sqrt_eq0 v0)/(variance_eq0 (n := n.+2) isT) => e; exists (average x).
  congr XFin; rewrite /v e; have -> : sample_variance (const_mx w : 'cV[R]_n.+2) = 0; last exact: R_sqrt.sqrt_0.
  have -> : const_mx w = 0 + const_mx w :> 'cV[R]_n.+2 by rewrite add0r.
  rewrite varianceD // /sample_variance big1 ?mul0r // => i _.
  by rewrite /average big1 ?mul0r ?subr0 ?mxE ?expr0n // => j _; rewrite mxE.
- by rewrite /Rltb; case: Rlt_dec => // h; exfalso; have := sqrt_pos v; lra.
Qed.
Print Assumptions C69_standard_deviation_laws.

(* the mean square error is the squared bias plus the spread around it *)
Theorem C69_bias_and_spread n (p t : 'cV[R]_n) : (1 < n)%N -> exists rmse sd : R,
  root_mean_square_error p t = Base.Ok (XFin rmse) /\ standard_deviation_of p t = Base.Ok (XFin sd) /\
  rmse ^+ 2 = average (p - t) ^+ 2 + (n%:R - 1) / n%:R * sd ^+ 2.
Proof.
move=> n1; have n0 : (0 < n)%N by apply: leq_trans n1.
exists (R_sqrt.sqrt (mean_square (p - t))), (R_sqrt.sqrt (sample_variance (p - t))).
rewrite rmse_value // /standard_deviation_of difference_value /= sd_value //; do 2!split => //.
have sq (y : R) : 0 <= y -> R_sqrt.sqrt y ^+ 2 = y by move=> /RleP h; rewrite expr2; exact: sqrt_sqrt.
by rewrite !sq ?mean_square_ge0 ?sample_variance_ge0 // decomposition.
Qed.
Print Assumptions C69_bias_and_spread.

(* the order of the data does not matter *)
Theorem C69_order n (p t x : 'cV[R]_n) (s : {perm 'I_n}) :
  root_mean_square_error (row_perm s p) (row_perm s t) = root_mean_square_error p t /\
  standard_deviation (row_perm s x) = standard_deviation x.
Proof.
rewrite !C69_rmse !C69_standard_deviation; split.
  congr (Base.Ok (if _ then _ else XFin (R_sqrt.sqrt (_ / _)))).
  by rewrite -[RHS](perm_sum s); apply: eq_bigr => i _; rewrite !mxE.
have E : average (row_perm s x) = average x by congr (_ / _); rewrite -[RHS](perm_sum s); apply: eq_bigr => i _; rewrite mxE.
congr (if _ then _ else if _ then _ else XFin (R_sqrt.sqrt (_ / _))).
by rewrite E -[RHS](perm_sum s); apply: eq_bigr => i _; rewrite mxE.
Qed.
Print Assumptions C69_order.

(* ---- likelihoods ---- *)
Section Likelihood.
Variable tolerance : R.
Variable compute_ldlt : forall n, 'M[R]_n -> ldlt_state n.
Hypothesis hl : ldlt_contract compute_ldlt.
Hypothesis t0 : 0 <= tolerance.
(* the density of the truth under the prediction widened by the noise of the truth *)
Theorem C69_nll_joint n (p : joint R_fieldType n) (t : marginal R_fieldType n) :
  let C : 'M[R]_n := j_cov p + diag (m_var t) in
  pd C -> (forall i, tolerance < vectorD (compute_ldlt C) i 0) ->
  nll_joint tolerance compute_ldlt p t = Base.Ok (XFin (- gaussian_log_density C (j_mean p - m_mean t))).
Proof. by move=> C Cp big; rewrite /nll_joint difference_value /= conform_mx_id C58_dense. Qed.
Theorem C69_nll_marginal n (p t : marginal R_fieldType n) : (forall i, 0 < m_var p i 0 + m_var t i 0) ->
  nll_marginal p t = Base.Ok (XFin (- gaussian_log_density (diag (m_var p + m_var t)) (m_mean p - m_mean t))).
Proof.
move=> h; rewrite /nll_marginal difference_value /= conform_mx_id.
by have [-> _] := @C58_diagonal tolerance compute_ldlt hl t0 n (m_mean p - m_mean t) (m_var p + m_var t) (fun i => eq_ind_r (fun x => 0 < x) (h i) (mxE _ _ _ _)).
Qed.
(* uncorrelated predictions: both forms agree *)
Theorem C69_nll_uncorrelated n (p t : marginal R_fieldType n) : (forall i, 0 < m_var p i 0 + m_var t i 0) ->
  (forall i, tolerance < vectorD (compute_ldlt (diag (m_var p + m_var t) : 'M[R]_n)) i 0) ->
  nll_joint tolerance compute_ldlt (Joint (m_mean p) (diag (m_var p))) t = nll_marginal p t.
Proof.
move=> h; have E : diag (m_var p) + diag (m_var t) = diag (m_var p + m_var t) :> 'M[R]_n.
  by apply/matrixP => i j; rewrite !mxE -mulrnDl.
rewrite -E => big; rewrite C69_nll_marginal // C69_nll_joint /= ?E //; last by rewrite -E.
by apply: pd_diag => i; rewrite mxE; exact: h.
Qed.
(* vectors of different sizes are an assertion in every metric *)
Theorem C69_sizes m n (a : 'cV[R]_m) (b : 'cV[R]_n) (p : joint R_fieldType m) (q : marginal R_fieldType m) (t : marginal R_fieldType n) :
  m <> n -> root_mean_square_error a b = Base.Abort /\ standard_deviation_of a b = Base.Abort /\
  nll_joint tolerance compute_ldlt p t = Base.Abort /\ nll_marginal q t = Base.Abort.
Proof. by move=> h; rewrite /root_mean_square_error /standard_deviation_of /nll_joint /nll_marginal !difference_abort. Qed.
End Likelihood.
Print Assumptions C69_nll_joint.
Print Assumptions C69_nll_marginal.
Print Assumptions C69_nll_uncorrelated.
Print Assumptions C69_sizes.

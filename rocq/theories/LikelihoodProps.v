(* C58, C59, C68: Gaussian likelihoods, differential entropy and the log likelihood of a Gaussian process. *)
From Coq Require Import Reals Lra.
From Verif Require Import ExtRealModel DistanceModel DistanceProofs RadialModel GaussianModel PriorSpec PriorProofs GaussianProofs.
From mathcomp Require Import all_ssreflect all_algebra.
From Verif Require Import RealStruct GpModel GpSpec PsdProofs LdltModel LdltSpec LdltProofs SparseGpSpec RealPsd SparseGpProofs2 SparseGpExamples
  LikelihoodModel LikelihoodSpec LikelihoodProofs.
From Verif Require Base.
Set Implicit Arguments.
Unset Strict Implicit.
Unset Printing Implicit Defensive.
Import Order.TTheory GRing.Theory Num.Theory.
Local Open Scope ring_scope.

(* ---- C58: likelihoods ---- *)
(* pdf is the density of N(0, v) and log_pdf is its logarithm *)
Theorem C58_pdf (d v : R) : 0 < v ->
  gaussian_pdf (XFin d) (XFin v) = XFin (normal_density 0 (R_sqrt.sqrt v) d) /\
  gaussian_log_pdf (XFin d) (XFin v) = XFin (Rpower.ln (normal_density 0 (R_sqrt.sqrt v) d)) /\
  xexp (gaussian_log_pdf (XFin d) (XFin v)) = gaussian_pdf (XFin d) (XFin v).
Proof.
move=> /RltP h; have := log_pdf_value d v h; rewrite -log_normal_density // => e; rewrite e pdf_value //; do 2!split => //.
rewrite /xexp exp_ln //; apply: normal_pos; exact: R_sqrt.sqrt_lt_R0.
Qed.
Print Assumptions C58_pdf.
Example C58_pdf_meets : gaussian_log_pdf (XFin 0) (XFin 1) = XFin (- (Rpower.ln (2%:R * Rtrigo1.PI) / 2%:R))%R.
Proof.
rewrite (@log_pdf_value 0 1) ?ln_1; last by lra.
by rewrite two_R; congr XFin; move: (Rpower.ln _) => l; toR; field.
Qed.

(* a variance that is not positive gives NaN *)
Theorem C58_degenerate (d v : R) : v <= 0 -> nll_scalar d v = XNaN.
Proof. by move=> /RleP h; rewrite /nll_scalar; have [-> _] := degenerate_value d v h. Qed.
Print Assumptions C58_degenerate.

Section Dense.
Variable tolerance : R.
Variable compute_ldlt : forall n, 'M[R]_n -> ldlt_state n.
Hypothesis hl : ldlt_contract compute_ldlt.
Hypothesis t0 : 0 <= tolerance.
Let big n (A : 'M[R]_n) := forall i, tolerance < vectorD (compute_ldlt A) i 0.

(* the dense computation is minus the log density of N(0, A), whatever the dimension *)
Theorem C58_dense n (y : 'cV[R]_n) (A : 'M[R]_n) : pd A -> big A ->
  nll_dense tolerance compute_ldlt y A = Base.Ok (XFin (- gaussian_log_density A y)).
Proof. move=> Ap h; apply: nll_dense_value => //; split => //; exact: hl. Qed.

(* diagonal covariances: the density is that of the dense covariance, and a sum of univariate ones *)
Theorem C58_diagonal n (y v : 'cV[R]_n) : (forall i, 0 < v i 0) ->
  nll_diagonal y v = Base.Ok (XFin (- gaussian_log_density (diag v) y)) /\
  - gaussian_log_density (diag v) y = \sum_i - Rpower.ln (normal_density 0 (R_sqrt.sqrt (v i 0)) (y i 0)) /\
  (big (diag v) -> nll_dense tolerance compute_ldlt y (diag v) = nll_diagonal y v).
Proof.
move=> h; rewrite (nll_diagonal_value y h); split => //; split; last first.
  by move=> b; rewrite C58_dense //; exact: pd_diag.
rewrite -[LHS]/(nll_of (diag v) y) -(nll_of_diag y h); apply: eq_bigr => i _.
have hi : Rlt 0 (v i 0) by apply/RltP; exact: h.
have := @nll_one (v i 0)%:M (y i 0)%:M; rewrite !mxE !eqxx !mulr1n => /(_ (h i)).
by rewrite /nll_scalar log_pdf_value // -log_normal_density // => -[<-].
Qed.

(* independent data: the likelihoods of two blocks add up *)
Theorem C58_independent n m (x : 'cV[R]_n) (y : 'cV[R]_m) (A : 'M[R]_n) (B : 'M[R]_m) :
  pd A -> pd B -> big A -> big B -> big (block_mx A 0 0 B) ->
  exists a b, nll_dense tolerance compute_ldlt x A = Base.Ok (XFin a) /\
    nll_dense tolerance compute_ldlt y B = Base.Ok (XFin b) /\
    nll_dense tolerance compute_ldlt (col_mx x y) (block_mx A 0 0 B) = Base.Ok (XFin (a + b)%R).
Proof.
move=> Ap Bp bA bB bC; exists (nll_of A x), (nll_of B y); rewrite !C58_dense //; last first.
  have := @block_pd _ n m A 0 B; rewrite trmx0; apply => //.
  by rewrite mulmx0 subr0.
split=> //; split=> //; rewrite -nll_of_block //.
  by apply: det_pos (hl Ap) _; exact: factors_pd (hl Ap) Ap.
by apply: det_pos (hl Bp) _; exact: factors_pd (hl Bp) Bp.
Qed.

(* sizes that do not match abort *)
Theorem C58_sizes m r c (y : 'cV[R]_m) (A : 'M[R]_(r, c)) (v : 'cV[R]_r) :
  (m <> r \/ c <> r <-> nll_dense tolerance compute_ldlt y A = Base.Abort) /\
  (m <> r <-> nll_diagonal y v = Base.Abort).
Proof.
rewrite /nll_dense /nll_diagonal /Base.assert_then; split; case: eqP => e1; (try case: eqP => e2); (split; tauto || by []).
Qed.

(* a covariance that is not invertible: minus infinity, i.e. infinitely likely, whatever the deviation *)
Theorem C58_singular n (y : 'cV[R]_n) (A : 'M[R]_n) : factors (compute_ldlt A) A -> psd A -> \det A = 0 -> n != 1%N ->
  nll_dense tolerance compute_ldlt y A = Base.Ok XNeg.
Proof. exact: nll_dense_singular. Qed.

(* ---- C59: entropy ---- *)
Theorem C59_value n (A : 'M[R]_n) : pd A ->
  differential_entropy compute_ldlt A = XFin (n%:R * (1 + Rpower.ln (2%:R * Rtrigo1.PI) + Rpower.ln (\det A)) / 2%:R)%R.
Proof. move=> Ap; apply: entropy_value (hl Ap) _; exact: factors_pd (hl Ap) Ap. Qed.

Lemma det_gt0 n (A : 'M[R]_n) : pd A -> 0 < \det A.
Proof. move=> Ap; apply: det_pos (hl Ap) _; exact: factors_pd (hl Ap) Ap. Qed.

(* the value is the entropy of N(mu, A) only in one dimension or when the determinant is 1 *)
Theorem C59_exactly_when n (A : 'M[R]_n) : pd A ->
  (differential_entropy compute_ldlt A = XFin (gaussian_entropy A) <-> n = 1%N \/ \det A = 1).
Proof.
move=> Ap; have dA := det_gt0 Ap; rewrite C59_value // /gaussian_entropy.
have nz : (2%:R : R) != 0 by rewrite pnatr_eq0.
have E : (n%:R * (1 + Rpower.ln (2%:R * Rtrigo1.PI) + Rpower.ln (\det A)) / 2%:R)%R =
  ((n%:R * (1 + Rpower.ln (2%:R * Rtrigo1.PI)) + Rpower.ln (\det A)) / 2%:R)%R + (n%:R - 1) * Rpower.ln (\det A) / 2%:R.
  rewrite -mulrDl; congr (_ / _); by move: (Rpower.ln _) (Rpower.ln _) (n%:R : R) => p q u; Rring.
split=> [[e]|h].
  move/eqP: e; rewrite E -subr_eq0 addrAC subrr add0r mulf_eq0 invr_eq0 (negbTE nz) orbF mulf_eq0 => /orP[/eqP e|/eqP e].
    left; apply/eqP; rewrite -(eqr_nat [numDomainType of R]); apply/eqP; by move/eqP: e; rewrite subr_eq0 => /eqP.
  right; apply: ln_inv; [exact/RltP|exact/RltP/ltr01|by rewrite e ln_1].
congr XFin; rewrite E; case: h => [e|->].
  by have -> : (n%:R - 1 : R) = 0; [rewrite e subrr|rewrite !mul0r addr0].
by rewrite ln_1 mulr0 mul0r addr0.
Qed.

(* it still orders covariances of the same size as their entropies do *)
Theorem C59_ordering n (A B : 'M[R]_n) : pd A -> pd B -> (0 < n)%N ->
  (xltb (differential_entropy compute_ldlt A) (differential_entropy compute_ldlt B) = true <->
   gaussian_entropy A < gaussian_entropy B) /\
  (gaussian_entropy A < gaussian_entropy B <-> \det A < \det B).
Proof.
move=> Ap Bp n0; have dA := det_gt0 Ap; have dB := det_gt0 Bp; rewrite !C59_value //= Rltb_true /gaussian_entropy.
have two : (0 : R) < 2%:R^-1 by rewrite invr_gt0 ltr0n.
have l : Rpower.ln (\det A) < Rpower.ln (\det B) <-> \det A < \det B.
  split=> /RltP h; apply/RltP; [apply: ln_lt_inv => //; exact/RltP|apply: ln_increasing => //; exact/RltP].
have g : ((n%:R * (1 + Rpower.ln (2%:R * Rtrigo1.PI)) + Rpower.ln (\det A)) / 2%:R <
          (n%:R * (1 + Rpower.ln (2%:R * Rtrigo1.PI)) + Rpower.ln (\det B)) / 2%:R)%R = (Rpower.ln (\det A) < Rpower.ln (\det B)).
  by rewrite ltr_pmul2r // ltr_add2l.
rewrite g; split=> //.
have <- : (n%:R * (1 + Rpower.ln (2%:R * Rtrigo1.PI) + Rpower.ln (\det A)) / 2%:R <
          n%:R * (1 + Rpower.ln (2%:R * Rtrigo1.PI) + Rpower.ln (\det B)) / 2%:R)%R = (Rpower.ln (\det A) < Rpower.ln (\det B)).
  by rewrite ltr_pmul2r // ltr_pmul2l ?ltr0n // ltr_add2l.
by split=> /RltP.
Qed.

(* a singular covariance has entropy minus infinity *)
Theorem C59_singular n (A : 'M[R]_n) : factors (compute_ldlt A) A -> psd A -> \det A = 0 ->
  differential_entropy compute_ldlt A = XNeg.
Proof.
move=> fA Ap dA; rewrite /differential_entropy /differential_entropy_ldlt.
rewrite -[log_determinant_of_symmetric _]/(log_sum _) log_sum_zero //=; first last.
- exact: zero_pivot dA.
- exact: factors_psd fA Ap.
have n0 : (0 < n)%N by case: n A dA {fA Ap} => // A; rewrite det_mx00 => /eqP; rewrite oner_eq0.
have -> : Rltb 0 n%:R = true by apply/Rltb_true/RltP; rewrite ltr0n.
by rewrite /= (proj2 (Rltb_true _ _)) //; lra.
Qed.

(* not additive: the entropy of two independent blocks exceeds the sum by a share of the log determinants *)
Theorem C59_additive n m (A : 'M[R]_n) (B : 'M[R]_m) : pd A -> pd B ->
  exists a b c, differential_entropy compute_ldlt A = XFin a /\ differential_entropy compute_ldlt B = XFin b /\
    differential_entropy compute_ldlt (block_mx A 0 0 B) = XFin c /\
    c = a + b + (m%:R * Rpower.ln (\det A) + n%:R * Rpower.ln (\det B)) / 2%:R.
Proof.
move=> Ap Bp; have dA := det_gt0 Ap; have dB := det_gt0 Bp.
have Cp : pd (block_mx A 0 0 B) by have := @block_pd _ n m A 0 B; rewrite trmx0; apply => //; rewrite mulmx0 subr0.
rewrite !C59_value //; do 3!eexists; do 3!(split; first by []).
have -> : Rpower.ln (\det (block_mx A 0 0 B)) = Rpower.ln (\det A) + Rpower.ln (\det B).
  by rewrite det_ublock; apply: ln_mult; exact/RltP.
rewrite natrD -!mulrDl; congr (_ / _).
move: (Rpower.ln _) (Rpower.ln _) (Rpower.ln _) (n%:R : R) (m%:R : R) => p q l u w; Rring.
Qed.
End Dense.
Print Assumptions C58_dense.
Print Assumptions C58_diagonal.
Print Assumptions C58_independent.
Print Assumptions C58_sizes.
Print Assumptions C58_singular.
Print Assumptions C59_value.
Print Assumptions C59_exactly_when.
Print Assumptions C59_ordering.
Print Assumptions C59_singular.
Print Assumptions C59_additive.

(* Eigen's factorization exists for these: *)
Example C58_meets : ldlt_contract plain_ldlt /\ pd (2%:R%:M : 'M[R]_2) /\
  forall i, 0 < vectorD (plain_ldlt (2%:R%:M : 'M[R]_2)) i 0.
Proof.
have p2 : pd (2%:R%:M : 'M[R]_2) by apply: pd_scalar_mx; rewrite ltr0n.
split; first exact: plain_ldlt_contract; split=> //.
exact: factors_pd (plain_ldlt_contract p2) p2.
Qed.
Example C58_singular_meets : let compute_ldlt := fun n (_ : 'M[R]_n) => @LdltState n 0 id in
  factors (compute_ldlt 2%N 0) 0 /\ psd (0 : 'M[R]_2) /\ \det (0 : 'M[R]_2) = 0.
Proof.
split; last by split; [exact: psd0|rewrite det0].
rewrite /factors; have -> : vectorD (LdltState (0 : 'M[R]_2) id) = 0 by apply/matrixP => i j; rewrite !mxE.
by rewrite trmx0 (_ : diag_mx 0 = 0) ?mulmx0 ?mul0mx //; exact: linear0.
Qed.
(* a deviation that N(0, 0) rules out is infinitely likely *)
Theorem C58_singular_refuted (compute_ldlt : forall n, 'M[R]_n -> ldlt_state n) : factors (compute_ldlt 2%N 0) 0 ->
  nll_dense 0 compute_ldlt (const_mx 1 : 'cV[R]_2) (0 : 'M[R]_2) = Base.Ok XNeg.
Proof. move=> h; apply: C58_singular => //; [exact: psd0|by rewrite det0]. Qed.
Print Assumptions C58_singular_refuted.

(* the entropy of N(mu, 2 I) in two dimensions is not the value computed, and independent variables do not add up *)
Theorem C59_entropy_refuted (compute_ldlt : forall n, 'M[R]_n -> ldlt_state n) : ldlt_contract compute_ldlt ->
  differential_entropy compute_ldlt (2%:R%:M : 'M[R]_2) <> XFin (gaussian_entropy (2%:R%:M : 'M[R]_2)).
Proof.
move=> hl; have p2 : pd (2%:R%:M : 'M[R]_2) by apply: pd_scalar_mx; rewrite ltr0n.
move/(C59_exactly_when hl p2) => [//|]; rewrite det_scalar -natrX => /eqP.
by rewrite -[1]/(1%:R) eqr_nat.
Qed.
Print Assumptions C59_entropy_refuted.
(* finding: the entropy of two independent variables is not the sum of their entropies *)
Theorem C59_additive_refuted (compute_ldlt : forall n, 'M[R]_n -> ldlt_state n) : ldlt_contract compute_ldlt ->
  let v : 'M[R]_1 := 2%:R%:M in
  exists a c, differential_entropy compute_ldlt v = XFin a /\
    differential_entropy compute_ldlt (block_mx v 0 0 v) = XFin c /\ c <> a + a.
Proof.
move=> hl v; have p2 : pd v by apply: pd_scalar_mx; rewrite ltr0n.
have [a [b [c [ea [eb [ec e]]]]]] := C59_additive hl p2 p2; exists a, c; split=> //; split=> //.
move: eb; rewrite ea => -[ab]; rewrite {}e -ab; set z := _ / _; move/eqP; rewrite -subr_eq0 addrAC subrr add0r.
rewrite /z det_scalar1 -mulrDl mulf_eq0 invr_eq0 pnatr_eq0 orbF mulf_eq0 -natrD pnatr_eq0 /= => /eqP.
by move=> h; have := ln_lt_2; move: h; rewrite two_R => ->; toR; lra.
Qed.
Print Assumptions C59_additive_refuted.

(* ---- C68: the log likelihood of a Gaussian process ---- *)
Section Gp.
Variable tolerance : R.
Variable compute_ldlt : forall n, 'M[R]_n -> ldlt_state n.
Hypothesis hl : ldlt_contract compute_ldlt.
Hypothesis t0 : 0 <= tolerance.
Variable X : Type.
Variable cov : feature X -> feature X -> R.
Variable mean_function : feature X -> R.
Let measured n (xs : 'I_n -> feature X) := as_measurement (X := X) \o xs.
Let K n (xs : 'I_n -> feature X) : 'M[R]_n := cov_mx (F := R_fieldType) cov (measured xs) (measured xs).

(* the log density of the targets under the prior of the measurements, plus that of the parameters *)
Theorem C68_value n (xs : 'I_n -> feature X) (t : marginal R_fieldType n) prior_ :
  pd (K xs) -> (forall i, tolerance < vectorD (compute_ldlt (K xs)) i 0) ->
  gp_log_likelihood tolerance compute_ldlt cov mean_function prior_ xs t =
  Base.Ok (xadd (XFin (gaussian_log_density (K xs) (m_mean t - mean_v (F := R_fieldType) mean_function (measured xs)))) prior_).
Proof.
move=> Kp h; rewrite /gp_log_likelihood -/(measured xs) -/(K xs) (C58_dense hl t0) //= Ropp_involutive.
by [].
Qed.
(* it ignores the noise of the targets, which fit takes into account *)
Theorem C68_ignores_noise n (xs : 'I_n -> feature X) (t t' : marginal R_fieldType n) prior_ : m_mean t = m_mean t' ->
  gp_log_likelihood tolerance compute_ldlt cov mean_function prior_ xs t =
  gp_log_likelihood tolerance compute_ldlt cov mean_function prior_ xs t'.
Proof. by rewrite /gp_log_likelihood => ->. Qed.
(* parameters outside of their bounds have log likelihood minus infinity *)
Theorem C68_impossible_parameters n (xs : 'I_n -> feature X) (t : marginal R_fieldType n) :
  pd (K xs) -> (forall i, tolerance < vectorD (compute_ldlt (K xs)) i 0) ->
  gp_log_likelihood tolerance compute_ldlt cov mean_function XNeg xs t = Base.Ok XNeg.
Proof. by move=> Kp h; rewrite C68_value. Qed.
End Gp.
Print Assumptions C68_value.
Print Assumptions C68_ignores_noise.
Print Assumptions C68_impossible_parameters.

(* so with noisy targets it is not the likelihood of the data, which has covariance K + diag(noise) *)
Theorem C68_noise_refuted (compute_ldlt : forall n, 'M[R]_n -> ldlt_state n) : ldlt_contract compute_ldlt ->
  let t : marginal R_fieldType 1 := Marginal (F := R_fieldType) 0 (const_mx 1) in
  let K := cov_mx (F := R_fieldType) linear (as_measurement (X := R) \o one_x) (as_measurement (X := R) \o one_x) in
  gp_log_likelihood 0 compute_ldlt linear (fun _ => 0) (XFin 0) one_x t <>
  Base.Ok (XFin (gaussian_log_density (K + diag (m_var t)) (m_mean t))).
Proof.
move=> hl t K.
have KE : K = 1%:M by apply/matrixP => i j; rewrite !mxE !ord1 /linear; exact: mulr1.
have Kp : pd K by rewrite KE; apply: pd_scalar_mx; exact: ltr01.
rewrite (C68_value hl) //; last exact: factors_pd (hl _ _ Kp) Kp.
rewrite -/K /xadd => -[]; have -> : m_mean t - mean_v (F := R_fieldType) (fun _ => 0) (as_measurement (X := R) \o one_x) = 0.
  by apply/matrixP => i j; rewrite !mxE subrr.
rewrite /gaussian_log_density !mulmx0 !mxE.
have -> : K + diag (m_var t) = 2%:R%:M by rewrite KE; apply/matrixP => i j; rewrite !mxE !ord1 eqxx !mulr1n.
rewrite KE det1 det_scalar1 ln_1.
have l2 := ln_lt_2; have l20 : Rlt 0 (Rpower.ln (IZR 2)) by lra.
rewrite -two_R in l20; move: (Rpower.ln (2%:R)) l20 => l l20; move: (Rmult 1%:R _) => z.
have -> : (2%:R : R)^-1%R = Rdiv 1 2 by rewrite two_R; toR; Rfield.
move=> e; have : l = 0; last by move=> l0; rewrite l0 in l20; move: l20; toR; lra.
by move: e; toR; lra.
Qed.
Print Assumptions C68_noise_refuted.
Example C68_meets : let K := cov_mx (F := R_fieldType) linear (as_measurement (X := R) \o one_x) (as_measurement (X := R) \o one_x) in
  pd K /\ forall i, 0 < vectorD (plain_ldlt K) i 0.
Proof.
move=> K; have KE : K = 1%:M by apply/matrixP => i j; rewrite !mxE !ord1 /linear; exact: mulr1.
have Kp : pd K by rewrite KE; apply: pd_scalar_mx; exact: ltr01.
by split=> //; exact: factors_pd (plain_ldlt_contract Kp) Kp.
Qed.

(* Model of the scores of evaluation/prediction_metrics.hpp. Entries of vectors and matrices are exact reals; results
   of square roots may be NaN. *)
From Coq Require Import Reals.
From Verif Require Import ExtRealModel DistanceModel RadialModel.
From mathcomp Require Import all_ssreflect all_algebra.
From Verif Require Import RealStruct GpModel LdltModel.
From Verif Require Base.
Set Implicit Arguments.
Unset Strict Implicit.
Unset Printing Implicit Defensive.
Import GRing.Theory.
Local Open Scope ring_scope.

(* Eigen's sum() and mean() of n coefficients, in exact arithmetic *)
Definition xsum n (F : 'I_n -> xr) : xr := foldl (fun sum i => xadd sum (F i)) (XFin 0) (enum 'I_n).
Definition xmean n (F : 'I_n -> xr) : xr := xdiv (xsum F) (XFin n%:R).

(* evaluation/prediction_metrics.hpp:193-196 *)
Inductive variogram_score_order := cVariogram | cMadogram.

Section Scores.
(* Eigen's factorization, and whether its info() is Success *)
Variable compute_ldlt : forall n, 'M[R]_n -> ldlt_state n.
Variable info : forall n, 'M[R]_n -> bool.
(* std::erf *)
Variable erf : R -> R.

(* evaluation/prediction_metrics.hpp:200-217; the draws of the standard normal distribution are an argument *)
Definition draw_mvn n k (success : bool) (decomp : ldlt_state n) (mean : 'cV[R]_n) (draws : 'M[R]_(n, k)) :
    Base.outcome 'M[R]_(n, k) :=
  Base.assert_then success (Base.assert_then [forall i, 0 < vectorD decomp i 0] (
  Base.Ok (transpositions_mul decomp (matrixL decomp *m scale_rows (\col_i R_sqrt.sqrt (vectorD decomp i 0)) draws) +
           \matrix_(i, j) mean i 0))).

(* evaluation/prediction_metrics.hpp:221-234; the sizes asserted are equal by type *)
Definition mean_err_norms n k (samples : 'M[R]_(n, k)) (truth weights : 'cV[R]_n) : xr :=
  xmean (fun j : 'I_k => xsqrt (xsum (fun i => XFin ((samples i j - truth i 0) ^+ 2 * weights i 0)%R))).

(* evaluation/prediction_metrics.hpp:244-256; the sizes asserted are equal by type *)
Definition pairwise_errors_paired n k (samples_a samples_b : 'M[R]_(n, k)) (weights : 'cV[R]_n) : xr :=
  xmean (fun j : 'I_k => xsqrt (xsum (fun i => XFin (((samples_a i j - samples_b i j) * weights i 0) ^+ 2)%R))).

(* evaluation/prediction_metrics.hpp:258-277; k_generate is num_samples / 2 + 1 *)
Definition k_generate (num_samples : nat) : nat := (num_samples %/ 2 + 1)%N.
Definition antithetic_sample n num_samples (prediction_mean : 'cV[R]_n) (success : bool) (cov_decomp : ldlt_state n)
    (draws : 'M[R]_(n, k_generate num_samples)) :
    Base.outcome 'M[R]_(n, k_generate num_samples + k_generate num_samples) :=
  Base.bind (draw_mvn success cov_decomp prediction_mean draws) (fun left_cols =>
  Base.Ok (row_mx left_cols (- left_cols + \matrix_(i, j) (2%:R * prediction_mean i 0)))).

(* evaluation/prediction_metrics.hpp:287-301 *)
Definition expected_abs_normal_1 (mu sigma : xr) : xr :=
  if negb (xisfinite mu) || negb (xisfinite sigma) then XNaN
  else if xleb sigma (XFin 0) then xabs mu
  else
    let normalized := xdiv (xabs mu) (std_max (XFin (Rinv (Rpow_def.pow 10 16))) sigma) in
    xadd (xmul (xmul sigma (xsqrt (XFin (Rdiv 2 Rtrigo1.PI)))) (xexp (xscale (Ropp (Rdiv 1 2)) (xmul normalized normalized))))
         (xmul (xabs mu) (match normalized with XFin x => XFin (erf (Rdiv x (R_sqrt.sqrt 2))) | _ => XNaN end)).
(* evaluation/prediction_metrics.hpp:304-306 *)
Definition expected_abs_normal_2 (mu sigma : xr) : xr := xadd (xmul mu mu) (xmul sigma sigma).
(* evaluation/prediction_metrics.hpp:310-321 *)
Definition expected_abs_normal (mu sigma : xr) (order : variogram_score_order) : xr :=
  match order with
  | cVariogram => expected_abs_normal_2 mu sigma
  | cMadogram => expected_abs_normal_1 mu sigma
  end.
(* evaluation/prediction_metrics.hpp:323-333 and the use of its result as an exponent, :495 *)
Definition pow_p (order : variogram_score_order) (x : R) : R :=
  match order with cVariogram => x ^+ 2 | cMadogram => x end.

(* evaluation/prediction_metrics.hpp:349-364 *)
Definition crps_normal (mu sigma y : xr) : xr :=
  match mu, sigma, y with
  | XFin mu, XFin sigma, XFin y =>
      if Rleb sigma 0 then XFin (Rabs (Rminus y mu))
      else
        let z := Rdiv (Rminus y mu) sigma in
        let erfz := erf (Rdiv z (R_sqrt.sqrt 2)) in
        let phi := Rdiv (Rtrigo_def.exp (Rmult (Rmult (Ropp (Rdiv 1 2)) z) z)) (R_sqrt.sqrt (Rmult 2 Rtrigo1.PI)) in
        XFin (sigma * (z * erfz + 2 * phi - 1 / R_sqrt.sqrt Rtrigo1.PI))
  | _, _, _ => XNaN
  end.

(* weights: a pointer that may be null *)
Definition default_weights n : option {w & 'cV[R]_w} -> {w & 'cV[R]_w} := fun weights =>
  if weights is Some w then w else existT (fun w => 'cV[R]_w) n (const_mx 1).

(* evaluation/prediction_metrics.hpp:387-422; the draws of the generator started at the seed are arguments.
   conform_mx turns the sizes that were just compared into equal types *)
Definition energy_score n m (prediction : joint R_fieldType n) (truth : 'cV[R]_m) (weights : option {w & 'cV[R]_w})
    (num_samples : nat) (draws_a draws_b : 'M[R]_(n, k_generate num_samples)) : Base.outcome xr :=
  Base.assert_then (1 < num_samples)%N (Base.assert_then (n == m)%N (
  let weight_vector := default_weights m weights in
  Base.assert_then (projT1 weight_vector == m)%N (
  let truth : 'cV[R]_n := conform_mx 0 truth in
  let weight_vector : 'cV[R]_n := conform_mx 0 (projT2 weight_vector) in
  let cov_decomp := compute_ldlt (j_cov prediction) in
  let success := info (j_cov prediction) in
  Base.bind (antithetic_sample (j_mean prediction) success cov_decomp draws_a) (fun samples =>
  Base.bind (antithetic_sample (j_mean prediction) success cov_decomp draws_b) (fun samples_b =>
  let es := xsub (xscale (Rdiv 1 2) (xadd (mean_err_norms samples truth weight_vector) (mean_err_norms samples_b truth weight_vector)))
                 (xscale (Rdiv 1 2) (pairwise_errors_paired samples samples_b weight_vector)) in
  Base.assert_then (xgeb es (XFin (Ropp (Rinv (Rpow_def.pow 10 12))))) (
  Base.Ok (std_max (XFin 0) es))))))).

(* evaluation/prediction_metrics.hpp:426-435 *)
Definition energy_score_uncertain n (prediction : joint R_fieldType n) (truth : marginal R_fieldType n) weights
    (num_samples : nat) (draws_a draws_b : 'M[R]_(n, k_generate num_samples)) : Base.outcome xr :=
  energy_score (Joint (F := R_fieldType) (j_mean prediction) (j_cov prediction + diag (m_var truth))) (m_mean truth) weights draws_a draws_b.

(* one pass of the loop, evaluation/prediction_metrics.hpp:485-503: the terms of a row, over the columns right of it *)
Definition variogram_row n (prediction : joint R_fieldType n) (truth : 'cV[R]_n) (weight_matrix : 'M[R]_n)
    (order : variogram_score_order) (row : 'I_n) : xr :=
  foldl (fun sum col =>
    let mean_err := j_mean prediction col 0 - j_mean prediction row 0 in
    let sigma := xsqrt (XFin (j_cov prediction row row + j_cov prediction col col - 2%:R * j_cov prediction row col)%R) in
    let expectation := expected_abs_normal (XFin mean_err) sigma order in
    let truth_err := pow_p order `|truth row 0 - truth col 0| in
    let diff := xsub (XFin truth_err) expectation in
    xadd sum (xmul (xmul (XFin (weight_matrix row col)) diff) diff)) (XFin 0)
    [seq col : 'I_n <- enum 'I_n | (row < col)%N].

(* evaluation/prediction_metrics.hpp:465-509 *)
Definition variogram_score n m (prediction : joint R_fieldType n) (truth : 'cV[R]_m) (weights : option {w : nat * nat & 'M[R]_(w.1, w.2)})
    (order : variogram_score_order) : Base.outcome xr :=
  Base.assert_then (n == m)%N (
  let weight_matrix := if weights is Some w then w else existT (fun w : nat * nat => 'M[R]_(w.1, w.2)) (m, m) (const_mx 1) in
  let sizes := projT1 weight_matrix in
  Base.assert_then ((sizes.1 == sizes.2) && (sizes.1 == m))%N (
  let truth : 'cV[R]_n := conform_mx 0 truth in
  let weight_matrix : 'M[R]_n := conform_mx 0 (projT2 weight_matrix) in
  let sum := foldl (fun sum row => xadd sum (variogram_row prediction truth weight_matrix order row)) (XFin 0)
               [seq row : 'I_n <- enum 'I_n | (row < n.-1)%N] in
  Base.assert_then (xgeb sum (XFin 0)) (Base.Ok sum))).

(* evaluation/prediction_metrics.hpp:513-520 *)
Definition variogram_score_uncertain n (prediction : joint R_fieldType n) (truth : marginal R_fieldType n) weights order : Base.outcome xr :=
  variogram_score (Joint (F := R_fieldType) (j_mean prediction) (j_cov prediction + diag (m_var truth))) (m_mean truth) weights order.
End Scores.

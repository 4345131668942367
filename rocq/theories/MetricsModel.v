(* Model of the metrics of evaluation/prediction_metrics.hpp:56-145. Entries of vectors and matrices are exact
   reals; results may be infinite or NaN. A difference of vectors of different sizes is an Eigen assertion. *)
From Coq Require Import Reals.
From Verif Require Import ExtRealModel DistanceModel RadialModel.
From mathcomp Require Import all_ssreflect all_algebra.
From Verif Require Import RealStruct GpModel LdltModel LikelihoodModel ScoreModel.
From Verif Require Base.
Set Implicit Arguments.
Unset Strict Implicit.
Unset Printing Implicit Defensive.
Import GRing.Theory.
Local Open Scope ring_scope.

(* prediction - truth of Eigen vectors *)
Definition difference m n (a : 'cV[R]_m) (b : 'cV[R]_n) : Base.outcome 'cV[R]_m :=
  Base.assert_then (m == n)%N (Base.Ok (a - conform_mx 0 b)).

(* evaluation/prediction_metrics.hpp:56-66 *)
Definition root_mean_square_error m n (prediction : 'cV[R]_m) (truth : 'cV[R]_n) : Base.outcome xr :=
  Base.bind (difference prediction truth) (fun error =>
  let mse := xdiv (xsum (fun i => XFin (error i 0 * error i 0)%R)) (XFin m%:R) in
  Base.Ok (xsqrt mse)).

(* evaluation/prediction_metrics.hpp:73-91 *)
Definition standard_deviation n (x : 'cV[R]_n) : xr :=
  if (n == 0)%N then XNaN
  else if (n == 1)%N then XFin 0
  else
    let mean := xmean (fun i => XFin (x i 0)) in
    let n_elements := XFin n%:R in
    let output := foldl (fun output i =>
      xadd output (xdiv (xpow2 (xsub (XFin (x i 0)) mean)) (xsub n_elements (XFin 1)))) (XFin 0) (enum 'I_n) in
    xsqrt output.
(* evaluation/prediction_metrics.hpp:93-101 *)
Definition standard_deviation_of m n (prediction : 'cV[R]_m) (truth : 'cV[R]_n) : Base.outcome xr :=
  Base.bind (difference prediction truth) (fun error => Base.Ok (standard_deviation error)).

Section Likelihood.
Variable tolerance : R.
Variable compute_ldlt : forall n, 'M[R]_n -> ldlt_state n.
(* evaluation/prediction_metrics.hpp:112-119; the noise of the truth is diagonal *)
Definition nll_joint m n (prediction : joint R_fieldType m) (truth : marginal R_fieldType n) : Base.outcome xr :=
  Base.bind (difference (j_mean prediction) (m_mean truth)) (fun mean =>
  let covariance := (j_cov prediction + diag (conform_mx 0 (m_var truth)))%R in
  nll_dense tolerance compute_ldlt mean covariance).
(* evaluation/prediction_metrics.hpp:121-128 *)
Definition nll_marginal m n (prediction : marginal R_fieldType m) (truth : marginal R_fieldType n) : Base.outcome xr :=
  Base.bind (difference (m_mean prediction) (m_mean truth)) (fun mean =>
  let variance : 'cV[R]_m := (m_var prediction + conform_mx 0 (m_var truth))%R in
  nll_diagonal mean variance).
End Likelihood.

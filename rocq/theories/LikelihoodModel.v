(* Model of evaluation/likelihood.hpp, evaluation/differential_entropy.hpp and the log likelihood of models/gp.hpp.
   Entries of vectors and matrices are exact reals; results may be infinite or NaN. *)
From Coq Require Import Reals.
From Verif Require Import ExtRealModel DistanceModel RadialModel GaussianModel.
From mathcomp Require Import all_ssreflect all_algebra.
From Verif Require Import RealStruct GpModel LdltModel.
From Verif Require Base.
Set Implicit Arguments.
Unset Strict Implicit.
Unset Printing Implicit Defensive.
Import GRing.Theory.
Local Open Scope ring_scope.

(* evaluation/likelihood.hpp:21-24 *)
Definition nll_scalar (deviation variance : R) : xr := xopp (gaussian_log_pdf (XFin deviation) (XFin variance)).
(* evaluation/likelihood.hpp:26-32 *)
Definition log_sum n (x : 'cV[R]_n) : xr :=
  foldl (fun sum i => xadd sum (xlog (XFin (x i 0)))) (XFin 0) (enum 'I_n).

Section Likelihood.
(* the smallest pivot that Eigen's LDLT solve inverts, and Eigen's factorization *)
Variable tolerance : R.
Variable compute_ldlt : forall n, 'M[R]_n -> ldlt_state n.

(* evaluation/likelihood.hpp:38-47 *)
Definition nll_ldlt n (deviation : 'cV[R]_n) (f : ldlt_state n) : xr :=
  let diag := vectorD f in
  let rank : R := n%:R in
  let mahalanobis := (deviation^T *m ldlt_solve f tolerance deviation) 0 0 in
  let log_det := log_sum diag in
  xscale (Rdiv 1 2) (xadd (xadd log_det (XFin mahalanobis)) (XFin (rank * Rpower.ln (2%:R * Rtrigo1.PI)))).

(* evaluation/likelihood.hpp:53-66; conform_mx turns the sizes that were just compared into equal types *)
Definition nll_dense m r c (deviation : 'cV[R]_m) (covariance : 'M[R]_(r, c)) : Base.outcome xr :=
  Base.assert_then (m == r)%N (Base.assert_then (c == r)%N (
  let a : 'M[R]_m := conform_mx 0 covariance in
  Base.Ok (match m as m return 'cV[R]_m -> 'M[R]_m -> xr with
           | 1 => fun deviation a => nll_scalar (deviation 0 0) (a 0 0)
           | _ => fun deviation a => nll_ldlt deviation (compute_ldlt a)
           end deviation a))).

(* evaluation/likelihood.hpp:73-85 *)
Definition nll_diagonal m r (deviation : 'cV[R]_m) (variances : 'cV[R]_r) : Base.outcome xr :=
  Base.assert_then (m == r)%N (
  let v : 'cV[R]_m := conform_mx 0 variances in
  Base.Ok (foldl (fun nll i => xadd nll (nll_scalar (deviation i 0) (v i 0))) (XFin 0) (enum 'I_m))).

(* evaluation/differential_entropy.hpp:20-28 *)
Definition log_determinant_of_symmetric n (f : ldlt_state n) : xr :=
  let diagonal := vectorD f in
  foldl (fun log_determinant i => xadd log_determinant (xlog (XFin (diagonal i 0)))) (XFin 0) (enum 'I_n).
(* evaluation/differential_entropy.hpp:37-42 *)
Definition differential_entropy_ldlt n (f : ldlt_state n) : xr :=
  let k : R := n%:R in
  let log_det := log_determinant_of_symmetric f in
  xscale (Rdiv 1 2) (xscale k (xadd (XFin (1 + Rpower.ln (2%:R * Rtrigo1.PI))) log_det)).
(* evaluation/differential_entropy.hpp:44-47 *)
Definition differential_entropy n (cov : 'M[R]_n) : xr := differential_entropy_ldlt (compute_ldlt cov).

(* GaussianProcessBase::log_likelihood, models/gp.hpp:442-451; prior_log_likelihood is that of the parameters *)
Definition gp_log_likelihood X (covariance_function : feature X -> feature X -> R) (mean_function : feature X -> R)
    (prior_log_likelihood : xr) n (features : 'I_n -> feature X) (targets : marginal R_fieldType n) : Base.outcome xr :=
  let measurement_features := as_measurement (X := X) \o features in
  let zero_mean := m_mean targets - mean_v (F := R_fieldType) mean_function measurement_features in
  let cov := cov_mx (F := R_fieldType) covariance_function measurement_features measurement_features in
  Base.bind (nll_dense zero_mean cov) (fun nll => Base.Ok (xadd (xopp nll) prior_log_likelihood)).
End Likelihood.

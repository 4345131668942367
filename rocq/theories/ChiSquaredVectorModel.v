(* Model of the forms of chi_squared_cdf that take vectors: stats/chi_squared.hpp:74-81 and
   evaluation/prediction_metrics.hpp:136-145. Entries of vectors and matrices are exact reals. *)
From Coq Require Import Reals.
From Verif Require Import ExtRealModel ChiSquaredModel.
From mathcomp Require Import all_ssreflect all_algebra.
From Verif Require Import RealStruct GpModel MetricsModel.
From Verif Require Base.
Set Implicit Arguments.
Unset Strict Implicit.
Unset Printing Implicit Defensive.
Import GRing.Theory.
Local Open Scope ring_scope.

Section ChiSquared.
Variables tgamma lgamma : xr -> xr.            (* std::tgamma, std::lgamma *)
Variable llt : forall n, 'M[R]_n -> 'M[R]_n.   (* Eigen::LLT: covariance.llt().matrixL() *)

(* stats/chi_squared.hpp:74-81; solving for a vector of another size is an Eigen assertion. The triangular solve is
   multiplication by the inverse *)
Definition chi_squared_cdf_vector m n (deviation : 'cV[R]_m) (covariance : 'M[R]_n) : Base.outcome xr :=
  Base.assert_then (m == n)%N (
  let normalized := invmx (llt covariance) *m (conform_mx 0 deviation : 'cV[R]_n) in
  let distance_squared := \sum_i normalized i 0 * normalized i 0 in
  chi_squared_cdf tgamma lgamma (XFin distance_squared) (XFin (INR m))).

(* evaluation/prediction_metrics.hpp:136-141; the covariance of the truth is a diagonal matrix, adding one of another
   size is an Eigen assertion *)
Definition chi_squared_cdf_prediction m n (prediction : joint R_fieldType m) (truth : marginal R_fieldType n) : Base.outcome xr :=
  Base.assert_then (m == n)%N (
  let covariance := (j_cov prediction + diag (conform_mx 0 (m_var truth)))%R in
  Base.bind (difference (j_mean prediction) (m_mean truth)) (fun deviation =>
  chi_squared_cdf_vector deviation covariance)).
End ChiSquared.

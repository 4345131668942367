(* Random observations and values of an unknown function with finitely many outcomes, and what data says about each feature. *)
From mathcomp Require Import all_ssreflect all_algebra.
From Verif Require Import GpModel.
Set Implicit Arguments.
Unset Strict Implicit.
Unset Printing Implicit Defensive.
Import GRing.Theory Num.Theory.
Local Open Scope ring_scope.

Section Spec.
Variable R : realFieldType.

(* outcome k has probability w k *)
Definition probabilities m (w : 'I_m -> R) : Prop := (forall k, 0 <= w k) /\ \sum_k w k = 1.
Definition expectation m (w : 'I_m -> R) a b (x : 'I_m -> 'M[R]_(a, b)) : 'M[R]_(a, b) := \sum_k w k *: x k.
Definition covariance_of m (w : 'I_m -> R) a b (x : 'I_m -> 'cV[R]_a) (y : 'I_m -> 'cV[R]_b) : 'M[R]_(a, b) :=
  expectation w (fun k => (x k - expectation w x) *m (y k - expectation w y)^T).
(* the mean of the error of a prediction times its transpose: its diagonal has the mean squared errors *)
Definition squared_error m (w : 'I_m -> R) a (z prediction : 'I_m -> 'cV[R]_a) : 'M[R]_a :=
  expectation w (fun k => (z k - prediction k) *m (z k - prediction k)^T).

(* the observations y of features xs with variances v and the values z at the features zs have the means and covariances
   that a Gaussian process with this covariance function and mean function takes them to have *)
Definition follows_prior m (w : 'I_m -> R) X (cov : feature X -> feature X -> R) (mu : feature X -> R)
    n (xs : 'I_n -> feature X) (v : 'cV[R]_n) p (zs : 'I_p -> feature X) (y : 'I_m -> 'cV[R]_n) (z : 'I_m -> 'cV[R]_p) : Prop :=
  expectation w y = \col_i mu (as_measurement (xs i)) /\
  expectation w z = \col_i mu (zs i) /\
  covariance_of w y y = \matrix_(i, j) (cov (as_measurement (xs i)) (as_measurement (xs j)) + (if i == j then v i 0 else 0)) /\
  covariance_of w y z = \matrix_(i, j) cov (xs i) (zs j) /\
  covariance_of w z z = \matrix_(i, j) cov (zs i) (zs j).

(* what n observations, the i-th of them of feature h i, say about feature j: the sum of the inverse variances, and the sum of
   the observations over their variances *)
Definition precision n u (h : 'I_n -> 'I_u) (t : marginal R n) (j : 'I_u) : R := \sum_(i | h i == j) (m_var t i 0)^-1.
Definition weighted_sum n u (h : 'I_n -> 'I_u) (t : marginal R n) (j : 'I_u) : R := \sum_(i | h i == j) m_mean t i 0 / m_var t i 0.
End Spec.

(* What a Gaussian process should learn from a matrix times a dataset: vocabulary of C99. *)
From Coq Require Import Reals.
From mathcomp Require Import all_ssreflect all_algebra.
From Verif Require Import RealStruct GpModel GpSpec DistributionModel.
Set Implicit Arguments.
Unset Strict Implicit.
Unset Printing Implicit Defensive.
Import GRing.Theory.
Local Open Scope ring_scope.

(* the variances of M d for independent d with variances v *)
Definition product_noise m n (M : 'M[R_fieldType]_(m, n)) (v : 'cV[R_fieldType]_n) : 'cV[R_fieldType]_m :=
  \col_i (M *m diag v *m M^T) i i.

(* The prediction p is the conditional distribution of the function at qs given that M times (the function at xs, plus
   noise) is M y, as if the noise of the products were independent: the covariances of M d are left out. *)
Definition learned_from (X : Type) (cov : feature X -> feature X -> R_fieldType) (mu : feature X -> R_fieldType) m n k 
    (xs : 'I_n -> feature X) (qs : 'I_k -> feature X)
    (M : 'M[R_fieldType]_(m, n)) (t : md n) (p : jd k) : Prop :=
  let S := M *m cov_mx cov xs xs *m M^T + diag (product_noise M (m_var t)) in
  S \in unitmx ->
  conditional (mean_v mu qs) (M *m mean_v mu xs) (cov_mx cov qs qs) (cov_mx cov qs xs *m M^T) S (M *m m_mean t)
    (j_mean p) (j_cov p).

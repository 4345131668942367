(* A matrix times a dataset, core/dataset.hpp:171-191, and the features of a Gaussian process model as the values that
   covariance and mean functions are called with. *)
From Coq Require Import Reals.
From mathcomp Require Import all_ssreflect all_algebra.
From Verif Require Import RealStruct GpModel DistributionModel CallerModel.
Set Implicit Arguments.
Unset Strict Implicit.
Unset Printing Implicit Defensive.
Import GRing.Theory.
Local Open Scope ring_scope.

Section Product.
Variable P : Type.
Notation val := (val R_fieldType P).

(* as_measurements, covariance_functions/measurement.hpp:36-68, makes a Measurement<X> of a feature *)
Definition to_val (f : feature val) : val := match f with Bare v => v | Measured v => VMeas v end.

(* core/dataset.hpp:181-191: the features (None: a column without a feature is used) and the targets, which the conversion
   of the product to a MarginalDistribution makes (None: NaN, a variance is negative). The metadata is not copied. *)
Definition dense_times_dataset (t : ty) m n (matrix : 'M[R]_(m, n)) (features : seq val) (targets : md n)
    : option (seq val * option (md m)) :=
  omap (fun transformed_features => (transformed_features, transform_marginal_marginal matrix targets))
    (dense_times t (matrix : 'M[R_fieldType]_(m, n)) features).

(* the matrix with the stored entries of a sparse one *)
Definition to_dense m n (s : sparse R_fieldType) : 'M[R]_(m, n) :=
  \matrix_(i, j) \sum_(e <- s_entries s | (e.1.1 == i :> nat) && (e.1.2 == j :> nat)) e.2.
(* core/dataset.hpp:170-180 *)
Definition sparse_times_dataset (t : ty) n (s : sparse R_fieldType) (features : seq val) (targets : md n)
    : option (seq val * option (md (s_rows s))) :=
  omap (fun transformed_features => (transformed_features, transform_marginal_marginal (to_dense (s_rows s) n s) targets))
    (sparse_times t s features).
End Product.

(* Members of Fit<SparseGPFit>: shift_mean, models/sparse_gp.hpp:112-115, and comparison, models/sparse_gp.hpp:117-123. *)
From Coq Require Import Reals.
From mathcomp Require Import all_ssreflect all_algebra all_fingroup.
From Verif Require Import RealStruct GpModel LdltModel SparseGpModel.
From Verif Require Base.
Set Implicit Arguments.
Unset Strict Implicit.
Unset Printing Implicit Defensive.
Import GRing.Theory.
Local Open Scope ring_scope.

Section Members.
Variable X : Type.

(* models/sparse_gp.hpp:112-115; conform_mx turns the sizes that were just compared into equal types *)
Definition shift_mean (tolerance : R) k (f : sparse_fit X k) m (mean_shift : 'cV[R]_m) : Base.outcome (sparse_fit X k) :=
  Base.assert_then (m == k) (
  let s : 'cV[R]_k := conform_mx 0 mean_shift in
  Base.Ok (SparseFit (sf_features f) (sf_train_covariance f) (sf_R f) (sf_P f)
             (sf_information f + ldlt_solve (sf_train_covariance f) tolerance s) (sf_rank f))).

(* SerializableLDLT::operator==, eigen/serializable_ldlt.hpp:201-216, of two that have been computed: the lower triangles and the
   transpositions; what the strict upper triangle holds does not matter *)
Definition ldlt_equal n (f g : ldlt_state n) : bool :=
  [forall i : 'I_n, forall j : 'I_n, (j <= i)%N ==> (m_matrix f i j == m_matrix g i j)] &&
  [forall i : 'I_n, m_transpositions f i == m_transpositions g i].
(* models/sparse_gp.hpp:117-123, for the same number of inducing points; otherwise the result is false, since the features are
   compared first. [same] compares features. *)
Definition sparse_fit_equal (same : feature X -> feature X -> bool) k (f g : sparse_fit X k) : bool :=
  [forall i : 'I_k, same (sf_features f i) (sf_features g i)] &&
  ldlt_equal (sf_train_covariance f) (sf_train_covariance g) &&
  (sf_R f == sf_R g) && (sf_P f == sf_P g) && (sf_information f == sf_information g) && (sf_rank f == sf_rank g).
End Members.

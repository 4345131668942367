(* Specification vocabulary of C45. *)
From Coq Require Import Reals.
From mathcomp Require Import all_ssreflect all_algebra.
From Verif Require Import RealStruct LdltModel.
Set Implicit Arguments.
Unset Strict Implicit.
Unset Printing Implicit Defensive.
Import Order.TTheory GRing.Theory Num.Theory.
Local Open Scope ring_scope.

(* the permutation matrix of the row transpositions *)
Definition transpositions_mx n (f : ldlt_state n) : 'M[R]_n := transpositions_mul f 1%:M.

(* f is a factorization of A: A = P^T L D L^T P *)
Definition factors n (f : ldlt_state n) (A : 'M[R]_n) : Prop :=
  A = (transpositions_mx f)^T *m matrixL f *m diag_mx (vectorD f)^T *m (matrixL f)^T *m transpositions_mx f.

Definition positive_D n (f : ldlt_state n) : Prop := forall i, 0 < vectorD f i 0.

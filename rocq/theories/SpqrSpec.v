(* Vocabulary of C84. *)
From Coq Require Import Reals.
From Verif Require Import Base.
From mathcomp Require Import all_ssreflect all_algebra all_fingroup.
From Verif Require Import RealStruct SpqrModel.
Set Implicit Arguments.
Unset Strict Implicit.
Unset Printing Implicit Defensive.
Import Order.TTheory GRing.Theory Num.Theory.
Local Open Scope ring_scope.

(* the state is a QR factorization of A: with orthonormal columns Q and an upper triangular R that is stored on and above the diagonal,
   the columns of A in the order of the indices are Q R *)
Definition factorizes (F : fieldType) m n (qr : qr_state F n) (A : 'M[F]_(m, n)) (Rm : 'M[F]_n) : Prop :=
  exists Q : 'M[F]_(m, n), Q^T *m Q = 1%:M /\ (forall i j, A i (indices qr j) = (Q *m Rm) i j) /\
    (forall i j : 'I_n, (j < i)%N -> Rm i j = 0) /\ (forall i j : 'I_n, (i <= j)%N -> stored qr i j = Rm i j).
(* the largest norm of a column *)
Definition largest_column m n (A : 'M[R]_(m, n)) (mx : R) : Prop :=
  (exists j, mx = column_norm A j) /\ forall j, column_norm A j <= mx.

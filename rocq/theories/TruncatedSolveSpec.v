(* Vocabulary for C80. *)
From mathcomp Require Import all_ssreflect all_algebra.
Set Implicit Arguments.
Unset Strict Implicit.
Unset Printing Implicit Defensive.
Import GRing.Theory.
Local Open Scope ring_scope.

(* the columns of V are orthonormal eigenvectors of A with the eigenvalues d *)
Definition decomposes (F : fieldType) n (A V : 'M[F]_n) (d : 'cV[F]_n) : Prop :=
  V^T *m V = 1%:M /\ A *m V = V *m diag_mx d^T.
(* the coordinate of each column of x along the eigenvector i *)
Definition along (F : fieldType) n p (V : 'M[F]_n) (i : 'I_n) (x : 'M[F]_(n, p)) : 'rV[F]_p := (col i V)^T *m x.

(* Spectral decompositions and the transport of Gaussian distributions. *)
From Coq Require Import Reals.
From mathcomp Require Import all_ssreflect all_algebra.
From Verif Require Import RealStruct GpModel GpSpec.
Set Implicit Arguments.
Unset Strict Implicit.
Unset Printing Implicit Defensive.
Import GRing.Theory.
Local Open Scope ring_scope.

(* the eigenvectors are orthonormal columns, and A = V diag(values) V^T *)
Definition spectral n (values : 'cV[R]_n) (V A : 'M[R]_n) : Prop :=
  V^T *m V = 1%:M /\ A = V *m diag_mx values^T *m V^T.
(* S is a positive semidefinite square root of A *)
Definition psd_root n (S A : 'M[R]_n) : Prop := psd S /\ S *m S = A.

(* x and y with covariances A and B have the cross covariance C in some joint distribution *)
Definition coupling n (A B C : 'M[R]_n) : Prop := psd (block_mx A C C^T B).
(* E |x - y|^2 for x, y with the moments of a and b and cross covariance C *)
Definition transport_cost n (a b : joint R_fieldType n) (C : 'M[R]_n) : R :=
  (\sum_i (j_mean a i 0 - j_mean b i 0) ^+ 2 + \sum_i ((j_cov a : 'M[R]_n) i i + j_cov b i i - C i i - C i i))%R.
(* the smallest cost over the couplings: the square of the 2-Wasserstein distance of the two Gaussian distributions *)
Definition least_cost n (a b : joint R_fieldType n) (w : R) : Prop :=
  (exists C, coupling (j_cov a) (j_cov b) C /\ transport_cost a b C = w) /\
  forall C, coupling (j_cov a) (j_cov b) C -> w <= transport_cost a b C.

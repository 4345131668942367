(* Specification vocabulary of C44 for factorizations. *)
From Coq Require Import Reals.
From Verif Require Import Base.
From mathcomp Require Import all_ssreflect all_algebra.
From Verif Require Import RealStruct LdltModel LdltSpec BlockDiagModel BlockDiagSpec BlockLdltModel.
Set Implicit Arguments.
Unset Strict Implicit.
Unset Printing Implicit Defensive.
Local Open Scope ring_scope.

(* a block: its factorization and the matrix it is the factorization of *)
Record factored := Factored { fb_n : nat; fb_f : ldlt_state fb_n; fb_A : 'M[R]_fb_n }.
Definition dense_blocks (bs : seq factored) : seq dmx := [seq dmx_of (fb_A b) | b <- bs].
Definition ldlt_blocks (tolerance : R) (bs : seq factored) : seq ldlt_block :=
  [seq block_of tolerance (existT _ _ (fb_f b)) (odflt 0 (log_determinant (fb_f b))) | b <- bs].

(* the N x N matrix with entries X *)
Definition square_mx N (X : nat -> nat -> R) : 'M[R]_N := \matrix_(i, j) X i j.

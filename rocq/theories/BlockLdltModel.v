(* The blocks of BlockDiagonalLDLT: what a factorization of LdltModel.v offers to
   the loops of BlockDiagModel.v. *)
From Coq Require Import Reals.
From mathcomp Require Import all_ssreflect all_algebra.
From Verif Require Import Base RealStruct LdltModel BlockDiagModel.
Set Implicit Arguments.
Unset Strict Implicit.
Unset Printing Implicit Defensive.
Local Open Scope ring_scope.

(* the two ways of writing a matrix *)
Definition mx_in n (x : dmx) : 'M[R]_(n, dcols x) := \matrix_(i, j) dat x i j.
Definition dmx_of m p (M : 'M[R]_(m, p)) : dmx :=
  Dmx m p (fun i j => match insub i, insub j with Some i', Some j' => M i' j' | _, _ => 0 end).

(* a block of BlockDiagonalLDLT, linalg/block_diagonal.hpp:29-86: solve, sqrt_solve and
   log_determinant of one Eigen::SerializableLDLT; a right hand side with the wrong number of
   rows violates eigen_assert only. log_determinant is logs, given that it is defined. *)
Definition block_of (tolerance : R) (b : {n & ldlt_state n}) (logs : R) : ldlt_block :=
  let: existT n f := b in
  LdltBlock n
    (fun x => if drows x == n then Ok (dmx_of (ldlt_solve f tolerance (mx_in n x))) else UB)
    (fun x => if drows x == n then Ok (dmx_of (sqrt_solve f (mx_in n x))) else UB)
    logs.

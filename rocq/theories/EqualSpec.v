(* What comparison of covariance representations promises. *)
From Coq Require Import Reals.
From mathcomp Require Import all_ssreflect all_algebra.
From Verif Require Import RealStruct GpModel LdltModel EqualModel.
From Verif Require Base.
Set Implicit Arguments.
Unset Strict Implicit.
Unset Printing Implicit Defensive.
Local Open Scope ring_scope.

(* equal representations have the same number of rows and solve alike, for every right hand side *)
Definition equal_solve_alike (r : representation) : Prop := forall n n' (a : r_type r n) (b : r_type r n'),
  r_equal a b = Base.Ok true -> existT (solver R_fieldType) n (r_solve a) = existT (solver R_fieldType) n' (r_solve b).
(* every representation is equal to itself *)
Definition equal_to_itself (r : representation) : Prop := forall n (a : r_type r n), r_equal a a = Base.Ok true.

(* the representations of the library: those of fits, and of fits that have been updated any number of times *)
Inductive supported (tolerance : R) : representation -> Prop :=
| supported_ldlt : supported tolerance (ldlt_representation tolerance)
| supported_explained : supported tolerance (explained_representation tolerance)
| supported_direct : supported tolerance direct_representation
| supported_block r : supported tolerance r -> supported tolerance (block_representation tolerance r).

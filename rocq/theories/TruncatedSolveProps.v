(* C80: the truncated solve is the minimum norm least squares solution within the directions that are kept. *)
From mathcomp Require Import all_ssreflect all_algebra.
From Verif Require Import GpSpec PsdProofs TruncatedSolveModel TruncatedSolveSpec TruncatedSolveProofs.
Set Implicit Arguments.
Unset Strict Implicit.
Unset Printing Implicit Defensive.
Import Order.TTheory GRing.Theory Num.Theory.
Local Open Scope ring_scope.

(* the result in the basis of eigenvectors, which determines it *)
Theorem C80_coordinates (F : realFieldType) n p (A V : 'M[F]_n) d (rhs x : 'M[F]_(n, p)) t :
  decomposes A V d -> 0 < t ->
  (truncated_psd_solve V d rhs t = Some x <->
   forall i, along V i x = if t <= d i 0 then (d i 0)^-1 *: along V i rhs else 0).
Proof. by move=> h; apply: (truncated_iff h). Qed.
Print Assumptions C80_coordinates.
(* nothing is truncated: the linear system is solved *)
Theorem C80_exact (F : realFieldType) n p (A V : 'M[F]_n) d (rhs : 'M[F]_(n, p)) t :
  decomposes A V d -> 0 < t -> (forall i, t <= d i 0) ->
  exists2 x, truncated_psd_solve V d rhs t = Some x & forall y, A *m y = rhs <-> y = x.
Proof. by move=> h; apply: (truncated_exact h). Qed.
Print Assumptions C80_exact.
(* a solution without components along truncated directions is recovered *)
Theorem C80_recovers (F : realFieldType) n p (A V : 'M[F]_n) d (y : 'M[F]_(n, p)) t :
  decomposes A V d -> 0 < t -> (forall i, d i 0 < t -> along V i y = 0) ->
  truncated_psd_solve V d (A *m y) t = Some y.
Proof. by move=> h; apply: (truncated_recovers h). Qed.
Print Assumptions C80_recovers.
(* the residual is the truncated part of the right hand side *)
Theorem C80_residual (F : realFieldType) n p (A V : 'M[F]_n) d (rhs x : 'M[F]_(n, p)) t i :
  decomposes A V d -> 0 < t -> truncated_psd_solve V d rhs t = Some x ->
  along V i (rhs - A *m x) = if t <= d i 0 then 0 else along V i rhs.
Proof. by move=> h; apply: (truncated_residual h i). Qed.
Print Assumptions C80_residual.
(* no vector within the directions kept has a smaller residual, and the result is the only one with this residual *)
Theorem C80_least (F : realFieldType) n (A V : 'M[F]_n) d (rhs x y : 'cV[F]_n) t :
  decomposes A V d -> 0 < t -> truncated_psd_solve V d rhs t = Some x ->
  (forall i, d i 0 < t -> along V i y = 0) ->
  quad 1%:M (rhs - A *m x) <= quad 1%:M (rhs - A *m y) ?= iff (x == y).
Proof. by move=> h; apply: (truncated_least h). Qed.
Print Assumptions C80_least.
(* the operator that is applied is symmetric and positive semi-definite, whatever the signs of the eigenvalues *)
Theorem C80_operator (F : realFieldType) n (V : 'M[F]_n) (d : 'cV[F]_n) t :
  0 < t ->
  exists2 G : 'M[F]_n, psd G & forall p (rhs : 'M[F]_(n, p)), truncated_psd_solve V d rhs t = Some (G *m rhs).
Proof. exact: truncated_operator. Qed.
Print Assumptions C80_operator.
(* a threshold of zero with a singular matrix: the result is not finite *)
Theorem C80_zero_threshold_refuted (F : realFieldType) n p (V : 'M[F]_n) (d : 'cV[F]_n) (rhs : 'M[F]_(n, p)) i :
  d i 0 = 0 -> truncated_psd_solve V d rhs 0 = None.
Proof. exact: truncated_zero. Qed.
Print Assumptions C80_zero_threshold_refuted.

Example C80_meets : let d : 'cV[rat]_2 := \col_i (if i == 0 then 2%:R else - 1) in
  decomposes (diag_mx d^T) 1%:M d /\
  truncated_psd_solve 1%:M d (const_mx 1 : 'cV_2) 1 = Some (\col_i (if i == 0 then 2%:R^-1 else 0)).
Proof. exact: truncated_meets. Qed.

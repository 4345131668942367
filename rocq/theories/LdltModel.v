(* Model of eigen/serializable_ldlt.hpp, in exact real arithmetic.

   The state of an Eigen::LDLT<MatrixXd, Lower> is the matrix m_matrix, whose strict
   lower triangle stores that of the unit lower triangular L and whose diagonal stores
   D, and the vector of row transpositions. How Eigen computes a factorization is not
   modelled: the theorems hold for every state, or every state that factors A. *)
From Coq Require Import Reals.
From mathcomp Require Import all_ssreflect all_algebra.
From Verif Require Import RealStruct.
From Verif Require Base.
Set Implicit Arguments.
Unset Strict Implicit.
Unset Printing Implicit Defensive.
Import Order.TTheory GRing.Theory Num.Theory.
Local Open Scope ring_scope.

Record ldlt_state n := LdltState { m_matrix : 'M[R]_n; m_transpositions : 'I_n -> 'I_n }.

(* std::sqrt on a nonnegative argument *)
Definition Rsqrt (x : R) : R := R_sqrt.sqrt x.

Section Ldlt.
Variable n : nat.
Variable f : ldlt_state n.

(* Eigen::LDLT::matrixL(): the unit lower triangular view of m_matrix *)
Definition matrixL : 'M[R]_n := \matrix_(i, j) (if (j < i)%N then m_matrix f i j else (i == j)%:R).

(* Eigen::LDLT::vectorD(): the diagonal of m_matrix *)
Definition vectorD : 'cV[R]_n := \col_i m_matrix f i i.

(* Eigen: transpositionsP() * rhs swaps rows k and t(k) for k = 0, 1, ..., n - 1;
   transpositionsP().transpose() * rhs swaps them for k = n - 1, ..., 0 *)
Definition transpositions_mul p (rhs : 'M[R]_(n, p)) : 'M[R]_(n, p) :=
  foldl (fun a k => xrow k (m_transpositions f k) a) rhs (enum 'I_n).
Definition transpositions_tr_mul p (rhs : 'M[R]_(n, p)) : 'M[R]_(n, p) :=
  foldl (fun a k => xrow k (m_transpositions f k) a) rhs (rev (enum 'I_n)).

(* Eigen: matrixL().solveInPlace(rhs) and matrixL().transpose().solve(rhs), triangular
   solves, by their contract *)
Definition lower_solve p (rhs : 'M[R]_(n, p)) : 'M[R]_(n, p) := invmx matrixL *m rhs.
Definition lower_tr_solve p (rhs : 'M[R]_(n, p)) : 'M[R]_(n, p) := invmx matrixL^T *m rhs.

(* rows scaled by a vector: multiplication by v.asDiagonal() on the left, and
   result.array().colwise() *= v.array() *)
Definition scale_rows p (v : 'cV[R]_n) (a : 'M[R]_(n, p)) : 'M[R]_(n, p) := \matrix_(i, j) (v i 0 * a i j).

(* Eigen::LDLT::solve: the rows of D with |D(i)| at most the tolerance (the smallest
   positive double) give 0 *)
Definition ldlt_solve (tolerance : R) p (rhs : 'M[R]_(n, p)) : 'M[R]_(n, p) :=
  let y := lower_solve (transpositions_mul rhs) in
  let z := scale_rows (\col_i (if tolerance < `|vectorD i 0| then (vectorD i 0)^-1 else 0)) y in
  transpositions_tr_mul (lower_tr_solve z).

(* is_positive_definite, eigen/serializable_ldlt.hpp:36; minCoeff of an empty vector
   is an Eigen assertion *)
Definition is_positive_definite : Base.outcome bool :=
  if (n == 0)%N then Base.Abort else Base.Ok [forall i, 0 < vectorD i 0].

(* diagonal_sqrt_inverse, eigen/serializable_ldlt.hpp:58-69 *)
Definition diagonal_sqrt_inverse : 'cV[R]_n :=
  \col_i (if 0 < vectorD i 0 then 1 / Rsqrt (vectorD i 0) else 0).

(* diagonal_sqrt, eigen/serializable_ldlt.hpp:74-84 *)
Definition diagonal_sqrt : 'cV[R]_n :=
  \col_i (if 0 < vectorD i 0 then Rsqrt (vectorD i 0) else 0).

(* sqrt_product, eigen/serializable_ldlt.hpp:90-94 *)
Definition sqrt_product p (rhs : 'M[R]_(n, p)) : 'M[R]_(n, p) :=
  transpositions_tr_mul (matrixL *m scale_rows diagonal_sqrt rhs).

(* sqrt_solve, eigen/serializable_ldlt.hpp:100-109 *)
Definition sqrt_solve p (rhs : 'M[R]_(n, p)) : 'M[R]_(n, p) :=
  let result := transpositions_mul rhs in
  let result := lower_solve result in
  scale_rows diagonal_sqrt_inverse result.

(* sqrt_transpose, eigen/serializable_ldlt.hpp:111-115 *)
Definition sqrt_transpose : 'M[R]_n :=
  scale_rows diagonal_sqrt (transpositions_tr_mul matrixL)^T.

(* sqrt_transpose_solve, eigen/serializable_ldlt.hpp:121-126 *)
Definition sqrt_transpose_solve p (rhs : 'M[R]_(n, p)) : 'M[R]_(n, p) :=
  transpositions_tr_mul (lower_tr_solve (scale_rows diagonal_sqrt_inverse rhs)).

(* log_determinant, eigen/serializable_ldlt.hpp:128-135; None if some D(i) is not
   positive (the result is then -inf or NaN) *)
Definition log_determinant : option R :=
  if [forall i, 0 < vectorD i 0] then Some (\sum_i Rpower.ln (vectorD i 0)) else None.

(* inverse_blocks, eigen/serializable_ldlt.hpp:137-175; indices are in range by type.
   The threaded apply gives the same list (C12). *)
Definition inverse_cholesky : 'M[R]_n := scale_rows diagonal_sqrt_inverse (lower_solve (transpositions_mul 1%:M)).
Definition inverse_one_block (indices : seq 'I_n) : 'M[R]_(size indices) :=
  let sub_matrix := colsub (tnth (in_tuple indices)) inverse_cholesky in
  sub_matrix^T *m sub_matrix.
Definition inverse_blocks (blocks : seq (seq 'I_n)) : seq {k & 'M[R]_k} :=
  [seq existT _ (size b) (inverse_one_block b) | b <- blocks].

(* inverse_diagonal, eigen/serializable_ldlt.hpp:181-198: every block must be 1x1 *)
Definition one_by_one (b : {k & 'M[R]_k}) : Base.outcome R :=
  let: existT k m := b in
  (match k as k return 'M[R]_k -> Base.outcome R with
   | 1 => fun m => Base.Ok (m ord0 ord0)
   | _ => fun _ => Base.Abort
   end) m.
Definition inverse_diagonal_list : seq (Base.outcome R) :=
  [seq one_by_one b | b <- inverse_blocks [seq [:: i] | i <- enum 'I_n]].
End Ldlt.

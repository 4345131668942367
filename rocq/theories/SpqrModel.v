(* Model of linalg/spqr_utils.hpp and of linalg/qr_utils.hpp in exact arithmetic. *)
From Coq Require Import Reals ZArith.
From Verif Require Import Base.
From mathcomp Require Import all_ssreflect all_algebra all_fingroup.
From Verif Require Import RealStruct.
Set Implicit Arguments.
Unset Strict Implicit.
Unset Printing Implicit Defensive.
Import Order.TTheory GRing.Theory Num.Theory.
Local Open Scope ring_scope.

(* ---- R, P and sqrt_solve ---- *)
Section Factors.
Variable F : fieldType.
(* a factorization of a matrix with n columns: matrixR() has stored_rows rows, and what is stored below its diagonal is not part of R;
   the j-th column of the product with the permutation matrix is the column indices j *)
Record qr_state n := QrState { stored_rows : nat; stored : nat -> nat -> F; indices : 'S_n }.

(* linalg/spqr_utils.hpp:22-26 (topLeftCorner(cols, cols)) and linalg/qr_utils.hpp:18-27 (topRows(cols)), which assert that there are
   that many rows; triangularView<Upper> *)
Definition get_R n (qr : qr_state n) : outcome 'M[F]_n :=
  if (n <= stored_rows qr)%N then Ok (\matrix_(i, j) if (i <= j)%N then stored qr i j else 0) else Abort.
(* linalg/spqr_utils.hpp:28-31, linalg/qr_utils.hpp:29-33 *)
Definition get_P n (qr : qr_state n) : 'M[F]_n := \matrix_(i, j) (i == indices qr j)%:R.

(* Eigen's solve with the transpose of the upper triangle of R: forward substitution of a column; division by 0 is left to the caller *)
Definition at_ n (v : 'I_n -> F) (k : nat) : F := if insub k is Some i then v i else 0.
Fixpoint forward n (Rm : 'M[F]_n) (b : 'I_n -> F) (k : nat) : seq F :=
  match k with
  | O => [::]
  | S k' =>
    let xs := forward Rm b k' in
    rcons xs ((at_ b k' - \sum_(j < k') at_ (fun i => at_ (Rm i) k') j * nth 0 xs j) / at_ (fun i => Rm i i) k')
  end.
(* linalg/qr_utils.hpp:35-46; None: a result that is not finite *)
Definition sqrt_solve n p (Rm P : 'M[F]_n) (rhs : 'M[F]_(n, p)) : option 'M[F]_(n, p) :=
  if [forall i, Rm i i != 0] then
    let b := P^T *m rhs in Some (\matrix_(i, c) nth 0 (forward Rm (fun k => b k c) n) i)
  else None.
(* linalg/spqr_utils.hpp:33-36, linalg/qr_utils.hpp:48-54 *)
Definition sqrt_solve_qr n p (qr : qr_state n) (rhs : 'M[F]_(n, p)) : outcome (option 'M[F]_(n, p)) :=
  match get_R qr with Ok Rm => Ok (sqrt_solve Rm (get_P qr) rhs) | Abort => Abort | Throw => Throw | UB => UB end.
End Factors.

(* ---- the pivot threshold and the settings of the solver ---- *)
Definition kMinSparsePivotSize : nat := 300.            (* linalg/spqr_utils.hpp:38-40 *)
Definition kSPQRPivotCoefficient : R := 10%:R^-1.      (* linalg/spqr_utils.hpp:42-44 *)
Definition epsilon : R := (2%:R ^+ 52)^-1.                 (* Eigen::NumTraits<double>::epsilon() *)
Definition column_norm m n (A : 'M[R]_(m, n)) (j : 'I_n) : R := R_sqrt.sqrt (\sum_i A i j * A i j).
(* linalg/spqr_utils.hpp:54-76 *)
Definition SPQR_pivot_threshold m n (A : 'M[R]_(m, n)) (min_sparse_pivot_size : nat) (spqr_pivot_coefficient : R) : R :=
  if (m < min_sparse_pivot_size)%N || (n < min_sparse_pivot_size)%N then (10%:R ^+ 15)^-1
  else
    let max2Norm := foldl (fun mx j => Rmax mx (column_norm A j)) 0 (enum 'I_n) in
    let max2Norm := if max2Norm == 0 then 1 else max2Norm in
    spqr_pivot_coefficient * (m + n)%:R * max2Norm * epsilon.

(* what an SPQR object holds: its ordering, number of threads, pivot threshold (the default one of SuiteSparse when None) *)
Inductive ordering := Default | Colamd.
Record settings := Settings { s_ordering : ordering; s_threads : Z; s_threshold : option R }.
(* static_cast<int> of a std::size_t *)
Definition to_int (x : nat) : Z := (Z.sub (Z.modulo (Z.add (Z.of_nat x) (Z.pow 2 31)) (Z.pow 2 32)) (Z.pow 2 31)).
(* linalg/spqr_utils.hpp:102-110; the pool is the number of its threads *)
Definition SPQR_set_threads (s : settings) (pool : option nat) : settings :=
  match pool with
  | Some thread_count => Settings (s_ordering s) (to_int thread_count) (s_threshold s)
  | None => s
  end.
(* linalg/spqr_utils.hpp:79-100 *)
Definition SPQR_set_pivot_threshold (s : settings) m n (A : 'M[R]_(m, n)) : settings :=
  Settings (s_ordering s) (s_threads s) (Some (SPQR_pivot_threshold A kMinSparsePivotSize kSPQRPivotCoefficient)).
Section Create.
(* the settings of std::make_unique<SPQR>(), and compute(A) with given settings *)
Variable initial : settings.
Variable factor : settings -> forall m n, 'M[R]_(m, n) -> qr_state R_fieldType n.
(* linalg/spqr_utils.hpp:112-117 *)
Definition SPQR_create (pool : option nat) : settings :=
  SPQR_set_threads (Settings Colamd (s_threads initial) (s_threshold initial)) pool.
(* linalg/spqr_utils.hpp:119-125 *)
Definition SPQR_create_of m n (A : 'M[R]_(m, n)) (pool : option nat) : settings * qr_state R_fieldType n :=
  let s := SPQR_set_pivot_threshold (SPQR_create pool) A in (s, factor s A).
End Create.

(* Model of truncated_psd_solve, utils/eigen_utils.hpp, in exact arithmetic. The eigen decomposition is given: V has the
   eigenvectors as its columns and d the eigenvalues. *)
From mathcomp Require Import all_ssreflect all_algebra.
Set Implicit Arguments.
Unset Strict Implicit.
Unset Printing Implicit Defensive.
Import Order.TTheory GRing.Theory Num.Theory.
Local Open Scope ring_scope.

Section Model.
Variable F : realFieldType.
(* utils/eigen_utils.hpp:69-80, the indices of the eigenvalues that are not below the threshold *)
Definition kept n (d : 'cV[F]_n) (threshold : F) : seq 'I_n :=
  foldl (fun inds i => if threshold <= d i 0 then rcons inds i else inds) [::] (enum 'I_n).
(* utils/eigen_utils.hpp:63-85; None: a result that is not finite, 1 / 0 being infinite *)
Definition truncated_psd_solve n p (V : 'M[F]_n) (d : 'cV[F]_n) (rhs : 'M[F]_(n, p)) (threshold : F) : option 'M[F]_(n, p) :=
  let inds := kept d threshold in
  let V_sub := colsub (tnth (in_tuple inds)) V in
  let d_sub := rowsub (tnth (in_tuple inds)) d in
  if [forall k, d_sub k 0 != 0] then
    Some (V_sub *m diag_mx (\row_k (d_sub k 0)^-1) *m V_sub^T *m rhs)
  else None.
End Model.

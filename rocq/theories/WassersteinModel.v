(* Model of evaluation/prediction_metrics.hpp:147-189. Entries of vectors and matrices are exact reals. *)
From Coq Require Import Reals.
From Verif Require Import ExtRealModel DistanceModel RadialModel.
From mathcomp Require Import all_ssreflect all_algebra.
From Verif Require Import RealStruct GpModel.
From Verif Require Base.
Set Implicit Arguments.
Unset Strict Implicit.
Unset Printing Implicit Defensive.
Import Num.Theory GRing.Theory.
Local Open Scope ring_scope.

Section Wasserstein.
(* Eigen::SelfAdjointEigenSolver: eigenvalues() and eigenvectors() *)
Variable eigs : forall n, 'M[R]_n -> 'cV[R]_n * 'M[R]_n.

(* the smallest positive coefficient or infinity, evaluation/prediction_metrics.hpp:163-167 *)
Definition min_positive n (eigenvalues : 'cV[R]_n) : xr :=
  foldl (fun least i => std_min least (if 0 < eigenvalues i 0 then XFin (eigenvalues i 0) else XPos)) XPos (enum 'I_n).
(* evaluation/prediction_metrics.hpp:154-171 *)
Definition clamp n (eigenvalues : 'cV[R]_n) : 'cV[R]_n :=
  if [forall i, 0 <= eigenvalues i 0] then eigenvalues
  else \col_i (if (eigenvalues i 0 < 0) && xgtb (XFin (eigenvalues i 0)) (xscale (IZR (-10)) (min_positive eigenvalues))
               then 0 else eigenvalues i 0).
(* evaluation/prediction_metrics.hpp:151-176. None is a matrix of NaN: the square root of a negative number is NaN, and
   every coefficient of the product is a sum over all the eigenvalues. The eigen solver asserts that the matrix is not
   empty (the maximum of no coefficients) *)
Definition principal_sqrt n (input : 'M[R]_n) : Base.outcome (option 'M[R]_n) :=
  Base.assert_then (0 < n)%N (
  let eigenvalues := clamp (eigs input).1 in
  let eigenvectors := (eigs input).2 in
  Base.Ok (if [forall i, 0 <= eigenvalues i 0]
           then Some (eigenvectors *m diag_mx (\row_i R_sqrt.sqrt (eigenvalues i 0)) *m eigenvectors^T)
           else None)).

(* evaluation/prediction_metrics.hpp:180-187; the sizes are equal by type. A matrix of NaN has a principal square root of
   NaN, and makes the trace NaN *)
Definition wasserstein_2 n (a b : joint R_fieldType n) : Base.outcome xr :=
  Base.bind (principal_sqrt (j_cov b)) (fun b_sqrt =>
  match b_sqrt with
  | None => Base.Ok XNaN
  | Some b_sqrt =>
      Base.bind (principal_sqrt (b_sqrt *m j_cov a *m b_sqrt)) (fun root =>
      match root with
      | None => Base.Ok XNaN
      | Some root => Base.Ok (XFin (\sum_i (j_mean a i 0 - j_mean b i 0) ^+ 2 +
                                    \tr ((j_cov a : 'M[R]_n) + j_cov b - 2%:R *: root))%R)
      end)
  end).
End Wasserstein.

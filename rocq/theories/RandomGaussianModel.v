(* Model of random_fill, gaussian_fill, random_covariance_matrix and random_multivariate_normal of utils/random_utils.hpp over
   the exact reals. A distribution is a function of the engine state giving the next value and the next state. *)
From Coq Require Import Reals.
From Verif Require Import Base.
From mathcomp Require Import all_ssreflect all_algebra.
From Verif Require Import RealStruct.
Set Implicit Arguments.
Unset Strict Implicit.
Unset Printing Implicit Defensive.
Import GRing.Theory.
Local Open Scope ring_scope.

Section Random.
Variable G : Type.
Definition distribution := G -> R * G.

(* k calls of dist(rng) *)
Fixpoint draw (dist : distribution) (k : nat) (rng : G) : list R * G :=
  match k with
  | 0%N => ([::], rng)
  | k'.+1 => let (x, rng1) := dist rng in let (xs, rng2) := draw dist k' rng1 in (x :: xs, rng2)
  end.

(* random_fill, utils/random_utils.hpp:71-81: NullaryExpr calls the function once per coefficient, in column major order *)
Definition random_fill n m (dist : distribution) (rng : G) : 'M[R]_(n, m) * G :=
  let (xs, rng') := draw dist (n * m) rng in (\matrix_(i, j) nth 0 xs (j * n + i), rng').

Variable normal_distribution : R -> R -> distribution.     (* std::normal_distribution(mean, sd) *)
Variable gamma_distribution : R -> R -> distribution.
Variable matrixQ : forall k, 'M[R]_k -> 'M[R]_k.           (* colPivHouseholderQr().matrixQ() *)
Variable llt : forall n, 'M[R]_n -> 'M[R]_n.               (* llt().matrixL() *)

(* gaussian_fill, utils/random_utils.hpp:82-94 *)
Definition gaussian_fill n m (mean sd : R) (rng : G) : 'M[R]_(n, m) * G := random_fill n m (normal_distribution mean sd) rng.

(* random_covariance_matrix, utils/random_utils.hpp:103-117 *)
Definition random_covariance_matrix k (eigen_value_distribution : distribution) (gen : G) : 'M[R]_k * G :=
  let (Q, gen) := gaussian_fill k k 0 1 gen in
  let Q := matrixQ Q in
  let (diag, gen) := random_fill k 1 eigen_value_distribution gen in
  (Q *m diag_mx diag^T *m Q^T, gen).
(* utils/random_utils.hpp:119-124 *)
Definition random_covariance_matrix_gamma k (gen : G) : 'M[R]_k * G := random_covariance_matrix k (gamma_distribution 1 1) gen.

(* random_multivariate_normal, utils/random_utils.hpp:126-142; conform_mx turns the sizes that were just compared into equal
   types *)
Definition random_multivariate_normal n p q (mean : 'cV[R]_n) (cov : 'M[R]_(p, q)) (gen : G) : outcome ('cV[R]_n * G) :=
  assert_then (n == p)
  (assert_then (p == q)
   (let (sample, gen) := gaussian_fill n 1 0 1 gen in
    let sample := llt (conform_mx (0 : 'M[R]_n) cov) *m sample in
    Base.Ok (sample + mean, gen))).
(* utils/random_utils.hpp:144-149 *)
Definition random_multivariate_normal_zero p q (cov : 'M[R]_(p, q)) (gen : G) : outcome ('cV[R]_p * G) :=
  random_multivariate_normal (0 : 'cV[R]_p) cov gen.
End Random.

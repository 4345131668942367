(* Specification vocabulary of C46-C48: the partially independent training conditional (PITC; FITC
   when every group is one observation) approximation of a Gaussian process. *)
From Coq Require Import Reals.
From mathcomp Require Import all_ssreflect all_algebra all_fingroup.
From Verif Require Import RealStruct GpModel GpSpec LdltModel LdltSpec SparseGpModel.
Set Implicit Arguments.
Unset Strict Implicit.
Unset Printing Implicit Defensive.
Import Order.TTheory GRing.Theory Num.Theory.
Local Open Scope ring_scope.

(* ---- what is assumed of the factorizations ---- *)

(* A.ldlt() of a positive definite matrix is a factorization of it *)
Definition ldlt_contract (compute_ldlt : forall n, 'M[R]_n -> ldlt_state n) : Prop :=
  forall n (A : 'M[R]_n), pd A -> factors (compute_ldlt n A) A.

(* a rank revealing QR of a matrix with independent columns: B P = Q R, and solve is the least
   squares solution computed from the factors *)
Definition qr_of m n (q : qr_result m n) (B : 'M[R]_(m, n)) : Prop :=
  exists Q : 'M[R]_(m, n),
    Q^T *m Q = 1%:M /\ B *m perm_mx (qr_P q) = Q *m qr_R q /\
    (forall i j : 'I_n, (j < i)%N -> qr_R q i j = 0) /\ qr_rank q = n /\
    forall y, qr_solve q y = perm_mx (qr_P q) *m (invmx (qr_R q) *m (Q^T *m y)).
Definition qr_contract (compute_qr : forall m n, 'M[R]_(m, n) -> qr_result m n) : Prop :=
  forall m n (B : 'M[R]_(m, n)), B^T *m B \in unitmx -> qr_of (compute_qr m n B) B.

(* ---- groups ---- *)
(* every observation is in one group, once *)
Definition groups_partition n (groups : seq (seq 'I_n)) : Prop := perm_eq (flatten groups) (enum 'I_n).
(* i and j are in the same group *)
Definition same_group n (groups : seq (seq 'I_n)) (i j : 'I_n) : bool :=
  has (fun g => (i \in g) && (j \in g)) groups.

(* ---- the approximation ---- *)
Section Pitc.
Variable X : Type.
Variable cov : feature X -> feature X -> R.

(* every covariance matrix of the covariance function is symmetric positive semi-definite *)
Definition psd_kernel : Prop := forall n (xs : 'I_n -> feature X), psd (cov_mx cov xs xs).

Section Data.
Variables (inducing_nugget measurement_nugget : R).
Variables (k : nat) (u : 'I_k -> feature X).

(* covariance of a pair of features through the inducing points u: k(x, u) (K_uu + nugget)^-1 k(u, y) *)
Definition K_uu : 'M[R]_k := cov_mx cov u u + inducing_nugget%:M.
Definition through n p (xs : 'I_n -> feature X) (ys : 'I_p -> feature X) : 'M[R]_(n, p) :=
  cov_mx cov xs u *m invmx K_uu *m cov_mx cov u ys.

(* covariance of the observations: exact inside a group (with the measurement noise), through the
   inducing points between groups *)
Definition pitc n (same : 'I_n -> 'I_n -> bool) (xs : 'I_n -> feature X) (variance : 'cV[R]_n) : 'M[R]_n :=
  \matrix_(i, j) (if same i j
                  then cov (xs i) (xs j) + (if i == j then variance i 0 + measurement_nugget else 0)
                  else through xs xs i j).
End Data.
End Pitc.

(* the log density of N(0, S) at y *)
Definition gaussian_log_density n (S : 'M[R]_n) (y : 'cV[R]_n) : R :=
  - (2%:R)^-1 * (Rpower.ln (\det S) + (y^T *m invmx S *m y) 0 0 + n%:R * Rpower.ln (2%:R * Rtrigo1.PI)).

(* Eigen's solve treats the pivots of a factorization that are at most [tolerance] as 0 *)
Fixpoint above_tolerance (tolerance : R) sizes : block_ldlt sizes -> Prop :=
  match sizes with
  | [::] => fun _ => True
  | s :: rest => fun f => (forall i, tolerance < vectorD f.1 i 0) /\ above_tolerance tolerance f.2
  end.

(* ---- a fit followed by any number of updates ---- *)
Section History.
Variable X : Type.
Variable cov : feature X -> feature X -> R.
Variable compute_ldlt : forall n, 'M[R]_n -> ldlt_state n.
Variable compute_qr : forall m n, 'M[R]_(m, n) -> qr_result m n.
Variables measurement_nugget inducing_nugget sparse_R_nugget : R.
Variables (k : nat) (u : 'I_k -> feature X).

(* [history xs t groups f]: f comes from a fit and then updates; xs, t are all the observations in
   the order they arrived and groups all the groups *)
Inductive history : forall n, ('I_n -> feature X) -> marginal R_fieldType n -> seq (seq 'I_n) -> sparse_fit X k -> Prop :=
| history_fit n (xs : 'I_n -> feature X) t groups :
    groups_partition groups -> (forall i, 0 < m_var t i 0 + measurement_nugget) ->
    history xs t groups
      (sparse_fit_impl cov compute_ldlt compute_qr measurement_nugget inducing_nugget groups u xs t)
| history_update n m (xs : 'I_n -> feature X) t groups (ys : 'I_m -> feature X) s groups' f :
    history xs t groups f ->
    groups_partition groups' -> (forall i, 0 < m_var s i 0 + measurement_nugget) ->
    history (concat_f xs ys) (concat_t t s)
      ([seq [seq lshift m i | i <- g] | g <- groups] ++ [seq [seq rshift n i | i <- g] | g <- groups'])
      (sparse_update_impl cov compute_ldlt compute_qr measurement_nugget inducing_nugget sparse_R_nugget groups' f ys s).
End History.

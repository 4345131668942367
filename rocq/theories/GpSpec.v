(* What the Gaussian process code is supposed to compute. *)
From mathcomp Require Import all_ssreflect all_algebra.
Set Implicit Arguments.
Unset Strict Implicit.
Unset Printing Implicit Defensive.
Import GRing.Theory Num.Theory.
Local Open Scope ring_scope.

Section Field.
Variable F : fieldType.

(* [s] solves the linear systems of the matrix A: s rhs is the one solution of A x = rhs *)
Definition solves n (s : forall p, 'M[F]_(n, p) -> 'M[F]_(n, p)) (A : 'M[F]_n) : Prop :=
  forall p (rhs x : 'M[F]_(n, p)), s p rhs = x <-> A *m x = rhs.

(* the representation multiplies by the matrix M *)
Definition acts_as n (s : forall p, 'M[F]_(n, p) -> 'M[F]_(n, p)) (M : 'M[F]_n) : Prop :=
  forall p (rhs : 'M[F]_(n, p)), s p rhs = M *m rhs.

Definition symmetric n (A : 'M[F]_n) : Prop := A^T = A.

(* (f, g) with prior mean (mf, mg) and covariance ((Sff, Sfg), (Sfg^T, Sgg)): mean and cov are
   those of f given g = y when mean = mf + W (y - mg) for the W that makes the
   residual f - W g uncorrelated with g, and cov is the covariance of that residual. *)
Definition conditional k m (mf : 'cV[F]_k) (mg : 'cV[F]_m) (Sff : 'M[F]_k) (Sfg : 'M[F]_(k, m)) (Sgg : 'M[F]_m)
    (y : 'cV[F]_m) (mean : 'cV[F]_k) (cov : 'M[F]_k) : Prop :=
  exists W : 'M[F]_(k, m),
    Sfg - W *m Sgg = 0 /\
    mean = mf + W *m (y - mg) /\
    cov = Sff - W *m Sfg^T - Sfg *m W^T + W *m Sgg *m W^T.

(* f lists the indices of a group and g all the others, each once *)
Definition complementary n k m (f : 'I_k -> 'I_n) (g : 'I_m -> 'I_n) : Prop :=
  injective f /\ injective g /\ (forall a b, f a <> g b) /\
  (forall i, (exists a, f a = i) \/ (exists b, g b = i)).
End Field.

Section Ordered.
Variable R : realFieldType.
Definition quad n (A : 'M[R]_n) (x : 'cV[R]_n) : R := (x^T *m A *m x) 0 0.
Definition psd n (A : 'M[R]_n) : Prop := symmetric A /\ forall x, 0 <= quad A x.
Definition pd n (A : 'M[R]_n) : Prop := symmetric A /\ forall x, x != 0 -> 0 < quad A x.
End Ordered.

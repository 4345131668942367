(* What least squares is supposed to compute. *)
From mathcomp Require Import all_ssreflect all_algebra.
Set Implicit Arguments.
Unset Strict Implicit.
Unset Printing Implicit Defensive.
Import GRing.Theory Num.Theory.
Local Open Scope ring_scope.

Section Spec.
Variable F : fieldType.
(* what is known of the solver: it solves the normal equations, whatever the rank of A *)
Definition least_squares_contract (solver : forall m n, 'M[F]_(m, n) -> 'cV[F]_m -> 'cV[F]_n) : Prop :=
  forall m n (A : 'M[F]_(m, n)) b, A^T *m A *m solver m n A b = A^T *m b.

(* the inner product of two sequences *)
Fixpoint inner (a b : seq F) : F :=
  match a, b with
  | x :: a, y :: b => x * y + inner a b
  | _, _ => 0
  end.
(* the sum of the squares of the residuals *)
Definition squares (features : seq (seq F)) (y coefs : seq F) : F :=
  \sum_(p <- zip features y) (p.2 - inner p.1 coefs) ^+ 2.
(* the data determine the coefficients *)
Definition identifiable n (features : seq (seq F)) : Prop :=
  forall c, size c = n -> (forall f, f \in features -> inner f c = 0) -> c = nseq n 0.
Definition average (x : seq F) : F := (\sum_(a <- x) a) / (size x)%:R.
End Spec.

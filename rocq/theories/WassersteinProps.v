(* C71: the principal square root and the Wasserstein distance. *)
From Coq Require Import Reals Lra.
From Verif Require Import ExtRealModel DistanceModel RadialModel.
From Verif Require Base.
From mathcomp Require Import all_ssreflect all_algebra.
From Verif Require Import RealStruct GpModel GpSpec PsdProofs RealPsd SparseGpProofs2 WassersteinModel WassersteinSpec WassersteinProofs.
Set Implicit Arguments.
Unset Strict Implicit.
Unset Printing Implicit Defensive.
Import Order.TTheory GRing.Theory Num.Theory.
Local Open Scope ring_scope.

Section C71.
(* any eigen solver; `decomposed A` is its contract on one matrix *)
Variable eigs : forall n, 'M[R]_n -> 'cV[R]_n * 'M[R]_n.
Local Notation decomposed A := (spectral (eigs A).1 (eigs A).2 A).

(* the principal square root of a positive semidefinite matrix is its only positive semidefinite square root *)
Theorem C71_principal_sqrt n (A : 'M[R]_n) : (0 < n)%N -> decomposed A -> psd A ->
  exists S, principal_sqrt eigs A = Base.Ok (Some S) /\ psd_root S A /\ forall T, psd_root T A -> T = S.
Proof. exact: principal_root. Qed.

(* a matrix whose negative eigenvalues are all smaller than ten times each positive one is replaced by its positive part:
   the result is a square root of P where A = P - Q with P, Q positive semidefinite and P Q = 0 *)
Theorem C71_positive_part n (A : 'M[R]_n) : (0 < n)%N -> decomposed A ->
  (forall i j, (eigs A).1 i 0 < 0 -> 0 < (eigs A).1 j 0 -> - 10%:R * (eigs A).1 j 0 < (eigs A).1 i 0) ->
  exists S Q, principal_sqrt eigs A = Base.Ok (Some S) /\ psd S /\ psd Q /\ A = S *m S - Q /\ S *m S *m Q = 0.
Proof. exact: principal_jordan. Qed.

(* one negative eigenvalue of at least ten times the smallest positive one makes the square root NaN *)
Theorem C71_nan n (A : 'M[R]_n) i j : (eigs A).1 i 0 < 0 -> 0 < (eigs A).1 j 0 -> (eigs A).1 i 0 <= - 10%:R * (eigs A).1 j 0 ->
  principal_sqrt eigs A = Base.Ok None.
Proof. exact: principal_nan. Qed.

(* a matrix without rows has no eigenvalues and aborts *)
Theorem C71_empty (a b : joint R_fieldType 0) : wasserstein_2 eigs a b = Base.Abort.
Proof. by []. Qed.

(* The full claim is that a matrix which has no real square root is reported as NaN. FALSE: the threshold is relative to the
   smallest positive eigenvalue, which is infinite when there is none, so a negative definite matrix of any size is taken
   for rounding error and its square root is zero *)
Theorem C71_negative_definite_refuted n (A : 'M[R]_n) : (0 < n)%N -> (forall i, (eigs A).1 i 0 < 0) ->
  principal_sqrt eigs A = Base.Ok (Some 0).
Proof. exact: principal_negative. Qed.

(* what the distance needs of the solver: decompositions of the covariance of b and of the product under its root *)
Definition solvable n (a b : joint R_fieldType n) : Prop :=
  psd (j_cov a : 'M[R]_n) /\ psd (j_cov b : 'M[R]_n) /\ decomposed (j_cov b) /\
  forall S, psd_root S (j_cov b : 'M[R]_n) -> decomposed (S *m j_cov a *m S).

(* wasserstein_2 of two Gaussian distributions is the least expected squared difference over all the joint distributions
   which have the two as marginals: some coupling has this cost and no coupling has a smaller one *)
Theorem C71_least_cost n (a b : joint R_fieldType n) : (0 < n)%N -> solvable a b ->
  exists w, wasserstein_2 eigs a b = Base.Ok (XFin w) /\ least_cost a b w.
Proof. move=> n0 [Ap [Bp [d h]]]; exact: wasserstein_opt. Qed.
Lemma least n (a b : joint R_fieldType n) w : (0 < n)%N -> solvable a b -> wasserstein_2 eigs a b = Base.Ok (XFin w) -> least_cost a b w.
Proof. by move=> n0 /(C71_least_cost n0) [v [-> h]] [<-]. Qed.

(* it does not depend on the order of its arguments *)
Theorem C71_symmetric n (a b : joint R_fieldType n) : (0 < n)%N -> solvable a b -> solvable b a ->
  wasserstein_2 eigs a b = wasserstein_2 eigs b a.
Proof.
move=> n0 /(C71_least_cost n0) [v [-> hv]] /(C71_least_cost n0) [w [-> hw]].
by rewrite (least_unique hv (least_sym hw)).
Qed.

(* it is never negative, and zero exactly when the distributions are equal *)
Theorem C71_separates n (a b : joint R_fieldType n) w : (0 < n)%N -> solvable a b -> wasserstein_2 eigs a b = Base.Ok (XFin w) ->
  0 <= w /\ (w = 0 <-> a = b).
Proof.
move=> n0 s /(least n0 s) h; split; [exact: least_ge0 h | apply: least_eq0 h; by case: s].
Qed.

(* its square root satisfies the triangle inequality *)
Theorem C71_triangle n (a b c : joint R_fieldType n) u v w : (0 < n)%N -> solvable a b -> solvable b c -> solvable a c ->
  wasserstein_2 eigs a b = Base.Ok (XFin u) -> wasserstein_2 eigs b c = Base.Ok (XFin v) -> wasserstein_2 eigs a c = Base.Ok (XFin w) ->
  R_sqrt.sqrt w <= R_sqrt.sqrt u + R_sqrt.sqrt v.
Proof.
move=> n0 s1 s2 s3 /(least n0 s1) [[C [cC <-]] _] /(least n0 s2) [[D [cD <-]] _] /(least n0 s3) [_ h].
case: s1 => _ [Bp [dB _]]; have [V [s [o [s0 [_ ee]]]]] := principal_psd n0 dB Bp.
have [E [cE le]] := glue o ee cC cD.
by apply: le_trans le; apply: sqrt_le; exact: h.
Qed.

(* moving both distributions does nothing, and moving one of them adds the squared displacement of the means *)
Theorem C71_location n (a b : joint R_fieldType n) (x y : 'cV[R]_n) w : wasserstein_2 eigs a b = Base.Ok (XFin w) ->
  wasserstein_2 eigs (Joint (j_mean a + x) (j_cov a)) (Joint (j_mean b + y) (j_cov b)) =
  Base.Ok (XFin (w + (\sum_i (j_mean a i 0 - j_mean b i 0 + (x i 0 - y i 0)) ^+ 2 - \sum_i (j_mean a i 0 - j_mean b i 0) ^+ 2))%R).
Proof.
rewrite /wasserstein_2 /=; case: (principal_sqrt _ _) => //= -[S|] //=; case: (principal_sqrt _ _) => //= -[T|] //= [<-].
congr (Base.Ok (XFin _)); rewrite [RHS]addrC addrA subrK; congr (_ + _).
apply: eq_bigr => i _; congr (_ ^+ 2); by rewrite !mxE opprD addrACA.
Qed.
End C71.

(* a solver for diagonal matrices *)
Definition diagonal_solver n (A : 'M[R]_n) : 'cV[R]_n * 'M[R]_n := (\col_i A i i, 1%:M).
Lemma diagonal_solverE n (v : 'rV[R]_n) : spectral (diagonal_solver (diag_mx v)).1 (diagonal_solver (diag_mx v)).2 (diag_mx v).
Proof.
split; rewrite /= ?trmx1 ?mulmx1 // mul1mx; congr diag_mx; apply/matrixP => i j; by rewrite (ord1 i) !mxE eqxx mulr1n.
Qed.
Lemma diagonal_root n (v : 'rV[R]_n) (S : 'M[R]_n) : (forall i, 0 <= v 0 i) -> psd_root S (diag_mx v) ->
  S = diag_mx (\row_i R_sqrt.sqrt (v 0 i)).
Proof.
move=> h [Sp e]; apply: root_unique => //.
  have -> : diag_mx (\row_i R_sqrt.sqrt (v 0 i)) = sp (1%:M : 'M[R]_n) (fun i => R_sqrt.sqrt (v 0 i)) by rewrite /sp trmx1 mulmx1 mul1mx.
  by apply: psd_sp => i; exact: Rsqrt_ge0.
rewrite e mulmx_diag; congr diag_mx; apply/matrixP => i j; by rewrite (ord1 i) !mxE Rsqrt_mul.
Qed.
(* any two diagonal Gaussian distributions satisfy the hypotheses *)
Example C71_meets n (m m' : 'cV[R]_n) (v w : 'rV[R]_n) : (forall i, 0 <= v 0 i) -> (forall i, 0 <= w 0 i) ->
  solvable diagonal_solver (@Joint R_fieldType n m (diag_mx v)) (@Joint R_fieldType n m' (diag_mx w)).
Proof.
have p (x : 'rV[R]_n) : (forall i, 0 <= x 0 i) -> psd (diag_mx x).
  by move=> h; have := @psd_diag _ _ x^T; rewrite trmxK; apply=> i; rewrite mxE.
move=> hv hw; split; first exact: p. split; first exact: p. split; first exact: diagonal_solverE.
by move=> S /(diagonal_root hw) -> /=; rewrite !mulmx_diag; exact: diagonal_solverE.
Qed.
(* in one dimension it is the squared difference of the means plus the squared difference of the standard deviations *)
Example C71_one_dimension (m m' s t : R) : 0 <= s -> 0 <= t ->
  wasserstein_2 diagonal_solver (@Joint R_fieldType 1 m%:M (s ^+ 2)%:M) (@Joint R_fieldType 1 m'%:M (t ^+ 2)%:M) =
  Base.Ok (XFin ((m - m') ^+ 2 + (s - t) ^+ 2)%R).
Proof.
move=> s0 t0; have P (x : R) : 0 <= x -> principal_sqrt diagonal_solver (x ^+ 2)%:M = Base.Ok (Some (x%:M : 'M[R]_1)).
  move=> x0; have E i : clamp (\col_j ((x ^+ 2)%:M : 'M[R]_1) j j) i 0 = x ^+ 2.
    by rewrite clamp_id => [|j]; rewrite !mxE eqxx mulr1n ?sqr_ge0.
  rewrite principal_clamped // => [|i]; last by rewrite E sqr_ge0.
  congr (Base.Ok (Some _)); rewrite /sp /= trmx1 mulmx1 mul1mx; apply/matrixP => i j.
  rewrite (ord1 i) (ord1 j) mxE [LHS]mulr1n mxE [RHS]mxE eqxx mulr1n -[RHS](R_sqrt.sqrt_square x); last exact/RleP.
  by congr R_sqrt.sqrt; rewrite E expr2.
have Q : principal_sqrt diagonal_solver ((t%:M : 'M[R]_1) *m (s ^+ 2)%:M *m t%:M) = Base.Ok (Some (t * s)%:M).
  by rewrite -!scalar_mxM mulrAC -expr2 -exprMn P // mulr_ge0.
rewrite /wasserstein_2 [principal_sqrt _ _](P t t0); lazy beta iota zeta delta [Base.bind].
rewrite [principal_sqrt _ _]Q; congr (Base.Ok (XFin _)); rewrite big_ord1 /mxtrace big_ord1 !mxE /= !mulr1n.
congr (_ + _); rewrite mulr_natl sqrrB [s ^+ 2 + _ - _]addrAC [t * s]mulrC; by [].
Qed.

(* The full claim is that wasserstein_2 is the 2-Wasserstein distance, a metric. FALSE: it is the square of it, and the
   point masses at 0, 1 and 2 violate the triangle inequality *)
Theorem C71_triangle_refuted : exists a b c : joint R_fieldType 1, exists u v w,
  solvable diagonal_solver a b /\ solvable diagonal_solver b c /\ solvable diagonal_solver a c /\
  wasserstein_2 diagonal_solver a b = Base.Ok (XFin u) /\ wasserstein_2 diagonal_solver b c = Base.Ok (XFin v) /\
  wasserstein_2 diagonal_solver a c = Base.Ok (XFin w) /\ u + v < w.
Proof.
pose p (x : R) := @Joint R_fieldType 1 x%:M (0 ^+ 2)%:M.
have S x y : solvable diagonal_solver (p x) (p y).
  rewrite /p; have -> : ((0 : R) ^+ 2)%:M = diag_mx 0 :> 'M[R]_1 by apply/matrixP => i j; rewrite !mxE expr0n.
  by apply: C71_meets => i; rewrite mxE.
exists (p 0), (p 1), (p 2%:R), 1, 1, 4%:R; do 3!(split; first exact: S).
split; first by rewrite /p C71_one_dimension ?lexx // subrr expr0n addr0 sub0r sqrrN expr1n.
split; first by rewrite /p C71_one_dimension ?lexx // subrr expr0n addr0 -[1 - _]opprB sqrrN -(natrB _ (isT : (1 <= 2)%N)) expr1n.
split; first by rewrite /p C71_one_dimension ?lexx // subrr expr0n addr0 sub0r sqrrN -natrX.
by rewrite -(natrD _ 1 1) ltr_nat.
Qed.

Print Assumptions C71_principal_sqrt.
Print Assumptions C71_positive_part.
Print Assumptions C71_nan.
Print Assumptions C71_empty.
Print Assumptions C71_negative_definite_refuted.
Print Assumptions C71_least_cost.
Print Assumptions C71_symmetric.
Print Assumptions C71_separates.
Print Assumptions C71_triangle.
Print Assumptions C71_location.
Print Assumptions C71_triangle_refuted.

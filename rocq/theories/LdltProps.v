(* C45: the square roots, inverse blocks and log determinant of SerializableLDLT. *)
From Coq Require Import Reals.
From mathcomp Require Import all_ssreflect all_fingroup all_algebra.
From Verif Require Import RealStruct LdltModel LdltSpec LdltProofs GpSpec GpProofs PsdProofs.
From Verif Require Base.
Set Implicit Arguments.
Unset Strict Implicit.
Unset Printing Implicit Defensive.
Import Order.TTheory GRing.Theory Num.Theory.
Local Open Scope ring_scope.

(* the transpositions are a permutation, and the transposed product inverts them *)
Theorem C45_transpositions n (f : ldlt_state n) p (b : 'M[R]_(n, p)) :
  transpositions_mul f b = transpositions_mx f *m b /\
  transpositions_tr_mul f b = (transpositions_mx f)^T *m b /\
  transpositions_tr_mul f (transpositions_mul f b) = b.
Proof.
by rewrite !transpositions_tr_mulE !transpositions_mulE mulmxA PT_orth mul1mx.
Qed.
Print Assumptions C45_transpositions.

(* S S^T = A for S = sqrt_product(I), and the other three functions are S b, S^T, S^-1 b, S^-T b *)
Theorem C45_square_root n (f : ldlt_state n) (A : 'M[R]_n) :
  factors f A -> positive_D f ->
  exists S : 'M[R]_n, S *m S^T = A /\ S \in unitmx /\ sqrt_transpose f = S^T /\
  forall p (b : 'M[R]_(n, p)),
    sqrt_product f b = S *m b /\
    sqrt_solve f b = invmx S *m b /\
    sqrt_transpose_solve f b = invmx S^T *m b.
Proof.
move=> fA Dp; exists (S_mx f); have [Su Si] := unit_of_right (S_Si Dp).
split; first by apply: S_sq => // i; exact: ltW.
split => //; split; first exact: sqrt_transposeE.
move=> p b; rewrite sqrt_productE sqrt_solveE sqrt_transpose_solveE -trmx_inv Si.
by [].
Qed.
Print Assumptions C45_square_root.

(* what users rely on: inner products with the inverse *)
Theorem C45_inner_product n (f : ldlt_state n) (A : 'M[R]_n) p q (b : 'M[R]_(n, p)) (c : 'M[R]_(n, q)) :
  factors f A -> positive_D f -> (sqrt_solve f b)^T *m sqrt_solve f c = b^T *m invmx A *m c.
Proof.
by move=> fA Dp; have [_ ->] := A_inv fA Dp; rewrite !sqrt_solveE trmx_mul !mulmxA.
Qed.
Print Assumptions C45_inner_product.

(* with zeros in D the product is still a square root *)
Theorem C45_semidefinite n (f : ldlt_state n) (A : 'M[R]_n) :
  factors f A -> (forall i, 0 <= vectorD f i 0) ->
  sqrt_product f 1%:M *m (sqrt_product f 1%:M)^T = A /\ sqrt_transpose f = (sqrt_product f 1%:M)^T.
Proof. by move=> fA D0; rewrite sqrt_productE mulmx1 sqrt_transposeE; split => //; exact: S_sq. Qed.
Print Assumptions C45_semidefinite.

Theorem C45_solve n (f : ldlt_state n) (A : 'M[R]_n) (tolerance : R) :
  factors f A -> 0 <= tolerance -> (forall i, tolerance < `|vectorD f i 0|) ->
  forall p (b x : 'M[R]_(n, p)), ldlt_solve f tolerance b = x <-> A *m x = b.
Proof.
move=> fA t0 Dt p b x; have [Au ->] := ldlt_solveE b fA Dt t0.
by split => [<-|<-]; [rewrite mulKVmx|rewrite mulKmx].
Qed.
Print Assumptions C45_solve.

Theorem C45_inverse_blocks n (f : ldlt_state n) (A : 'M[R]_n) (blocks : seq (seq 'I_n)) :
  factors f A -> positive_D f ->
  inverse_blocks f blocks =
  [seq existT _ (size b) (\matrix_(i, j) invmx A (tnth (in_tuple b) i) (tnth (in_tuple b) j)) | b <- blocks].
Proof. by move=> fA Dp; apply: eq_map => b; rewrite (inverse_one_block_correct _ fA Dp). Qed.
Print Assumptions C45_inverse_blocks.

Theorem C45_inverse_diagonal n (f : ldlt_state n) (A : 'M[R]_n) :
  factors f A -> positive_D f -> inverse_diagonal_list f = [seq Base.Ok (invmx A i i) | i <- enum 'I_n].
Proof. exact: inverse_diagonal_correct. Qed.
Print Assumptions C45_inverse_diagonal.

Theorem C45_log_determinant n (f : ldlt_state n) (A : 'M[R]_n) :
  factors f A -> positive_D f -> 0 < \det A /\ log_determinant f = Some (Rpower.ln (\det A)).
Proof. exact: log_determinant_correct. Qed.
Print Assumptions C45_log_determinant.

Theorem C45_is_positive_definite n (f : ldlt_state n) (A : 'M[R]_n) :
  factors f A -> (0 < n)%N -> (is_positive_definite f = Base.Ok true <-> pd A).
Proof.
move=> fA n0; rewrite /is_positive_definite; have -> : (n == 0)%N = false by rewrite eqn0Ngt n0.
split; first by case=> /forallP Dp; apply: (pd_factors fA).
by move=> Ap; congr Base.Ok; apply/forallP => i; exact: (factors_pd fA).
Qed.
Print Assumptions C45_is_positive_definite.

(* every state with positive D factors some positive definite matrix; this one swaps rows *)
Definition ex_ldlt : ldlt_state 2 :=
  LdltState (\matrix_(i, j) (i + 2 * j)%N.+1%:R) (fun i => ord_max).
Example C45_example : positive_D ex_ldlt /\ (exists A, factors ex_ldlt A) /\
  transpositions_mx ex_ldlt = tperm_mx ord0 ord_max /\ matrixL ex_ldlt ord_max ord0 = 2%:R.
Proof.
split; first by move=> i; rewrite !mxE ltr0Sn.
split; first by eexists.
split; last by rewrite !mxE.
rewrite /transpositions_mx /transpositions_mul enum_ordSl enum_ordSl (size0nil (size_enum_ord 0)) /=.
rewrite !xrowE mulmx1; have -> : lift ord0 ord0 = ord_max :> 'I_2 by apply: val_inj.
by rewrite {1}/tperm_mx tperm1 perm_mx1 mul1mx.
Qed.

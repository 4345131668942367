From Coq Require Import Reals Lra.
From Verif Require Import ExtRealModel DistanceModel DistanceProofs RadialModel GaussianModel PriorSpec PriorProofs GaussianProofs.
From mathcomp Require Import all_ssreflect all_algebra.
From Verif Require Import RealStruct GpModel GpSpec GpProofs PsdProofs LdltModel LdltSpec LdltProofs SparseGpSpec RealPsd
  LikelihoodModel LikelihoodSpec.
From Verif Require Base.
Set Implicit Arguments.
Unset Strict Implicit.
Unset Printing Implicit Defensive.
Import Order.TTheory GRing.Theory Num.Theory.
Local Open Scope ring_scope.

Lemma fold_xadd (I : Type) (s : seq I) (F : I -> xr) (f : I -> R) (a : R) : (forall i, F i = XFin (f i)) ->
  foldl (fun acc i => xadd acc (F i)) (XFin a) s = XFin (a + \sum_(i <- s) f i)%R.
Proof.
move=> h; elim: s a => [|i s IH] a /=; first by rewrite big_nil addr0.
by rewrite h /= IH big_cons addrA.
Qed.
Lemma fold_xneg (I : Type) (s : seq I) (F : I -> xr) : (forall i, xadd XNeg (F i) = XNeg) ->
  foldl (fun acc i => xadd acc (F i)) XNeg s = XNeg.
Proof. by move=> h; elim: s => // i s IH; rewrite -[LHS]/(foldl _ (xadd XNeg (F i)) s) h. Qed.
Lemma sum_enum n (f : 'I_n -> R) : \sum_(i <- enum 'I_n) f i = \sum_i f i.
Proof. by rewrite big_enum. Qed.
Lemma xlog_pos (x : R) : 0 < x -> xlog (XFin x) = XFin (Rpower.ln x).
Proof. by move=> /RltP h; rewrite /= (proj2 (Rltb_true _ _) h). Qed.
Lemma xlog_0 : xlog (XFin 0) = XNeg.
Proof. by rewrite /= (proj2 (Rltb_false _ _) (Rle_refl _)) (proj2 (Reqb_true _ _)). Qed.

Lemma log_sum_value n (v : 'cV[R]_n) : (forall i, 0 < v i 0) -> log_sum v = XFin (\sum_i Rpower.ln (v i 0))%R.
Proof.
move=> h; rewrite /log_sum (fold_xadd _ (f := fun i => Rpower.ln (v i 0))) => [|i]; last exact: xlog_pos.
by rewrite add0r sum_enum.
Qed.
Lemma log_sum_zero n (v : 'cV[R]_n) : (forall i, 0 <= v i 0) -> (exists i, v i 0 = 0) -> log_sum v = XNeg.
Proof.
move=> h [i0 e]; rewrite /log_sum.
have ne i : xadd XNeg (xlog (XFin (v i 0))) = XNeg.
  have := h i; rewrite le_eqVlt => /orP[/eqP <-|p]; first by rewrite xlog_0.
  by rewrite xlog_pos.
set f := fun _ _ => _; suff G s : forall a, i0 \in s -> foldl f (XFin a) s = XNeg by apply: G; rewrite mem_enum.
have N s' : foldl f XNeg s' = XNeg by exact: fold_xneg.
elim: s => // i s IH a; rewrite in_cons => /orP[/eqP <-|/IH {}IH].
  by rewrite -[LHS]/(foldl f (f (XFin a) i0) s) {2}/f e xlog_0 N.
rewrite -[LHS]/(foldl f (f (XFin a) i) s) {2}/f; have := h i; rewrite le_eqVlt => /orP[/eqP <-|p].
  by rewrite xlog_0 N.
by rewrite xlog_pos //; exact: IH.
Qed.
Lemma ln_prod (I : finType) (v : I -> R) : (forall i, 0 < v i) ->
  0 < \prod_i v i /\ Rpower.ln (\prod_i v i) = \sum_i Rpower.ln (v i).
Proof.
move=> h; elim/big_ind2: _ => [|x1 x2 y1 y2|i _]; last by split.
  by split; [exact: ltr01|exact: ln_1].
by move=> /= [p1 <-] [p2 <-]; split; [exact: mulr_gt0|apply: ln_mult; apply/RltP].
Qed.

Lemma two_R : (2%:R : R) = IZR 2.
Proof. by rewrite /GRing.natmul /=; toR; lra. Qed.
Definition nll_of n (A : 'M[R]_n) (y : 'cV[R]_n) : R := - gaussian_log_density A y.
Lemma nll_ofE n (A : 'M[R]_n) (y : 'cV[R]_n) : nll_of A y =
  Rmult (Rdiv 1 2) (Rplus (Rplus (Rpower.ln (\det A)) ((y^T *m invmx A *m y) 0 0)) (n%:R * Rpower.ln (2%:R * Rtrigo1.PI))).
Proof.
rewrite /nll_of /gaussian_log_density.
have -> : (2%:R : R)^-1%R = Rdiv 1 2 by rewrite two_R; toR; Rfield.
move: (Rplus _ _) => z; ring.
Qed.
Lemma nll_ldlt_value tolerance n (f : ldlt_state n) (A : 'M[R]_n) (y : 'cV[R]_n) :
  factors f A -> 0 <= tolerance -> (forall i, tolerance < vectorD f i 0) ->
  nll_ldlt tolerance y f = XFin (nll_of A y).
Proof.
move=> fA t0 Dt; have Dp : positive_D f by move=> i; exact: le_lt_trans t0 (Dt i).
have Da i : tolerance < `|vectorD f i 0| by apply: lt_le_trans (Dt i) (ler_norm _).
have [_ sE] := ldlt_solveE y fA Da t0; rewrite /nll_ldlt log_sum_value // sE.
have [Du Dl] := ln_prod Dp.
by rewrite -Dl -(det_factors fA) /= nll_ofE mulmxA.
Qed.

Lemma det_one (A : 'M[R]_1) : \det A = A 0 0.
Proof. by rewrite [A]mx11_scalar det_scalar1 mxE eqxx mulr1n. Qed.
Lemma quad_one (a : R) (y : 'cV[R]_1) : (y^T *m invmx a%:M *m y) 0 0 = y 0 0 * a^-1 * y 0 0.
Proof. by rewrite invmx_scalar mul_mx_scalar -scalemxAl !mxE big_ord1 mxE mulrCA mulrA. Qed.
Lemma nll_one (A : 'M[R]_1) (y : 'cV[R]_1) : 0 < A 0 0 -> nll_scalar (y 0 0) (A 0 0) = XFin (nll_of A y).
Proof.
move=> h; have h' : Rlt 0 (A 0 0) by apply/RltP.
rewrite /nll_scalar log_pdf_value // nll_ofE det_one {4}[A]mx11_scalar quad_one.
rewrite two_R /xopp mulr1n; congr XFin; move: (Rpower.ln (A 0 0)) (Rpower.ln _) => l1 l2.
by move: h'; move: (A 0 0) (y 0 0) => a d h'; toR; field; lra.
Qed.

(* independent data *)
Lemma inv_diag n (v : 'cV[R]_n) : (forall i, 0 < v i 0) -> invmx (diag v) = diag (\col_i (v i 0)^-1).
Proof.
move=> h; have e : diag v *m diag (\col_i (v i 0)^-1) = 1%:M.
  rewrite /diag; apply/matrixP => i j; rewrite mul_diag_mx !mxE; case: eqP => [->|_]; last by rewrite mulr0n mulr0.
  by rewrite mulr1n mulfV // gt_eqF.
by have [_ ->] := unit_of_right e.
Qed.
Lemma nll_of_diag n (v y : 'cV[R]_n) : (forall i, 0 < v i 0) ->
  \sum_i nll_of (v i 0)%:M ((y i 0)%:M : 'cV[R]_1) = nll_of (diag v) y.
Proof.
move=> h; rewrite nll_ofE inv_diag // /diag det_diag.
have [_ dl] := ln_prod (fun i => h i).
have -> : \prod_i v^T 0 i = \prod_i v i 0 by apply: eq_bigr => i _; rewrite mxE.
rewrite dl.
have -> : (y^T *m diag_mx (\col_i (v i 0)^-1)^T *m y) 0 0 = \sum_i y i 0 * (v i 0)^-1 * y i 0.
  by rewrite mxE; apply: eq_bigr => i _; rewrite mul_mx_diag !mxE.
rewrite -!RmultE -!RplusE; set l := Rpower.ln _; have -> : n%:R * l = \sum_(i < n) l by rewrite sumr_const card_ord mulr_natl.
rewrite -!big_split mulr_sumr; apply: eq_bigr => i _.
by rewrite nll_ofE det_one quad_one !mxE !eqxx !mulr1n -/l -!RmultE -!RplusE mul1r.
Qed.
Lemma nll_of_block n m (A : 'M[R]_n) (B : 'M[R]_m) (x : 'cV[R]_n) (y : 'cV[R]_m) : pd A -> pd B ->
  0 < \det A -> 0 < \det B ->
  nll_of (block_mx A 0 0 B) (col_mx x y) = nll_of A x + nll_of B y.
Proof.
move=> pA pB dA dB; have uA := pd_unit pA; have uB := pd_unit pB.
have e : block_mx A 0 0 B *m block_mx (invmx A) 0 0 (invmx B) = 1%:M.
  by rewrite mulmx_block !mulmx0 !mul0mx !addr0 !add0r !mulmxV // -scalar_mx_block.
have [_ inv] := unit_of_right e; rewrite !nll_ofE inv det_ublock.
have -> : Rpower.ln (\det A * \det B) = Rpower.ln (\det A) + Rpower.ln (\det B) by apply: ln_mult; exact/RltP.
have -> : ((col_mx x y)^T *m block_mx (invmx A) 0 0 (invmx B) *m col_mx x y) 0 0 =
   (x^T *m invmx A *m x) 0 0 + (y^T *m invmx B *m y) 0 0.
  by rewrite tr_col_mx mul_row_block !mulmx0 addr0 add0r mul_row_col mxE.
rewrite natrD; move: (Rpower.ln (\det A)) (Rpower.ln (\det B)) ((x^T *m _ *m x) 0 0) ((y^T *m _ *m y) 0 0) (Rpower.ln _) => a b c d l.
by move: (n%:R : R) (m%:R : R) => u w; toR; field.
Qed.

Section Dense.
Variable tolerance : R.
Variable compute_ldlt : forall n, 'M[R]_n -> ldlt_state n.
Hypothesis t0 : 0 <= tolerance.

Definition solvable n (A : 'M[R]_n) : Prop := factors (compute_ldlt A) A /\ forall i, tolerance < vectorD (compute_ldlt A) i 0.

Lemma det_pos n (f : ldlt_state n) (A : 'M[R]_n) : factors f A -> positive_D f -> 0 < \det A.
Proof. by move=> fA Dp; rewrite (det_factors fA); case: (ln_prod Dp). Qed.
Lemma solvable_pos n (A : 'M[R]_n) : solvable A -> positive_D (compute_ldlt A).
Proof. by case=> _ h i; exact: le_lt_trans t0 (h i). Qed.
Lemma solvable_pd n (A : 'M[R]_n) : solvable A -> pd A.
Proof. by move=> h; apply: pd_factors (proj1 h) (solvable_pos h). Qed.

Lemma nll_dense_shape n (y : 'cV[R]_n) (A : 'M[R]_n) : nll_dense tolerance compute_ldlt y A =
  Base.Ok (match n as m return 'cV[R]_m -> 'M[R]_m -> xr with
           | 1 => fun deviation a => nll_scalar (deviation 0 0) (a 0 0)
           | _ => fun deviation a => nll_ldlt tolerance deviation (compute_ldlt a)
           end y A).
Proof. by rewrite /nll_dense eqxx /= conform_mx_id. Qed.
Lemma nll_dense_value n (y : 'cV[R]_n) (A : 'M[R]_n) : solvable A ->
  nll_dense tolerance compute_ldlt y A = Base.Ok (XFin (nll_of A y)).
Proof.
move=> h; have Ap := solvable_pd h; case: h => fA h; rewrite nll_dense_shape; congr Base.Ok.
case: n y A Ap fA h => [|[|n]] y A Ap fA h; [exact: nll_ldlt_value| |exact: nll_ldlt_value].
by apply: nll_one; exact: pd_diag_gt0.
Qed.

Lemma zero_pivot n (f : ldlt_state n) (A : 'M[R]_n) : factors f A -> \det A = 0 -> exists i, vectorD f i 0 = 0.
Proof.
move=> fA; rewrite (det_factors fA) => /eqP; rewrite prodf_seq_eq0 => /hasP[i _ /eqP e]; by exists i.
Qed.
Lemma nll_dense_singular n (y : 'cV[R]_n) (A : 'M[R]_n) : factors (compute_ldlt A) A -> psd A -> \det A = 0 -> n != 1%N ->
  nll_dense tolerance compute_ldlt y A = Base.Ok XNeg.
Proof.
move=> fA Ap dA n1; rewrite nll_dense_shape; congr Base.Ok.
have E : nll_ldlt tolerance y (compute_ldlt A) = XNeg.
  rewrite /nll_ldlt log_sum_zero //=; last exact: zero_pivot dA.
    by rewrite (proj2 (Rltb_true _ _)) //; lra.
  exact: (factors_psd fA Ap).
by case: n n1 y A fA Ap dA E => [|[|n]].
Qed.

Lemma nll_diagonal_shape n (y v : 'cV[R]_n) : nll_diagonal y v =
  Base.Ok (foldl (fun nll i => xadd nll (nll_scalar (y i 0) (v i 0))) (XFin 0) (enum 'I_n)).
Proof. by rewrite /nll_diagonal eqxx /= conform_mx_id. Qed.
Lemma nll_diagonal_value n (y v : 'cV[R]_n) : (forall i, 0 < v i 0) ->
  nll_diagonal y v = Base.Ok (XFin (nll_of (diag v) y)).
Proof.
move=> h; rewrite nll_diagonal_shape.
rewrite (fold_xadd _ (f := fun i => nll_of (v i 0)%:M ((y i 0)%:M : 'cV[R]_1))).
  by rewrite add0r sum_enum nll_of_diag.
move=> i; have := @nll_one (v i 0)%:M (y i 0)%:M; rewrite !mxE !eqxx !mulr1n; apply; exact: h.
Qed.

(* entropy *)
Lemma log_determinant_value n (f : ldlt_state n) (A : 'M[R]_n) : factors f A -> positive_D f ->
  log_determinant_of_symmetric f = XFin (Rpower.ln (\det A)).
Proof.
move=> fA Dp; rewrite -[LHS]/(log_sum (vectorD f)) log_sum_value // (det_factors fA).
by case: (ln_prod Dp) => _ ->.
Qed.
Lemma entropy_value n (f : ldlt_state n) (A : 'M[R]_n) : factors f A -> positive_D f ->
  differential_entropy_ldlt f = XFin (n%:R * (1 + Rpower.ln (2%:R * Rtrigo1.PI) + Rpower.ln (\det A)) / 2%:R)%R.
Proof.
move=> fA Dp; rewrite /differential_entropy_ldlt (log_determinant_value fA) //= two_R; congr XFin.
by move: (Rpower.ln _) (Rpower.ln _) (n%:R : R) => a b c; toR; field.
Qed.
End Dense.

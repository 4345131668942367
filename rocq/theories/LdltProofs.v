From Coq Require Import Reals.
From mathcomp Require Import all_ssreflect all_fingroup all_algebra.
From Verif Require Import RealStruct LdltModel LdltSpec GpModel GpSpec GpProofs PsdProofs.
From Verif Require Base.
Set Implicit Arguments.
Unset Strict Implicit.
Unset Printing Implicit Defensive.
Import Order.TTheory GRing.Theory Num.Theory.
Local Open Scope ring_scope.

Lemma sqrt_sq (x : R) : 0 <= x -> Rsqrt x * Rsqrt x = x.
Proof. by move=> /RleP h; apply: R_sqrt.sqrt_sqrt. Qed.
Lemma sqrt_gt0 (x : R) : 0 < x -> 0 < Rsqrt x.
Proof. by move=> /RltP h; apply/RltP/R_sqrt.sqrt_lt_R0. Qed.

Section Ldlt.
Variable n : nat.
Variable f : ldlt_state n.
Local Notation L := (matrixL f).
Local Notation D := (vectorD f).
Local Notation P := (transpositions_mx f).

Lemma fold_swaps p (s : seq 'I_n) (a : 'M[R]_(n, p)) :
  foldl (fun a k => xrow k (m_transpositions f k) a) a s =
  foldl (fun a k => xrow k (m_transpositions f k) a) 1%:M s *m a.
Proof.
elim/last_ind: s a => [|s k IH] a; first by rewrite /= mul1mx.
by rewrite -cats1 !foldl_cat /= IH !xrowE mulmxA.
Qed.
Lemma transpositions_mulE p (a : 'M[R]_(n, p)) : transpositions_mul f a = P *m a.
Proof. exact: fold_swaps. Qed.
Lemma fold_swaps_rev (s : seq 'I_n) :
  foldl (fun a k => xrow k (m_transpositions f k) a) 1%:M (rev s) =
  (foldl (fun a k => xrow k (m_transpositions f k) a) (1%:M : 'M[R]_n) s)^T.
Proof.
elim: s => [|k s IH]; first by rewrite /= trmx1.
rewrite rev_cons -cats1 foldl_cat /= IH [in RHS]fold_swaps trmx_mul !xrowE mulmx1.
by rewrite /tperm_mx tr_perm_mx tpermV.
Qed.
Lemma transpositions_tr_mulE p (a : 'M[R]_(n, p)) : transpositions_tr_mul f a = P^T *m a.
Proof. by rewrite /transpositions_tr_mul fold_swaps fold_swaps_rev. Qed.

Lemma swaps_orth (s : seq 'I_n) :
  let M := foldl (fun a k => xrow k (m_transpositions f k) a) (1%:M : 'M[R]_n) s in M *m M^T = 1%:M.
Proof.
elim: s => [|k s IH] /=; first by rewrite trmx1 mulmx1.
rewrite fold_swaps trmx_mul xrowE mulmx1.
set T := tperm_mx _ _; have TT : T *m T^T = 1%:M :> 'M[R]_n.
  by rewrite /T /tperm_mx tr_perm_mx tpermV -perm_mxM tperm2 perm_mx1.
by rewrite -mulmxA (mulmxA T) TT mul1mx.
Qed.
Lemma P_orth : P *m P^T = 1%:M.
Proof. exact: swaps_orth. Qed.
Lemma P_unit : P \in unitmx.
Proof. by have [] := unit_of_right P_orth. Qed.
Lemma P_inv : invmx P = P^T.
Proof. by have [_] := unit_of_right P_orth. Qed.
Lemma PT_orth : P^T *m P = 1%:M.
Proof. by rewrite -P_inv mulVmx // P_unit. Qed.

Lemma L_det : \det L = 1.
Proof.
rewrite det_trig; first by rewrite big1 // => i _; rewrite mxE ltnn eqxx.
apply/is_trig_mxP => i j ij; rewrite mxE ltnNge (ltnW ij) /=.
by case: eqP ij => // ->; rewrite ltnn.
Qed.
Lemma L_unit : L \in unitmx.
Proof. by rewrite unitmxE L_det unitr1. Qed.
Lemma LT_unit : L^T \in unitmx.
Proof. by rewrite unitmx_tr L_unit. Qed.

Lemma scale_rowsE p (v : 'cV[R]_n) (a : 'M[R]_(n, p)) : scale_rows v a = diag_mx v^T *m a.
Proof. by apply/matrixP => i j; rewrite mul_diag_mx !mxE. Qed.

Local Notation Ds := (diag_mx (diagonal_sqrt f)^T).
Local Notation Di := (diag_mx (diagonal_sqrt_inverse f)^T).
Local Notation DD := (diag_mx D^T).

Lemma diag_mul (u v : 'cV[R]_n) : diag_mx u^T *m diag_mx v^T = diag_mx (\col_i (u i 0 * v i 0))^T.
Proof. by apply/matrixP => i j; rewrite mul_diag_mx !mxE; case: eqP => [->|]; rewrite ?mulr1n ?mulr0n ?mulr0. Qed.

Lemma Ds_sq : (forall i, 0 <= D i 0) -> Ds *m Ds = DD.
Proof.
move=> D0; rewrite diag_mul; congr diag_mx; apply/matrixP => i j; rewrite !mxE.
case: ifP => h; first by rewrite sqrt_sq ?ltW //; rewrite !mxE.
have := D0 j; rewrite !mxE in h *; rewrite mulr0 le_eqVlt h orbF => /eqP -> //.
Qed.
Lemma Ds_Di : positive_D f -> Ds *m Di = 1%:M.
Proof.
move=> Dp; rewrite diag_mul; apply/matrixP => i j; rewrite !mxE.
have Dj := Dp i; rewrite !mxE in Dj; rewrite Dj mul1r mulfV //.
by apply: lt0r_neq0; exact: sqrt_gt0.
Qed.
Lemma Di_Ds : positive_D f -> Di *m Ds = 1%:M.
Proof. by move=> /Ds_Di; exact: mulmx1C. Qed.

Definition S_mx : 'M[R]_n := P^T *m L *m Ds.

Lemma sqrt_productE p (b : 'M[R]_(n, p)) : sqrt_product f b = S_mx *m b.
Proof. by rewrite /sqrt_product transpositions_tr_mulE scale_rowsE /S_mx !mulmxA. Qed.
Lemma sqrt_transposeE : sqrt_transpose f = S_mx^T.
Proof. by rewrite /sqrt_transpose transpositions_tr_mulE scale_rowsE /S_mx !trmx_mul !trmxK tr_diag_mx. Qed.
Lemma S_sq A : factors f A -> (forall i, 0 <= D i 0) -> S_mx *m S_mx^T = A.
Proof.
move=> -> D0; rewrite /S_mx !trmx_mul !trmxK tr_diag_mx -Ds_sq // !mulmxA.
by [].
Qed.
Definition Si_mx : 'M[R]_n := Di *m invmx L *m P.
Lemma sqrt_solveE p (b : 'M[R]_(n, p)) : sqrt_solve f b = Si_mx *m b.
Proof. by rewrite /sqrt_solve /lower_solve transpositions_mulE scale_rowsE /Si_mx !mulmxA. Qed.
Lemma sqrt_transpose_solveE p (b : 'M[R]_(n, p)) : sqrt_transpose_solve f b = Si_mx^T *m b.
Proof.
rewrite /sqrt_transpose_solve /lower_tr_solve transpositions_tr_mulE scale_rowsE /Si_mx !trmx_mul tr_diag_mx trmx_inv.
by rewrite !mulmxA.
Qed.
Lemma S_Si : positive_D f -> S_mx *m Si_mx = 1%:M.
Proof.
move=> Dp; rewrite /S_mx /Si_mx !mulmxA -(mulmxA _ Ds) Ds_Di // mulmx1 mulmxK ?L_unit //.
exact: PT_orth.
Qed.
Lemma Si_S : positive_D f -> Si_mx *m S_mx = 1%:M.
Proof. by move=> /S_Si; exact: mulmx1C. Qed.
Lemma S_unit : positive_D f -> S_mx \in unitmx.
Proof. by move=> /S_Si E; have [] := unit_of_right E. Qed.

Lemma A_inv A : factors f A -> positive_D f -> A \in unitmx /\ invmx A = Si_mx^T *m Si_mx.
Proof.
move=> fA Dp; apply: unit_of_right.
have <- := S_sq fA (fun i => ltW (Dp i)).
have E := S_Si Dp; have E' : S_mx^T *m Si_mx^T = 1%:M by rewrite -trmx_mul Si_S // trmx1.
by rewrite -mulmxA (mulmxA S_mx^T) E' mul1mx.
Qed.

Lemma inverse_choleskyE : inverse_cholesky f = Si_mx.
Proof. by rewrite -[RHS]mulmx1 -sqrt_solveE. Qed.

Lemma inverse_one_block_correct A (indices : seq 'I_n) : factors f A -> positive_D f ->
  inverse_one_block f indices = \matrix_(i, j) invmx A (tnth (in_tuple indices) i) (tnth (in_tuple indices) j).
Proof.
move=> fA Dp; have [_ ->] := A_inv fA Dp.
by rewrite /inverse_one_block inverse_choleskyE; apply/matrixP => i j; rewrite !mxE; apply: eq_bigr => k _; rewrite !mxE.
Qed.

Lemma inverse_diagonal_correct A : factors f A -> positive_D f ->
  inverse_diagonal_list f = [seq Base.Ok (invmx A i i) | i <- enum 'I_n].
Proof.
move=> fA Dp; rewrite /inverse_diagonal_list /inverse_blocks -!map_comp; apply: eq_map => i /=.
rewrite (inverse_one_block_correct _ fA Dp).
by rewrite mxE; do 2 f_equal; rewrite (tnth_nth i).
Qed.

Lemma ldlt_solveE tol A p (b : 'M[R]_(n, p)) : factors f A -> (forall i, tol < `|D i 0|) -> 0 <= tol ->
  A \in unitmx /\ ldlt_solve f tol b = invmx A *m b.
Proof.
move=> fA Dt t0.
set E := \col_i (if tol < `|D i 0| then (D i 0)^-1 else 0).
set M := P^T *m invmx L^T *m diag_mx E^T *m invmx L *m P.
have DE : DD *m diag_mx E^T = 1%:M.
  rewrite diag_mul; apply/matrixP => i j; rewrite !mxE.
  have Dj := Dt i; rewrite !mxE in Dj; rewrite Dj mulfV //.
  by rewrite -normr_gt0; apply: le_lt_trans Dj.
have AM : A *m M = 1%:M.
  rewrite fA /M !mulmxA -(mulmxA _ P P^T) P_orth mulmx1 mulmxK ?LT_unit // -(mulmxA _ DD) DE mulmx1 mulmxK ?L_unit //.
  exact: PT_orth.
have [Au ->] := unit_of_right AM; split => //.
by rewrite /ldlt_solve /lower_solve /lower_tr_solve transpositions_mulE transpositions_tr_mulE scale_rowsE /M !mulmxA.
Qed.

Lemma prod_ln (s : seq 'I_n) : positive_D f ->
  0 < \prod_(i <- s) D i 0 /\ Rpower.ln (\prod_(i <- s) D i 0) = \sum_(i <- s) Rpower.ln (D i 0).
Proof.
move=> Dp; elim: s => [|i s [IH1 IH2]]; first by rewrite !big_nil ltr01; split => //; exact: Rpower.ln_1.
rewrite !big_cons mulr_gt0 //; split => //.
by rewrite -IH2; apply: Rpower.ln_mult; apply/RltP.
Qed.
Lemma det_factors A : factors f A -> \det A = \prod_i D i 0.
Proof.
move=> ->; rewrite !det_mulmx !det_tr L_det !mulr1 det_diag mulrAC.
have -> : \det P * \det P = 1 by rewrite -{2}det_tr -det_mulmx P_orth det1.
by rewrite mul1r; apply: eq_bigr => i _; rewrite !mxE.
Qed.
Lemma log_determinant_correct A : factors f A -> positive_D f ->
  0 < \det A /\ log_determinant f = Some (Rpower.ln (\det A)).
Proof.
move=> fA Dp; have [h1 h2] := prod_ln (index_enum _) Dp.
rewrite (det_factors fA); split => //.
rewrite /log_determinant; have -> : [forall i, 0 < D i 0] by apply/forallP.
by congr Some; rewrite h2.
Qed.

Lemma pd_factors A : factors f A -> positive_D f -> pd A.
Proof.
move=> -> Dp.
have -> : P^T *m L *m DD *m L^T *m P = (L^T *m P)^T *m DD *m (L^T *m P) by rewrite trmx_mul trmxK !mulmxA.
apply: (@pd_congr _ _ _ _ _ (invmx (L^T *m P))); first by rewrite mulVmx // unitmx_mul LT_unit P_unit.
by apply: pd_diag.
Qed.
Lemma factors_pd A : factors f A -> pd A -> positive_D f.
Proof.
move=> fA Ap i.
have E : DD = (P^T *m invmx L^T)^T *m A *m (P^T *m invmx L^T).
  rewrite fA trmx_mul trmxK trmx_inv trmxK !mulmxA -(mulmxA (invmx L)) P_orth mulmx1 mulVmx ?L_unit // mul1mx.
  by rewrite -(mulmxA _ P P^T) P_orth mulmx1 mulmxK ?LT_unit.
have U : P^T *m invmx L^T \in unitmx by rewrite unitmx_mul unitmx_tr P_unit unitmx_inv LT_unit.
have := pd_diag_gt0 i (pd_congr (mulVmx U) Ap); rewrite -E.
by rewrite !mxE eqxx mulr1n.
Qed.
Lemma factors_psd A : factors f A -> psd A -> forall i, 0 <= D i 0.
Proof.
move=> fA Ap i.
have E : DD = (P^T *m invmx L^T)^T *m A *m (P^T *m invmx L^T).
  rewrite fA trmx_mul trmxK trmx_inv trmxK !mulmxA -(mulmxA (invmx L)) P_orth mulmx1 mulVmx ?L_unit // mul1mx.
  by rewrite -(mulmxA _ P P^T) P_orth mulmx1 mulmxK ?LT_unit.
have := psd_diag_ge0 i (psd_congr (P^T *m invmx L^T) Ap); rewrite -E.
by rewrite !mxE eqxx mulr1n.
Qed.
End Ldlt.

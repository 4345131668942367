From mathcomp Require Import all_ssreflect all_algebra.
From Verif Require Import GpModel GpSpec.
Set Implicit Arguments.
Unset Strict Implicit.
Unset Printing Implicit Defensive.
Import Order.TTheory GRing.Theory Num.Theory.
Local Open Scope ring_scope.

Section Field.
Variable F : fieldType.

Lemma unit_of_right n (A B : 'M[F]_n) : A *m B = 1%:M -> A \in unitmx /\ invmx A = B.
Proof.
move=> AB; have Au : A \in unitmx by case: (mulmx1_unit AB).
by split => //; rewrite -[LHS]mulmx1 -AB mulKmx.
Qed.

Lemma solves_inv n (s : solver F n) A : solves s A <-> A \in unitmx /\ forall p b, s p b = invmx A *m b.
Proof.
split.
- move=> H; have AB : A *m s n 1%:M = 1%:M by apply/H.
  have [Au _] := unit_of_right AB.
  split => // p b.
  have E : A *m s p b = b by apply/H.
  by rewrite -[in RHS]E mulKmx.
- case=> Au H p b x; rewrite H; split => [<-|<-].
  by rewrite mulKVmx. by rewrite mulKmx.
Qed.

Lemma solves_ldlt n (A : 'M[F]_n) : A \in unitmx -> solves (ldlt A) A.
Proof. by move=> Au; apply/solves_inv. Qed.

Lemma symmetric_inv n (A : 'M[F]_n) : symmetric A -> symmetric (invmx A).
Proof. by move=> H; rewrite /symmetric trmx_inv H. Qed.

(* ---- block inverse ---- *)
Lemma block_solve n m p (A : 'M[F]_n) (B : 'M[F]_(n, m)) (S : 'M[F]_m) (b : 'M[F]_(n + m, p)) :
  A \in unitmx -> S \in unitmx -> symmetric A ->
  block_mx A B B^T (S + B^T *m invmx A *m B) *m
  block_symmetric_solve (build_block_symmetric_S (ldlt A) B S) b = b.
Proof.
move=> Au Su As; rewrite /block_symmetric_solve /build_block_symmetric_S /ldlt /=.
set a1 := usubmx b; set b1 := dsubmx b.
have AsI : (invmx A)^T = invmx A by apply: symmetric_inv.
rewrite trmx_mul AsI mul_block_col -[RHS]vsubmxK -/a1 -/b1.
set u := invmx S *m (_ *m a1); set w := invmx S *m b1.
have Su' : S *m u = B^T *m invmx A *m a1 by rewrite /u mulKVmx.
have Sw : S *m w = b1 by rewrite /w mulKVmx.
congr col_mx.
- rewrite mulmxDr !mulmxA mulmxV // !mul1mx mulmxBr -addrA [X in _ + (_ + X)]mulmxBr.
  by rewrite -[X in _ + (_ + X)]opprB subrr addr0.
- rewrite mulmxDr !mulmxA mulmxDl [S *m _]mulmxBr Sw Su'.
  by rewrite -[w - u]opprB mulmxN -[_ - _ - _]addrA -opprD addrC subrK.
Qed.


Lemma eq_solver_block n m p (s : solver F n) A B (S : 'M[F]_m) (b : 'M[F]_(n + m, p)) :
  (forall p b, s p b = invmx A *m b) ->
  block_symmetric_solve (build_block_symmetric_S s B S) b =
  block_symmetric_solve (build_block_symmetric_S (ldlt A) B S) b.
Proof. by move=> H; rewrite /block_symmetric_solve /build_block_symmetric_S /= !H. Qed.

Lemma solves_of_right n (s : solver F n) A : (forall p b, A *m s p b = b) -> solves s A.
Proof.
move=> H; have [Au _] := unit_of_right (H n 1%:M).
by apply/solves_inv; split => // p b; rewrite -[in RHS](H p b) mulKmx.
Qed.

Lemma solves_block_S n m (s : solver F n) A (B : 'M[F]_(n, m)) S :
  solves s A -> symmetric A -> S \in unitmx ->
  solves (block_symmetric_solve (build_block_symmetric_S s B S)) (block_mx A B B^T (S + B^T *m invmx A *m B)).
Proof.
case/solves_inv => Au H As Su; apply: solves_of_right => p b.
by rewrite (eq_solver_block _ _ _ H) block_solve.
Qed.

Lemma solves_block_C n m (s : solver F n) A (B : 'M[F]_(n, m)) (C : 'M[F]_m) :
  solves s A -> symmetric A -> C - B^T *m invmx A *m B \in unitmx ->
  solves (block_symmetric_solve (build_block_symmetric_C s B C)) (block_mx A B B^T C).
Proof.
move=> sA As Su; have [Au H] := (solves_inv _ _).1 sA.
have := solves_block_S B sA As Su; rewrite subrK.
have -> : build_block_symmetric_C s B C = build_block_symmetric_S s B (C - B^T *m invmx A *m B).
  by rewrite /build_block_symmetric_C /build_block_symmetric_S H mulmxA.
by [].
Qed.

(* an invertible block matrix has an invertible Schur complement *)
Lemma schur_unit n m (A : 'M[F]_n) (B : 'M[F]_(n, m)) (C : 'M[F]_(m, n)) D :
  A \in unitmx -> (block_mx A B C D \in unitmx) = (D - C *m invmx A *m B \in unitmx).
Proof.
move=> Au.
have E : block_mx A B C D = block_mx 1%:M 0 (C *m invmx A) 1%:M *m block_mx A B 0 (D - C *m invmx A *m B).
  by rewrite mulmx_block !mul1mx !mul0mx !addr0 mulmxKV // [C *m _ *m B + _]addrC subrK.
by rewrite !unitmxE E det_mulmx det_lblock !det1 !mul1r det_ublock unitrM -!unitmxE Au.
Qed.

Lemma symmetric_block n m (A : 'M[F]_n) (B : 'M[F]_(n, m)) D :
  symmetric (block_mx A B B^T D) <-> symmetric A /\ symmetric D.
Proof.
rewrite /symmetric tr_block_mx trmxK; split; first by case/eq_block_mx => -> _ _ ->.
by case=> -> ->.
Qed.

(* ---- reindexing ---- *)
Lemma mxsub_mulb n p k l q (A : 'M[F]_(k, n)) (B : 'M[F]_(n, l)) (f : 'I_q -> 'I_k) (h : 'I_p -> 'I_n) r (g : 'I_r -> 'I_l) :
  bijective h -> mxsub f g (A *m B) = mxsub f h A *m mxsub h g B.
Proof.
move=> hb; apply/matrixP => i j; rewrite !mxE.
rewrite (reindex h) /=; last exact: onW_bij.
by apply: eq_bigr => x _; rewrite !mxE.
Qed.

Lemma mxsub_1 n p (h : 'I_p -> 'I_n) : injective h -> mxsub h h (1%:M : 'M[F]_n) = 1%:M.
Proof. by move=> hi; apply/matrixP => i j; rewrite !mxE (inj_eq hi). Qed.

Lemma mxsub_inv n p (h : 'I_p -> 'I_n) (A : 'M[F]_n) :
  bijective h -> A \in unitmx -> mxsub h h A \in unitmx /\ invmx (mxsub h h A) = mxsub h h (invmx A).
Proof.
move=> hb Au; apply: unit_of_right.
by rewrite -mxsub_mulb // mulmxV // mxsub_1 //; apply: bij_inj.
Qed.

Definition join_idx n k m (f : 'I_k -> 'I_n) (g : 'I_m -> 'I_n) (i : 'I_(k + m)) : 'I_n :=
  match split i with inl a => f a | inr b => g b end.

Lemma split_lshift k m (a : 'I_k) : split (lshift m a) = inl a.
Proof. exact: (unsplitK (inl a)). Qed.
Lemma split_rshift k m (b : 'I_m) : split (rshift k b) = inr b.
Proof. exact: (unsplitK (inr b)). Qed.

Lemma join_bij n k m (f : 'I_k -> 'I_n) (g : 'I_m -> 'I_n) : complementary f g -> bijective (join_idx f g).
Proof.
case=> fi [gi [fg cover]]; apply: inj_card_bij.
- move=> i j; rewrite /join_idx -{2}(splitK i) -{2}(splitK j).
  case: (split i) => a; case: (split j) => b /=.
  + by move/fi => ->.
  + by move/fg.
  + by move/esym/fg.
  + by move/gi => ->.
- have /card_codom <- : injective (join_idx f g).
    move=> i j; rewrite /join_idx -{2}(splitK i) -{2}(splitK j).
    case: (split i) => a; case: (split j) => b /=.
    + by move/fi => ->. + by move/fg. + by move/esym/fg. + by move/gi => ->.
  apply: subset_leq_card; apply/subsetP => i _; apply/codomP.
  case: (cover i) => [[a <-]|[b <-]].
  + by exists (lshift m a); rewrite /join_idx split_lshift.
  + by exists (rshift k b); rewrite /join_idx split_rshift.
Qed.

Lemma mxsub_join n k m (f : 'I_k -> 'I_n) (g : 'I_m -> 'I_n) (A : 'M[F]_n) :
  mxsub (join_idx f g) (join_idx f g) A = block_mx (mxsub f f A) (mxsub f g A) (mxsub g f A) (mxsub g g A).
Proof.
apply/matrixP => i j; rewrite -(splitK i) -(splitK j).
by case: (split i) => a; case: (split j) => b; rewrite /= ?block_mxEul ?block_mxEur ?block_mxEdl ?block_mxEdr !mxE /join_idx ?split_lshift ?split_rshift.
Qed.

Lemma rowsub_join n k m p (f : 'I_k -> 'I_n) (g : 'I_m -> 'I_n) (v : 'M[F]_(n, p)) :
  rowsub (join_idx f g) v = col_mx (rowsub f v) (rowsub g v).
Proof.
apply/matrixP => i j; rewrite -(splitK i).
by case: (split i) => a; rewrite /= ?col_mxEu ?col_mxEd !mxE /join_idx ?split_lshift ?split_rshift.
Qed.

(* ---- the solution of a block system, seen from its first block ---- *)
Lemma block_eliminate k m p (A : 'M[F]_k) B C (D : 'M[F]_m) (v : 'M[F]_(k + m, p)) (y1 : 'M[F]_(k, p)) y2 :
  D \in unitmx -> block_mx A B C D *m v = col_mx y1 y2 ->
  (A - B *m invmx D *m C) *m usubmx v = y1 - B *m invmx D *m y2.
Proof.
move=> Du; rewrite -{1}[v]vsubmxK mul_block_col => /eq_col_mx [<- <-].
set v1 := usubmx v; set v2 := dsubmx v.
by rewrite mulmxDr -[B *m _ *m (D *m v2)]mulmxA mulKmx // mulmxBl !mulmxA opprD addrACA subrr addr0.
Qed.

Lemma block_inverse_ul k m (A : 'M[F]_k) B C (D : 'M[F]_m) :
  D \in unitmx -> block_mx A B C D \in unitmx ->
  let S := A - B *m invmx D *m C in
  S \in unitmx /\ ulsubmx (invmx (block_mx A B C D)) \in unitmx /\ invmx (ulsubmx (invmx (block_mx A B C D))) = S.
Proof.
move=> Du Mu S; set M := block_mx A B C D in Mu *.
have E : M *m lsubmx (invmx M) = col_mx 1%:M 0.
  by rewrite mulmx_lsub mulmxV // scalar_mx_block block_mxEh row_mxKl.
have := block_eliminate Du E; rewrite mulmx0 subr0 -/S => H.
have H' : S *m ulsubmx (invmx M) = 1%:M.
  by rewrite -H; congr (_ *m _); apply/matrixP => i j; rewrite !mxE.
have [Su _] := unit_of_right H'.
have [Vu ->] := unit_of_right (mulmx1C H').
by [].
Qed.
End Field.

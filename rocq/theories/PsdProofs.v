(* Positive (semi)definite matrices over an ordered field. *)
From mathcomp Require Import all_ssreflect all_algebra.
From Verif Require Import GpSpec.
Set Implicit Arguments.
Unset Strict Implicit.
Unset Printing Implicit Defensive.
Import Order.TTheory GRing.Theory Num.Theory.
Local Open Scope ring_scope.

Section Psd.
Variable R : realFieldType.

Lemma quad_congr n m (A : 'M[R]_n) (E : 'M[R]_(n, m)) x : quad (E^T *m A *m E) x = quad A (E *m x).
Proof. by rewrite /quad trmx_mul !mulmxA. Qed.
Lemma symmetric_congr n m (A : 'M[R]_n) (E : 'M[R]_(n, m)) : symmetric A -> symmetric (E^T *m A *m E).
Proof. by rewrite /symmetric => H; rewrite !trmx_mul trmxK H mulmxA. Qed.
Lemma psd_congr n m (A : 'M[R]_n) (E : 'M[R]_(n, m)) : psd A -> psd (E^T *m A *m E).
Proof. by case=> s H; split; [exact: symmetric_congr|move=> x; rewrite quad_congr]. Qed.
Lemma pd_congr n m (A : 'M[R]_n) (E : 'M[R]_(n, m)) (L : 'M[R]_(m, n)) :
  L *m E = 1%:M -> pd A -> pd (E^T *m A *m E).
Proof.
move=> LE [s H]; split; first exact: symmetric_congr.
move=> x x0; rewrite quad_congr; apply: H; apply: contra_neq x0 => Ex.
by rewrite -[x]mul1mx -LE -mulmxA Ex mulmx0.
Qed.

Lemma quadD n (A B : 'M[R]_n) x : quad (A + B) x = quad A x + quad B x.
Proof. by rewrite /quad mulmxDr mulmxDl mxE. Qed.
Lemma quad0 n (A : 'M[R]_n) : quad A 0 = 0.
Proof. by rewrite /quad mulmx0 mxE. Qed.
Lemma pd_psd n (A : 'M[R]_n) : pd A -> psd A.
Proof.
case=> s H; split => // x; case: (eqVneq x 0) => [->|x0]; first by rewrite quad0.
exact/ltW/H.
Qed.
Lemma symD n (A B : 'M[R]_n) : symmetric A -> symmetric B -> symmetric (A + B).
Proof. by rewrite /symmetric => sA sB; rewrite linearD /= sA sB. Qed.
Lemma psdD n (A B : 'M[R]_n) : psd A -> psd B -> psd (A + B).
Proof. by case=> sA HA [sB HB]; split; [exact: symD|move=> x; rewrite quadD addr_ge0]. Qed.
Lemma pdD n (A B : 'M[R]_n) : pd A -> psd B -> pd (A + B).
Proof.
case=> sA HA [sB HB]; split; [exact: symD|move=> x x0; rewrite quadD].
by rewrite ltr_paddr // HA.
Qed.
Lemma psdZ n (A : 'M[R]_n) c : 0 <= c -> psd A -> psd (c *: A).
Proof.
move=> c0 [s H]; split; first by rewrite /symmetric linearZ /= s.
by move=> x; rewrite /quad -scalemxAr -scalemxAl mxE mulr_ge0 // -/(quad _ _).
Qed.
Lemma psd0 n : psd (0 : 'M[R]_n).
Proof. by split; [rewrite /symmetric trmx0|move=> x; rewrite /quad mulmx0 mul0mx mxE]. Qed.

Lemma pd_unit n (A : 'M[R]_n) : pd A -> A \in unitmx.
Proof.
case=> s H; rewrite unitmxE unitfE; apply/negP => /det0P [v v0 vA].
have vt : v^T != 0 by apply: contra_neq v0 => E; rewrite -[v]trmxK E trmx0.
by have := H _ vt; rewrite /quad trmxK vA mul0mx mxE ltxx.
Qed.
Lemma pd_inv n (A : 'M[R]_n) : pd A -> pd (invmx A).
Proof.
move=> H; have Au := pd_unit H; case: (H) => s _.
have sI : (invmx A)^T = invmx A by rewrite trmx_inv s.
have -> : invmx A = (invmx A)^T *m A *m invmx A by rewrite sI mulVmx // mul1mx.
by apply: (@pd_congr _ _ _ _ A) => //; rewrite mulmxV.
Qed.

Lemma mxsub_congr n p (h : 'I_p -> 'I_n) (A : 'M[R]_n) :
  mxsub h h A = (colsub h 1%:M)^T *m A *m colsub h 1%:M.
Proof.
apply/matrixP => i j; rewrite !mxE (bigD1 (h j)) //= !mxE eqxx mulr1 (bigD1 (h i)) //= !mxE eqxx mul1r.
rewrite big1 => [|k /negbTE ki]; last by rewrite !mxE ki mul0r.
by rewrite addr0 big1 ?addr0 // => k /negbTE kj; rewrite !mxE kj mulr0.
Qed.
Lemma psd_mxsub n p (h : 'I_p -> 'I_n) (A : 'M[R]_n) : psd A -> psd (mxsub h h A).
Proof. by rewrite mxsub_congr; exact: psd_congr. Qed.
Lemma pd_mxsub n p (h : 'I_p -> 'I_n) (A : 'M[R]_n) : injective h -> pd A -> pd (mxsub h h A).
Proof.
move=> hi; rewrite mxsub_congr; apply: (@pd_congr _ _ _ _ (colsub h 1%:M)^T).
have := mxsub_congr h (1%:M : 'M[R]_n); rewrite mulmx1 => <-.
by apply/matrixP => i j; rewrite !mxE (inj_eq hi).
Qed.

Lemma quad_diag n (v : 'cV[R]_n) x : quad (diag_mx v^T) x = \sum_i v i 0 * x i 0 ^+ 2.
Proof.
rewrite /quad mul_mx_diag mxE; apply: eq_bigr => i _.
by rewrite !mxE mulrAC mulrC expr2.
Qed.
Lemma psd_diag n (v : 'cV[R]_n) : (forall i, 0 <= v i 0) -> psd (diag_mx v^T).
Proof.
move=> H; split; first by rewrite /symmetric tr_diag_mx.
by move=> x; rewrite quad_diag sumr_ge0 // => i _; rewrite mulr_ge0 // sqr_ge0.
Qed.
Lemma pd_diag n (v : 'cV[R]_n) : (forall i, 0 < v i 0) -> pd (diag_mx v^T).
Proof.
move=> H; split; first by rewrite /symmetric tr_diag_mx.
move=> x x0; rewrite quad_diag.
have [i xi] : exists i, x i 0 != 0.
  by apply/existsP; apply: contra_neqT x0; rewrite negb_exists => /forallP E; apply/colP => i; rewrite mxE; apply/eqP/negPn; rewrite E.
rewrite (bigD1 i) //= ltr_paddr //; last by rewrite mulr_gt0 // exprn_even_gt0.
by rewrite sumr_ge0 // => k _; rewrite mulr_ge0 ?sqr_ge0 // ltW.
Qed.

Lemma quad_delta n (A : 'M[R]_n) i : quad A (delta_mx i 0) = A i i.
Proof.
rewrite /quad mxE (bigD1 i) //= !mxE (bigD1 i) //= !mxE !eqxx mul1r mulr1.
rewrite big1 => [|k /negbTE ki]; last by rewrite !mxE ki mul0r.
by rewrite addr0 big1 ?addr0 // => k /negbTE ki; rewrite !mxE ki mulr0.
Qed.
Lemma psd_diag_ge0 n (A : 'M[R]_n) i : psd A -> 0 <= A i i.
Proof. by case=> _ H; rewrite -quad_delta. Qed.
Lemma pd_diag_gt0 n (A : 'M[R]_n) i : pd A -> 0 < A i i.
Proof.
case=> _ H; rewrite -quad_delta; apply: H.
by apply/negP => /eqP /colP /(_ i); rewrite !mxE !eqxx => /eqP; rewrite oner_eq0.
Qed.

(* Schur complements *)
Lemma schur_congr n m (A : 'M[R]_n) (B : 'M[R]_(n, m)) D :
  symmetric A -> A \in unitmx ->
  let E := col_mx (- (invmx A *m B)) 1%:M in
  E^T *m block_mx A B B^T D *m E = D - B^T *m invmx A *m B.
Proof.
move=> s Au E; rewrite /E tr_col_mx trmx1 linearN /= trmx_mul trmx_inv s.
rewrite mul_row_block !mul1mx mul_row_col mulmx1 mulNmx mulmxKV // addNr mul0mx add0r.
by rewrite mulNmx addrC.
Qed.
Lemma psd_schur n m (A : 'M[R]_n) (B : 'M[R]_(n, m)) D :
  A \in unitmx -> psd (block_mx A B B^T D) -> psd (D - B^T *m invmx A *m B).
Proof.
move=> Au H; have s : symmetric A.
  by case: (H); rewrite /symmetric tr_block_mx trmxK => /eq_block_mx [-> _ _ _] _.
by rewrite -schur_congr //; exact: psd_congr.
Qed.
Lemma pd_block n m (A : 'M[R]_n) (B : 'M[R]_(n, m)) D :
  pd (block_mx A B B^T D) -> pd A /\ pd D /\ pd (D - B^T *m invmx A *m B).
Proof.
move=> H.
have pA : pd A.
  have -> : A = (col_mx 1%:M 0)^T *m block_mx A B B^T D *m col_mx 1%:M 0.
    by rewrite tr_col_mx trmx1 trmx0 mul_row_block !mul1mx !mul0mx !addr0 mul_row_col mulmx1 mulmx0 addr0.
  apply: (@pd_congr _ _ _ _ (row_mx 1%:M 0)) => //.
  by rewrite mul_row_col mul1mx mul0mx addr0.
have pD : pd D.
  have -> : D = (col_mx 0 1%:M)^T *m block_mx A B B^T D *m col_mx 0 1%:M.
    by rewrite tr_col_mx trmx1 trmx0 mul_row_block !mul1mx !mul0mx !add0r mul_row_col mulmx1 mulmx0 add0r.
  apply: (@pd_congr _ _ _ _ (row_mx 0 1%:M)) => //.
  by rewrite mul_row_col mul1mx mul0mx add0r.
split => //; split => //.
rewrite -schur_congr ?(pd_unit pA) //; last by case: pA.
by apply: (@pd_congr _ _ _ _ (row_mx 0 1%:M)) => //; rewrite mul_row_col mul1mx mul0mx add0r.
Qed.
Lemma block_pd n m (A : 'M[R]_n) (B : 'M[R]_(n, m)) D :
  pd A -> pd (D - B^T *m invmx A *m B) -> pd (block_mx A B B^T D).
Proof.
move=> pA pS; have Au := pd_unit pA; case: (pA) => sA HA; case: (pS) => sS HS.
have sI : (invmx A)^T = invmx A by rewrite trmx_inv sA.
have sB : symmetric (B^T *m invmx A *m B) by rewrite /symmetric !trmx_mul trmxK sI mulmxA.
have sD : symmetric D.
  move: sS; rewrite /symmetric linearB /= sB => /(congr1 (fun z => z + B^T *m invmx A *m B)).
  by rewrite !subrK.
split; first by rewrite /symmetric tr_block_mx trmxK sA sD.
move=> x x0; set M := block_mx _ _ _ _.
set E := block_mx 1%:M (invmx A *m B) 0 1%:M.
have ME : M = E^T *m block_mx A 0 0 (D - B^T *m invmx A *m B) *m E.
  rewrite /E tr_block_mx !trmx1 trmx0 trmx_mul sI !mulmx_block.
  rewrite !mul1mx !mulmx1 !mul0mx !mulmx0 !addr0 ?add0r mulmxKV // mulmxA mulmxV // mul1mx.
  by rewrite mulmxA addrC subrK.
rewrite ME quad_congr -[E *m x]vsubmxK; set a := usubmx _; set b := dsubmx _.
have -> : quad (block_mx A 0 0 (D - B^T *m invmx A *m B)) (col_mx a b) = quad A a + quad (D - B^T *m invmx A *m B) b.
  by rewrite /quad tr_col_mx mul_row_block !mulmx0 addr0 add0r mul_row_col mxE.
case: (eqVneq b 0) => [b0|bn].
- have an : a != 0.
    apply: contra_neq x0 => a0; have Ex : E *m x = 0 by rewrite -[LHS]vsubmxK -/a -/b a0 b0 col_mx0.
    have Eu : E \in unitmx by rewrite unitmxE det_ublock !det1 mulr1 unitr1.
    by rewrite -[x](mulKmx Eu) Ex mulmx0.
  by rewrite b0 quad0 addr0 HA.
- by rewrite ltr_paddl ?HS //; apply: (pd_psd pA).2.
Qed.

(* explained covariance is positive semidefinite *)
Lemma psd_explained n m (A : 'M[R]_n) (C : 'M[R]_(n, m)) : pd A -> psd (C^T *m invmx A *m C).
Proof. by move=> pA; apply/psd_congr/pd_psd/pd_inv. Qed.
End Psd.

(* Lemmas on the block diagonal parts of SparseGpModel.v and on the QR contract. *)
From Coq Require Import Reals.
From mathcomp Require Import all_ssreflect all_algebra all_fingroup.
From Verif Require Import RealStruct GpModel GpSpec GpProofs PsdProofs LdltModel LdltSpec LdltProofs SparseGpModel SparseGpSpec MxTac.
Set Implicit Arguments.
Unset Strict Implicit.
Unset Printing Implicit Defensive.
Import Order.TTheory GRing.Theory Num.Theory.
Local Open Scope ring_scope.

(* ---- block diagonal matrices ---- *)
Fixpoint dense sizes : block_diag sizes -> 'M[R]_(sumn sizes) :=
  match sizes with
  | [::] => fun _ => 0
  | s :: rest => fun a => block_mx a.1 0 0 (dense a.2)
  end.
Fixpoint all_pd sizes : block_diag sizes -> Prop :=
  match sizes with
  | [::] => fun _ => True
  | s :: rest => fun a => pd a.1 /\ all_pd a.2
  end.
Fixpoint dense_Si sizes : block_ldlt sizes -> 'M[R]_(sumn sizes) :=
  match sizes with
  | [::] => fun _ => 0
  | s :: rest => fun f => block_mx (Si_mx f.1) 0 0 (dense_Si f.2)
  end.

Lemma mx0_eq m (A B : 'M[R]_(0, m)) : A = B.
Proof. by apply/matrixP => -[]. Qed.
Lemma block_diag_mul n m p (A : 'M[R]_n) (B : 'M[R]_m) (c : 'M[R]_(n + m, p)) :
  block_mx A 0 0 B *m c = col_mx (A *m usubmx c) (B *m dsubmx c).
Proof. by rewrite -{1}[c]vsubmxK mul_block_col !mul0mx addr0 add0r. Qed.
Lemma block_diag_mul2 n m (A C : 'M[R]_n) (B D : 'M[R]_m) :
  block_mx A 0 0 B *m block_mx C 0 0 D = block_mx (A *m C) 0 0 (B *m D).
Proof. by rewrite mulmx_block !mulmx0 !mul0mx !addr0 !add0r. Qed.
Lemma block_diag_tr n m (A : 'M[R]_n) (B : 'M[R]_m) : (block_mx A 0 0 B)^T = block_mx A^T 0 0 B^T.
Proof. by rewrite tr_block_mx !trmx0. Qed.
Lemma block_diag_inv n m (A : 'M[R]_n) (B : 'M[R]_m) : A \in unitmx -> B \in unitmx ->
  block_mx A 0 0 B \in unitmx /\ invmx (block_mx A 0 0 B) = block_mx (invmx A) 0 0 (invmx B).
Proof.
move=> Au Bu; apply: unit_of_right; rewrite block_diag_mul2 !mulmxV //.
by rewrite -scalar_mx_block.
Qed.

Lemma bdl_sqrt_solveE sizes (f : block_ldlt sizes) p (b : 'M[R]_(sumn sizes, p)) :
  bdl_sqrt_solve f b = dense_Si f *m b.
Proof.
elim: sizes f b => [|s rest IH] f b /=; first exact: mx0_eq.
by rewrite block_diag_mul IH sqrt_solveE.
Qed.

Section Ldlt.
Variable compute_ldlt : forall n, 'M[R]_n -> ldlt_state n.
Hypothesis hldlt : ldlt_contract compute_ldlt.

Lemma ldlt_pd n (A : 'M[R]_n) : pd A -> factors (compute_ldlt A) A /\ positive_D (compute_ldlt A).
Proof. by move=> Ap; have Af := hldlt Ap; split=> //; apply: (factors_pd Af). Qed.

Lemma dense_inv sizes (a : block_diag sizes) : all_pd a ->
  let f := bd_ldlt compute_ldlt a in
  dense a \in unitmx /\ invmx (dense a) = (dense_Si f)^T *m dense_Si f.
Proof.
elim: sizes a => [|s rest IH] a /=.
  by move=> _; apply: unit_of_right; apply: mx0_eq.
case=> [p1 p2]; have [f1 d1] := ldlt_pd p1; have [u1 e1] := A_inv f1 d1.
have [u2 e2] := IH _ p2; have [u e] := block_diag_inv u1 u2; split=> //.
by rewrite e e1 e2 block_diag_tr block_diag_mul2.
Qed.

Lemma bdl_solveE tol sizes (a : block_diag sizes) : all_pd a -> 0 <= tol ->
  let f := bd_ldlt compute_ldlt a in
  above_tolerance tol f ->
  forall p (b : 'M[R]_(sumn sizes, p)), bdl_solve tol f b = invmx (dense a) *m b.
Proof.
move=> + t0; elim: sizes a => [|s rest IH] a /=.
  by move=> _ _ p b; apply: mx0_eq.
case=> [p1 p2] [t1 t2] p b; have [f1 d1] := ldlt_pd p1; have [u1 e1] := A_inv f1 d1.
have [u2 _] := dense_inv p2; have [u e] := block_diag_inv u1 u2.
rewrite e block_diag_mul -IH //; congr (col_mx _ _).
apply: (proj2 (ldlt_solveE _ f1 _ t0)) => i; apply: (lt_le_trans (t1 i)); exact: ler_norm.
Qed.

Lemma bdl_log_determinantE sizes (a : block_diag sizes) : all_pd a ->
  let f := bd_ldlt compute_ldlt a in
  0 < \det (dense a) /\ bdl_log_determinant f = Some (Rpower.ln (\det (dense a))).
Proof.
elim: sizes a => [|s rest IH] a /=.
  by move=> _; rewrite det_mx00; split; [exact: ltr01 | rewrite (ln_1 : Rpower.ln (1 : R) = 0)].
case=> [p1 p2]; have [f1 d1] := ldlt_pd p1; have [q1 e1] := log_determinant_correct f1 d1.
have [q2 e2] := IH _ p2; rewrite det_ublock e1 e2; split; first exact: mulr_gt0.
congr Some; symmetry; apply: ln_mult; exact/RltP.
Qed.
End Ldlt.

(* ---- QR ---- *)
Section Qr.
Variables (m n : nat) (q : qr_result m n) (B : 'M[R]_(m, n)).
Hypothesis hq : qr_of q B.
Hypothesis hu : B^T *m B \in unitmx.
Let P : 'M[R]_n := perm_mx (qr_P q).
Lemma perm_orth : P *m P^T = 1%:M.
Proof. by rewrite /P tr_perm_mx -perm_mxM mulgV perm_mx1. Qed.
Lemma perm_orth' : P^T *m P = 1%:M.
Proof. by rewrite /P tr_perm_mx -perm_mxM mulVg perm_mx1. Qed.
Lemma qr_gram : (qr_R q)^T *m qr_R q = P^T *m (B^T *m B) *m P.
Proof.
case: hq => [Q [QQ [BP _]]].
rewrite -/P in BP.
have -> : P^T *m (B^T *m B) *m P = (B *m P)^T *m (B *m P) by rewrite trmx_mul !mulmxA.
by rewrite BP trmx_mul !mulmxA -[_ *m Q^T *m Q]mulmxA QQ mulmx1.
Qed.
Lemma qr_R_unit : qr_R q \in unitmx.
Proof.
have : (qr_R q)^T *m qr_R q \in unitmx.
  by rewrite qr_gram unitmx_mul unitmx_mul hu unitmx_tr /P !unitmx_perm.
by rewrite unitmx_mul => /andP [].
Qed.
Lemma qr_gram' : (qr_R q *m P^T)^T *m (qr_R q *m P^T) = B^T *m B.
Proof.
rewrite trmx_mul trmxK -!mulmxA [_ *m (_ *m P^T)]mulmxA qr_gram !mulmxA perm_orth mul1mx -!mulmxA.
by rewrite perm_orth mulmx1.
Qed.
Lemma qr_solveE y : (B^T *m B) *m qr_solve q y = B^T *m y.
Proof.
case: (hq) => [Q [QQ [BP [_ [_ S]]]]]; rewrite S -/P; rewrite -/P in BP.
have EB : B^T = P *m (qr_R q)^T *m Q^T.
  have -> : B = Q *m qr_R q *m P^T by rewrite -BP -mulmxA perm_orth mulmx1.
  by rewrite !trmx_mul trmxK !mulmxA.
have E1 : B *m (P *m (invmx (qr_R q) *m (Q^T *m y))) = Q *m (Q^T *m y).
  by rewrite mulmxA BP -mulmxA [qr_R q *m _]mulmxA mulmxV ?qr_R_unit // mul1mx.
rewrite -[in LHS]mulmxA E1 EB -!mulmxA; congr (_ *m (_ *m _)).
by rewrite [_ *m (Q *m _)]mulmxA QQ mul1mx.
Qed.
Lemma qr_sqrt_gram p (c : 'M[R]_(n, p)) :
  (qr_sqrt_solve (qr_R q) (qr_P q) c)^T *m qr_sqrt_solve (qr_R q) (qr_P q) c = c^T *m invmx (B^T *m B) *m c.
Proof.
have Ru := qr_R_unit.
have [_ ->] : B^T *m B \in unitmx /\ invmx (B^T *m B) = P *m (invmx (qr_R q) *m invmx (qr_R q)^T) *m P^T.
  apply: unit_of_right; rewrite -qr_gram' trmx_mul trmxK !mulmxA.
  rewrite -[_ *m P^T *m P]mulmxA perm_orth' mulmx1 -[_ *m qr_R q *m _]mulmxA mulmxV // mulmx1.
  by rewrite -[_ *m (qr_R q)^T *m _]mulmxA mulmxV ?unitmx_tr // mulmx1 perm_orth.
by rewrite /qr_sqrt_solve /qr_P_mx -/P !trmx_mul !trmxK trmx_inv trmxK !mulmxA.
Qed.
Lemma qr_log_det : 0 < \det (B^T *m B) ->
  (forall i, qr_R q i i != 0) /\ 2%:R * (\sum_i Rpower.ln `|qr_R q i i|) = Rpower.ln (\det (B^T *m B)).
Proof.
move=> d0; case: (hq) => [Q [_ [_ [up _]]]].
have dR : \det (qr_R q) = \prod_i qr_R q i i.
  rewrite -det_tr det_trig; last by apply/is_trig_mxP => i j ij; rewrite mxE up.
  by apply: eq_bigr => i _; rewrite mxE.
have dG : \det (B^T *m B) = \det (qr_R q) * \det (qr_R q).
  rewrite -qr_gram' !det_mulmx !det_tr det_mulmx det_tr.
  have d1 : \det P * \det P = 1 by rewrite -{2}det_tr -det_mulmx perm_orth det1.
  by rewrite mulrACA d1 mulr1.
have n0 : forall i, qr_R q i i != 0.
  move=> i; have := qr_R_unit; rewrite unitmxE dR unitfE; apply: contraNneq => e.
  by rewrite (bigD1 i) //= e mul0r.
split=> //.
have L : forall s : seq 'I_n, 0 < \prod_(i <- s) `|qr_R q i i| /\
    Rpower.ln (\prod_(i <- s) `|qr_R q i i|) = \sum_(i <- s) Rpower.ln `|qr_R q i i|.
  elim=> [|i s [IH1 IH2]]; first by rewrite !big_nil ltr01; split => //; exact: Rpower.ln_1.
  rewrite !big_cons mulr_gt0 ?normr_gt0 //; split => //.
  by rewrite -IH2; apply: Rpower.ln_mult; apply/RltP; rewrite ?normr_gt0.
have [L1 L2] := L (index_enum _).
have E : \det (B^T *m B) = \prod_i `|qr_R q i i| * \prod_i `|qr_R q i i|.
  by rewrite dG dR -!expr2 -normr_prod -normrX ger0_norm // sqr_ge0.
rewrite -L2 E mulr_natl mulr2n; symmetry.
by apply: Rpower.ln_mult; apply/RltP.
Qed.
End Qr.

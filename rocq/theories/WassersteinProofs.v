(* Proofs for WassersteinProps.v. *)
From Coq Require Import Reals Lra.
From Verif Require Import ExtRealModel DistanceModel DistanceProofs RadialModel.
From Verif Require Base ExtRealProofs.
From mathcomp Require Import all_ssreflect all_algebra.
From Verif Require Import RealStruct GpModel GpSpec PsdProofs GpExamples RealPsd SparseGpProofs2 ScoreSpec ScoreProofs WassersteinModel WassersteinSpec.
Set Implicit Arguments.
Unset Strict Implicit.
Unset Printing Implicit Defensive.
Import Order.TTheory GRing.Theory Num.Theory.
Local Open Scope ring_scope.

(* ---- matrices ---- *)
Lemma gram_diag n k (E : 'M[R]_(n, k)) i : (E *m E^T) i i = \sum_j E i j ^+ 2.
Proof. by rewrite mxE; apply: eq_bigr => j _; rewrite mxE expr2. Qed.
Lemma gram_eq0 n k (E : 'M[R]_(n, k)) : E *m E^T = 0 -> E = 0.
Proof.
move=> h; apply/matrixP => i j; have := gram_diag E i; rewrite h mxE => /esym/eqP.
rewrite psumr_eq0 => [/allP /(_ j (mem_index_enum _))|l _]; last exact: sqr_ge0.
by rewrite /= sqrf_eq0 mxE => /eqP.
Qed.
Lemma quad_col n (A : 'M[R]_n) (x : 'cV[R]_n) : quad A x = (x^T *m A *m x) 0 0. Proof. by []. Qed.
Lemma psd_null n (A : 'M[R]_n) (x : 'cV[R]_n) : psd A -> quad A x = 0 -> A *m x = 0.
Proof.
move=> [As Ap] q0; set z := A *m x; pose c := (z^T *m z) 0 0.
have c0 : 0 <= c by rewrite /c mxE; apply: sumr_ge0 => i _; rewrite mxE -expr2 sqr_ge0.
suff : c = 0.
  move=> e; have : z^T *m z = 0 by apply/matrixP => i j; rewrite (ord1 i) (ord1 j) -/c [LHS]e mxE.
  by rewrite -{2}[z]trmxK => /gram_eq0 /(congr1 trmx); rewrite trmxK trmx0.
have E t : quad A (z - t *: x) = quad A z - (t * c) *+ 2.
  have T : (z - t *: x)^T = z^T - t *: x^T by apply/matrixP => i j; rewrite !mxE.
  rewrite /quad T mulmxBl mulmxBr !mulmxBl -!scalemxAl -!scalemxAr.
  have -> : z^T *m A *m x = z^T *m z by rewrite -mulmxA.
  have -> : x^T *m A *m z = z^T *m z by rewrite /z trmx_mul As !mulmxA.
  have -> : x^T *m A *m x = 0 by apply/matrixP => i j; rewrite (ord1 i) (ord1 j) [RHS]mxE -q0.
  rewrite !scaler0 subr0 !mxE -/c mulr2n opprD addrA; congr (_ - _ - _); by rewrite /c mxE.
apply/eqP; rewrite eq_le c0 andbT leNgt; apply/negP => cp.
have := Ap (z - ((quad A z + 1) / (c *+ 2)) *: x); rewrite E.
have -> : ((quad A z + 1) / (c *+ 2) * c) *+ 2 = quad A z + 1.
  by rewrite -mulrnAr mulfVK // mulrn_eq0 /= gt_eqF.
by rewrite opprD addrA subrr sub0r oppr_ge0 ler10.
Qed.

(* every positive semidefinite matrix is a Gram matrix *)
Lemma psd_factor n (A : 'M[R]_n) : psd A -> exists k (G : 'M[R]_(n, k)), A = G *m G^T.
Proof.
elim: n A => [|n IH] A; first by move=> _; exists 0%N, 0; apply/matrixP => -[].
rewrite -add1n in A *; move=> Ap.
set a := ulsubmx A; set b := ursubmx A; set D := drsubmx A.
have Ae : A = block_mx a b b^T D.
  rewrite -[A]submxK -/a -/b -/D; congr block_mx; rewrite -[in LHS](proj1 Ap) /dlsubmx /b.
  by rewrite /dlsubmx /ursubmx; apply/matrixP => i j; rewrite !mxE.
have a0 : 0 <= a 0 0 by have := psd_diag_ge0 (lshift n 0) Ap; rewrite Ae block_mxEul.
have aE : a = (a 0 0)%:M by apply/matrixP => i j; rewrite (ord1 i) (ord1 j) !mxE.
case: (eqVneq (a 0 0) 0) => [az|an].
  have b0 : b = 0.
    have : quad A (col_mx 1%:M 0) = 0.
      rewrite Ae /quad tr_col_mx mul_row_block !trmx0 !mul0mx !addr0 mul_row_col mulmx0 addr0 trmx1 mul1mx mulmx1.
      by rewrite az.
    move/(psd_null Ap); rewrite Ae mul_block_col !mulmx0 !addr0 !mulmx1 => /(congr1 dsubmx).
    by rewrite col_mxKd linear0 => /(congr1 trmx); rewrite trmxK trmx0.
  have Dp : psd D.
    have -> : D = (col_mx 0 1%:M)^T *m A *m col_mx 0 1%:M; last exact: psd_congr.
    by rewrite Ae tr_col_mx mul_row_block mul_row_col !trmx0 !mul0mx !add0r trmx1 !mul1mx mulmx0 mulmx1 add0r.
  have [k [G e]] := IH D Dp; exists k, (col_mx 0 G).
  by rewrite tr_col_mx mul_col_row trmx0 !mul0mx mulmx0 Ae b0 trmx0 -e aE az; congr block_mx; apply/matrixP => i j; rewrite !mxE mul0rn.
have ap : 0 < a 0 0 by rewrite lt_def an a0.
have Pa : pd a by rewrite aE; apply: (@pd_scalar_mx).
have Sp : psd (D - b^T *m invmx a *m b) by apply: (@psd_schur _ 1 n a b D); [exact: pd_unit|rewrite Ae in Ap].
have [k [G e]] := IH _ Sp; pose r : R := R_sqrt.sqrt (a 0 0).
have rr : r * r = a 0 0 by apply: sqrt_sqrt; apply/RleP.
have rn : r != 0 by apply/eqP => r0; move: an; rewrite -rr r0 mul0r eqxx.
exists (1 + k)%N, (block_mx r%:M 0 (r^-1 *: b^T) G).
have T : (r^-1 *: b^T)^T = r^-1 *: b by apply/matrixP => i j; rewrite !mxE.
rewrite tr_block_mx mulmx_block !trmx0 !mul0mx !mulmx0 !addr0 tr_scalar_mx T.
rewrite [LHS]Ae; congr block_mx.
- by rewrite -scalar_mxM rr.
- by rewrite mul_scalar_mx scalerA (@mulfV R_fieldType) // scale1r.
- by rewrite mul_mx_scalar scalerA (@mulfV R_fieldType) // scale1r.
- rewrite -e aE invmx_scalar mul_mx_scalar -!scalemxAl -scalemxAr scalerA -invfM rr.
  by rewrite addrC subrK.
Qed.

(* ---- functions of a matrix ---- *)
Section Calculus.
Variables (n : nat) (V : 'M[R]_n).
Hypothesis VV : V^T *m V = 1%:M.
Definition sp (f : 'I_n -> R) : 'M[R]_n := V *m diag_mx (\row_i f i) *m V^T.
Lemma VVt : V *m V^T = 1%:M. Proof. exact: mulmx1C. Qed.
Lemma sp_tr f : (sp f)^T = sp f.
Proof. by rewrite /sp !trmx_mul trmxK tr_diag_mx mulmxA. Qed.
Lemma sp_mul f g : sp f *m sp g = sp (fun i => f i * g i).
Proof.
rewrite /sp !mulmxA -[_ *m V^T *m V]mulmxA VV mulmx1 -[V *m _ *m diag_mx _]mulmxA mulmx_diag.
by congr (_ *m diag_mx _ *m _); apply/matrixP => i j; rewrite !mxE.
Qed.
Lemma sp_eq f g : (forall i, f i = g i) -> sp f = sp g.
Proof. by move=> h; congr (_ *m diag_mx _ *m _); apply/matrixP => i j; rewrite !mxE h. Qed.
Lemma sp1 : sp (fun _ => 1) = 1%:M.
Proof. by rewrite /sp -[RHS]VVt; congr (_ *m _); rewrite -[RHS]mulmx1; congr (_ *m _); apply/matrixP => i j; rewrite !mxE. Qed.
Lemma sp_sub f g : sp f - sp g = sp (fun i => f i - g i).
Proof. by rewrite /sp -mulmxBl -mulmxBr; congr (_ *m _ *m _); apply/matrixP => i j; rewrite !mxE -mulrnBl. Qed.
Lemma sp_val f i : (V^T *m sp f *m V) i i = f i.
Proof. by rewrite /sp !mulmxA VV mul1mx -mulmxA VV mulmx1 !mxE eqxx mulr1n. Qed.
Lemma psd_sp f : (forall i, 0 <= f i) -> psd (sp f).
Proof.
move=> h; have -> : sp f = (V^T)^T *m diag_mx (\col_i f i)^T *m V^T.
  by rewrite trmxK /sp; congr (_ *m diag_mx _ *m _); apply/matrixP => i j; rewrite !mxE.
by apply: psd_congr; apply: psd_diag => i; rewrite mxE.
Qed.
Lemma sp_ge0 f i : psd (sp f) -> 0 <= f i.
Proof. by move=> h; rewrite -sp_val; apply: psd_diag_ge0; exact: psd_congr. Qed.
Lemma sp_trace f : \tr (sp f) = \sum_i f i.
Proof.
rewrite /sp mxtrace_mulC mulmxA VV mul1mx /mxtrace; apply: eq_bigr => i _.
by rewrite !mxE eqxx mulr1n.
Qed.
(* the pseudo inverse and the projection on the range *)
Variable s : 'I_n -> R.
Definition pinv := sp (fun i => (s i)^-1).
Definition proj := sp (fun i => s i / s i).
Lemma proj_r : sp s *m pinv = proj. Proof. exact: sp_mul. Qed.
Lemma proj_l : pinv *m sp s = proj. Proof. by rewrite sp_mul; apply: sp_eq => i; rewrite mulrC. Qed.
Lemma divK (x : R) : x / x * x = x.
Proof. by case: (eqVneq x 0) => [->|h]; [rewrite !mul0r|rewrite (@mulfVK R_fieldType)]. Qed.
Lemma divV (x : R) : x / x * x^-1 = x^-1.
Proof. by case: (eqVneq x 0) => [->|h]; [rewrite invr0 mulr0|rewrite (@mulfV R_fieldType) // mul1r]. Qed.
Lemma proj_s : proj *m sp s = sp s.
Proof. by rewrite sp_mul; apply: sp_eq => i; exact: divK. Qed.
Lemma s_proj : sp s *m proj = sp s.
Proof. by rewrite sp_mul; apply: sp_eq => i; rewrite mulrC divK. Qed.
Lemma proj_pinv : proj *m pinv = pinv.
Proof. by rewrite sp_mul; apply: sp_eq => i; exact: divV. Qed.
Lemma proj_idem : proj *m proj = proj.
Proof. by rewrite sp_mul; apply: sp_eq => i; rewrite mulrA divK. Qed.
Lemma proj_tr : proj^T = proj. Proof. exact: sp_tr. Qed.
Lemma pinv_tr : pinv^T = pinv. Proof. exact: sp_tr. Qed.
Lemma psd_coproj : psd (1%:M - proj).
Proof.
rewrite -sp1 sp_sub; apply: psd_sp => i.
by case: (eqVneq (s i) 0) => [->|h]; [rewrite mul0r subr0 ler01|rewrite (@mulfV R_fieldType) // subrr].
Qed.
(* a matrix with the same Gram matrix lies in the range *)
Lemma in_range k (G : 'M[R]_(n, k)) : G *m G^T = sp s *m sp s ->
  sp s *m (pinv *m G) = G /\ (pinv *m G) *m (pinv *m G)^T = proj.
Proof.
move=> h; split.
  rewrite mulmxA proj_r; apply/eqP; rewrite -subr_eq0; apply/eqP; apply: gram_eq0.
  have -> : proj *m G - G = (proj - 1%:M) *m G by rewrite mulmxBl mul1mx.
  have Z : (proj - 1%:M) *m sp s = 0 by rewrite mulmxBl proj_s mul1mx subrr.
  by rewrite trmx_mul mulmxA -[_ *m G *m G^T]mulmxA h [_ *m (sp s *m sp s)]mulmxA Z !mul0mx.
rewrite trmx_mul pinv_tr mulmxA -[_ *m G *m G^T]mulmxA h mulmxA proj_l -mulmxA proj_r.
exact: proj_idem.
Qed.
End Calculus.

Lemma spectralE n (v : 'cV[R]_n) V A : spectral v V A -> V^T *m V = 1%:M /\ A = sp V (fun i => v i 0).
Proof. by case=> h ->; split => //; congr (_ *m diag_mx _ *m _); apply/matrixP => i j; rewrite (ord1 i) !mxE. Qed.

(* ---- couplings ---- *)
Section Coupling.
Variables (n : nat) (A B N P : 'M[R]_n).
Variables (VN VP : 'M[R]_n) (sN sP : 'I_n -> R).
Hypothesis oN : VN^T *m VN = 1%:M.
Hypothesis oP : VP^T *m VP = 1%:M.
Hypothesis eN : N = sp VN sN.
Hypothesis eP : P = sp VP sP.
Hypothesis P0 : forall i, 0 <= sP i.
Hypothesis NN : N *m N = B.
Hypothesis PP : P *m P = N *m A *m N.

Lemma root_factor k (G : 'M[R]_(n, k)) : A = G *m G^T ->
  P *m (pinv VP sP *m (N *m G)) = N *m G /\ (pinv VP sP *m (N *m G)) *m (pinv VP sP *m (N *m G))^T = proj VP sP.
Proof.
move=> e; have := @in_range n VP oP sP k (N *m G); rewrite -eP PP trmx_mul.
have -> : N^T = N by rewrite eN sp_tr.
by rewrite e !mulmxA => /(_ erefl).
Qed.
Lemma coupling_bound (C : 'M[R]_n) : coupling A B C -> \tr C <= \tr P.
Proof.
move=> /psd_factor [k [G e]]; rewrite -[G]vsubmxK in e; set G1 := usubmx G in e; set G2 := dsubmx G in e.
move: e; rewrite tr_col_mx mul_col_row => /eq_block_mx [eA eC _ eB].
have [h1 u1] := root_factor eA; move: (pinv VP sP *m (N *m G1)) h1 u1 => U h1 u1.
have := @in_range n VN oN sN k G2; rewrite -eN NN -eB => /(_ erefl) [h2 u2]; move: (pinv VN sN *m G2) h2 u2 => W h2 u2.
have -> : \tr C = \sum_i sP i * ((VP^T *m U) *m (VP^T *m W)^T) i i.
  have -> : C = G1 *m (W^T *m N) by rewrite eC -h2 trmx_mul eN sp_tr.
  have -> : \tr (G1 *m (W^T *m N)) = \tr (P *m (U *m W^T)) by rewrite [G1 *m _]mulmxA mxtrace_mulC [N *m _]mulmxA -h1 -mulmxA.
  have -> : \tr (P *m (U *m W^T)) = \tr (diag_mx (\row_i sP i) *m (VP^T *m U *m (VP^T *m W)^T)).
    by rewrite eP /sp -!mulmxA mxtrace_mulC trmx_mul trmxK -!mulmxA.
  by rewrite /mxtrace; apply: eq_bigr => i _; rewrite mul_diag_mx !mxE.
rewrite eP sp_trace //; apply: ler_sum => i _; rewrite -[X in _ <= X]mulr1; apply: ler_wpmul2l => //.
have D k' (X : 'M[R]_(n, k')) V' s' : V'^T *m V' = 1%:M -> X *m X^T = proj V' s' -> ((VP^T *m X) *m (VP^T *m X)^T) i i <= 1.
  move=> o' x; rewrite trmx_mul trmxK mulmxA -[_ *m X *m X^T]mulmxA x -subr_ge0.
  have -> : 1 - (VP^T *m proj V' s' *m VP) i i = (VP^T *m (1%:M - proj V' s') *m VP) i i.
    by rewrite mulmxBr mulmxBl mulmx1 oP !mxE eqxx.
  by apply: psd_diag_ge0; apply: psd_congr; exact: psd_coproj.
have a1 := D _ _ _ _ oP u1; have a2 := D _ _ _ _ oN u2.
move: (VP^T *m U) (VP^T *m W) a1 a2 => a b a1 a2.
have : (a *m b^T) i i *+ 2 <= (a *m a^T) i i + (b *m b^T) i i.
  rewrite !gram_diag mxE -sumrMnl -big_split /=; apply: ler_sum => j _; rewrite mxE -subr_ge0.
  have -> : a i j ^+ 2 + b i j ^+ 2 - a i j * b i j *+ 2 = (a i j - b i j) ^+ 2 by rewrite sqrrB addrAC. exact: sqr_ge0.
move=> h; rewrite -(@ler_pmuln2r _ 2) //; apply: le_trans h _; rewrite mulr2n; exact: ler_add.
Qed.
Lemma coupling_attained : psd A -> exists C, coupling A B C /\ \tr C = \tr P.
Proof.
move=> /psd_factor [k [G eA]]; have [h u] := root_factor eA; move: (pinv VP sP *m (N *m G)) h u => U h u.
have Nt : N^T = N by rewrite eN sp_tr.
exists (G *m U^T *m N); split; rewrite /coupling.
  have -> : block_mx A (G *m U^T *m N) (G *m U^T *m N)^T B =
      col_mx G (N *m U) *m (col_mx G (N *m U))^T + block_mx 0 0 0 (N *m (1%:M - proj VP sP) *m N).
    rewrite tr_col_mx mul_col_row add_block_mx !addr0 !trmx_mul trmxK Nt; congr block_mx => //; rewrite ?mulmxA //.
    by rewrite -[N *m U *m U^T]mulmxA u mulmxBr mulmxBl mulmx1 NN addrC subrK.
  apply: psdD; first exact: psd_gram.
  have -> : block_mx 0 0 0 (N *m (1%:M - proj VP sP) *m N) = (row_mx 0 N)^T *m (1%:M - proj VP sP) *m row_mx 0 N :> 'M[R]_(n + n).
    by rewrite tr_row_mx Nt trmx0 mul_col_mx mul_col_row !mul0mx !mulmx0.
  by apply: psd_congr; exact: psd_coproj.
rewrite mxtrace_mulC mulmxA -h -mulmxA u eP s_proj //.
Qed.
End Coupling.

(* the cost of a coupling is the squared distance of its factors *)
Definition sqn n k (X : 'M[R]_(n, k)) : R := \sum_i \sum_j X i j ^+ 2.
Lemma sqn_ge0 n k (X : 'M[R]_(n, k)) : 0 <= sqn X.
Proof. by apply: sumr_ge0 => i _; apply: sumr_ge0 => j _; exact: sqr_ge0. Qed.
Lemma sqn_tr n k (X : 'M[R]_(n, k)) : sqn X = \tr (X *m X^T).
Proof. by apply: eq_bigr => i _; rewrite gram_diag. Qed.
Lemma sqn_mxvec n k (X : 'M[R]_(n, k)) : sqn X = \sum_l (mxvec X) 0 l ^+ 2.
Proof.
rewrite (reindex _ (curry_mxvec_bij _ _)) /= /sqn pair_bigA /=; apply: eq_bigr => -[i j] _.
by rewrite mxvecE.
Qed.
Definition nrm n k (X : 'M[R]_(n, k)) : R := R_sqrt.sqrt (sqn X).
Lemma nrm_triangle n k (X Y Z : 'M[R]_(n, k)) : nrm (X - Z) <= nrm (X - Y) + nrm (Y - Z).
Proof.
have E (U : 'M[R]_(n, k)) : nrm U = weighted_norm (const_mx 1) (mxvec U)^T.
  by congr R_sqrt.sqrt; rewrite sqn_mxvec; apply: eq_bigr => l _; rewrite !mxE mul1r.
rewrite !E; have -> : (mxvec (X - Z))^T = (mxvec (X - Y))^T + (mxvec (Y - Z))^T.
  by rewrite -linearD -linearD /= addrA subrK.
by apply: weighted_norm_triangle => i; rewrite mxE ler01.
Qed.
Lemma sqn_row n k l (X : 'M[R]_(n, k)) (Y : 'M[R]_(n, l)) : sqn (row_mx X Y) = sqn X + sqn Y.
Proof. by rewrite !sqn_tr tr_row_mx mul_row_col linearD. Qed.

Section Cost.
Variable n : nat.
Implicit Types a b c : joint R_fieldType n.
Lemma cost_tr a b (C : 'M[R]_n) : transport_cost a b C = sqn (j_mean a - j_mean b : 'cV[R]_n) + \tr ((j_cov a : 'M[R]_n) + j_cov b - 2%:R *: C).
Proof.
congr (_ + _); first by apply: eq_bigr => i _; rewrite big_ord1 !mxE.
rewrite /mxtrace; apply: eq_bigr => i _; rewrite !mxE mulr_natl mulr2n opprD addrA //.
Qed.
Lemma cost_gram a b k (X Y : 'M[R]_(n, k)) : j_cov a = X *m X^T -> j_cov b = Y *m Y^T ->
  transport_cost a b (X *m Y^T) = sqn (row_mx (j_mean a) X - row_mx (j_mean b) Y).
Proof.
move=> ea eb; rewrite cost_tr opp_row_mx add_row_mx sqn_row; congr (_ + _).
rewrite sqn_tr (_ : (X - Y)^T = X^T - Y^T); last by apply/matrixP => i j; rewrite !mxE.
rewrite mulmxBl !mulmxBr ea eb.
have T1 (P Q : 'M[R]_n) : \tr (P - Q) = \tr P - \tr Q by rewrite linearB.
rewrite !T1 mxtraceD mxtraceZ.
have -> : \tr (Y *m X^T) = \tr (X *m Y^T) by rewrite -mxtrace_tr trmx_mul trmxK.
by rewrite mulr_natl mulr2n; move: (\tr (X *m X^T)) (\tr (Y *m Y^T)) (\tr (X *m Y^T)) => u v w; Rring.
Qed.
Lemma gram_coupling k (X Y : 'M[R]_(n, k)) : coupling (X *m X^T) (Y *m Y^T) (X *m Y^T).
Proof.
rewrite /coupling trmx_mul trmxK; have -> : block_mx (X *m X^T) (X *m Y^T) (Y *m X^T) (Y *m Y^T) = col_mx X Y *m (col_mx X Y)^T.
  by rewrite tr_col_mx mul_col_row.
exact: psd_gram.
Qed.
Lemma coupling_gram (A B C : 'M[R]_n) : coupling A B C -> exists k (X Y : 'M[R]_(n, k)), A = X *m X^T /\ B = Y *m Y^T /\ C = X *m Y^T.
Proof.
move=> /psd_factor [k [G e]]; exists k, (usubmx G), (dsubmx G); move: e; rewrite -{1 2}[G]vsubmxK tr_col_mx mul_col_row.
by case/eq_block_mx.
Qed.
(* gluing two couplings of b; N is a root of its covariance *)
Variables (V : 'M[R]_n) (s : 'I_n -> R).
Hypothesis o : V^T *m V = 1%:M.
Lemma glue_half k (N : 'M[R]_n) (X Y : 'M[R]_(n, k)) : N = sp V s -> N *m N = Y *m Y^T ->
  exists (U : 'M[R]_(n, n)) (T : 'M[R]_(n, k)), U *m U^T + T *m T^T = X *m X^T /\ U *m N = X *m Y^T.
Proof.
move=> eN NN; have := @in_range n V o s k Y; rewrite -eN -NN => /(_ erefl) [h u].
move: (pinv V s *m Y) h u => W h u.
have Wp : proj V s *m W = W.
  have : (proj V s - 1%:M) *m W = 0; last by move=> z; apply/eqP; rewrite -subr_eq0 -[X in _ - X]mul1mx -mulmxBl z.
  apply: gram_eq0; have Z : (proj V s - 1%:M) *m proj V s = 0 by rewrite mulmxBl proj_idem // mul1mx subrr.
  by rewrite trmx_mul mulmxA -[_ *m W *m W^T]mulmxA u Z mul0mx.
exists (X *m W^T), (X *m (1%:M - W^T *m W)); split; last first.
  by rewrite -mulmxA -h trmx_mul; congr (_ *m (_ *m _)); rewrite eN sp_tr.
have I : (1%:M - W^T *m W) *m (1%:M - W^T *m W)^T = 1%:M - W^T *m W.
  have T : (1%:M - W^T *m W)^T = 1%:M - W^T *m W by apply/matrixP => i j; rewrite !mxE eq_sym; congr (_ - _); apply: eq_bigr => l _; rewrite !mxE mulrC.
  rewrite T mulmxBr mulmx1 mulmxBl mul1mx.
  by rewrite -[W^T *m W *m _]mulmxA [W *m _]mulmxA u Wp subrr subr0.
have -> : X *m (1%:M - W^T *m W) *m (X *m (1%:M - W^T *m W))^T = X *m (1%:M - W^T *m W) *m X^T.
  by rewrite trmx_mul mulmxA -[X *m _ *m (1%:M - W^T *m W)^T]mulmxA I.
by rewrite trmx_mul trmxK mulmxBr mulmx1 mulmxBl !mulmxA addrC subrK.
Qed.
End Cost.

Lemma glue n (V : 'M[R]_n) (s : 'I_n -> R) (a b c : joint R_fieldType n) (C D : 'M[R]_n) : V^T *m V = 1%:M -> sp V s *m sp V s = j_cov b ->
  coupling (j_cov a) (j_cov b) C -> coupling (j_cov b) (j_cov c) D ->
  exists E, coupling (j_cov a) (j_cov c) E /\
    R_sqrt.sqrt (transport_cost a c E) <= R_sqrt.sqrt (transport_cost a b C) + R_sqrt.sqrt (transport_cost b c D).
Proof.
move=> o SS /coupling_gram [k [X [Y [eA [eB eC]]]]] /coupling_gram [l [Y' [Z [eB' [eD eE]]]]].
have := glue_half o X erefl (etrans SS eB); have := glue_half o Z erefl (etrans SS eB').
move: (sp V s) SS (sp_tr V s) => N NN Nt [U' [T' [h1' h2']]] [U [T [h1 h2]]].
pose x := row_mx U (row_mx T (0 : 'M[R]_(n, l))); pose y := row_mx N (row_mx (0 : 'M[R]_(n, k)) (0 : 'M[R]_(n, l))).
pose z := row_mx U' (row_mx (0 : 'M[R]_(n, k)) T').
have gA : j_cov a = x *m x^T by rewrite /x !tr_row_mx !mul_row_col mul0mx addr0 h1.
have gB : j_cov b = y *m y^T by rewrite /y !tr_row_mx !mul_row_col !mul0mx !addr0 Nt NN.
have gD : j_cov c = z *m z^T by rewrite /z !tr_row_mx !mul_row_col !mul0mx add0r h1'.
have gC : C = x *m y^T by rewrite /x /y !tr_row_mx !mul_row_col !trmx0 !mulmx0 !addr0 Nt h2.
have gE : D = y *m z^T by rewrite /y /z !tr_row_mx !mul_row_col !mul0mx !addr0 eE -[N in RHS]Nt -trmx_mul h2' trmx_mul trmxK.
exists (x *m z^T); split; first by rewrite gA gD; exact: gram_coupling.
rewrite gC gE (cost_gram gA gD) (cost_gram gA gB) (cost_gram gB gD); exact: nrm_triangle.
Qed.

(* ---- properties of the minimal cost ---- *)
Lemma cost_ge0 n (a b : joint R_fieldType n) C : coupling (j_cov a) (j_cov b) C -> 0 <= transport_cost a b C.
Proof.
move=> /coupling_gram [k [X [Y [eA [eB ->]]]]]; rewrite (cost_gram eA eB); exact: sqn_ge0.
Qed.
Lemma sqn_eq0 n k (X : 'M[R]_(n, k)) : sqn X = 0 -> X = 0.
Proof.
move/eqP; rewrite psumr_eq0 => [/allP h|i _]; last by apply: sumr_ge0 => j _; exact: sqr_ge0.
apply/matrixP => i j; have := h i (mem_index_enum _); rewrite /= psumr_eq0 => [/allP /(_ j (mem_index_enum _))|l _]; last exact: sqr_ge0.
by rewrite /= sqrf_eq0 mxE => /eqP.
Qed.
Lemma cost_eq0 n (a b : joint R_fieldType n) C : coupling (j_cov a) (j_cov b) C -> transport_cost a b C = 0 ->
  j_mean a = j_mean b /\ j_cov a = j_cov b.
Proof.
move=> /coupling_gram [k [X [Y [eA [eB ->]]]]]; rewrite (cost_gram eA eB) => /sqn_eq0 /eqP.
by rewrite subr_eq0 => /eqP /eq_row_mx [e1 e2]; rewrite eA eB e2.
Qed.
Lemma cost_same n (a : joint R_fieldType n) : psd (j_cov a : 'M[R]_n) -> exists C, coupling (j_cov a) (j_cov a) C /\ transport_cost a a C = 0.
Proof.
move=> /psd_factor [k [G e]]; exists (G *m G^T); split; first by rewrite e; exact: gram_coupling.
rewrite (cost_gram e e) subrr /sqn big1 // => i _; rewrite big1 // => j _; by rewrite mxE expr0n.
Qed.
Lemma coupling_tr n (A B C : 'M[R]_n) : coupling A B C -> coupling B A C^T.
Proof.
move=> /coupling_gram [k [X [Y [-> [-> ->]]]]]; rewrite trmx_mul trmxK; exact: gram_coupling.
Qed.
Lemma cost_sym n (a b : joint R_fieldType n) C : transport_cost b a C^T = transport_cost a b C.
Proof.
congr (_ + _); apply: eq_bigr => i _; first by rewrite -sqrrN opprB.
by rewrite !mxE [(j_cov b : 'M[R]_n) i i + _]addrC.
Qed.

(* ---- square roots ---- *)
Lemma root_unique n (S T : 'M[R]_n) : psd S -> psd T -> S *m S = T *m T -> S = T.
Proof.
move=> Sp Tp e; pose D := S - T.
have Dt : D^T = D by rewrite /D linearB /= (proj1 Sp) (proj1 Tp).
have E : S *m D + D *m T = 0 by rewrite /D mulmxBr mulmxBl e addrC subrKA subrr.
have tr0 : \tr (D^T *m S *m D) + \tr (D^T *m T *m D) = 0.
  have := congr1 (fun X => \tr (D *m X)) E; rewrite mulmx0 mxtrace0 mulmxDr mxtraceD !mulmxA Dt => h.
  have q : \tr (D *m T *m D) = \tr (D *m D *m T) by rewrite mxtrace_mulC mulmxA.
  by rewrite q h.
have pS := psd_congr D Sp; have pT := psd_congr D Tp.
have ge X : psd X -> 0 <= \tr X :> R by move=> h; apply: sumr_ge0 => i _; exact: psd_diag_ge0.
have [zS zT] : \tr (D^T *m S *m D) = 0 /\ \tr (D^T *m T *m D) = 0.
  by move/eqP: tr0; rewrite paddr_eq0 ?ge // => /andP[/eqP -> /eqP ->].
have null X : psd X -> \tr (D^T *m X *m D) = 0 -> X *m D = 0.
  move=> Xp /eqP; rewrite psumr_eq0 => [/allP h|i _]; last by apply: psd_diag_ge0; exact: psd_congr.
  apply/matrixP => i j; have := h j (mem_index_enum _); rewrite /= => /eqP q.
  have : quad X (col j D) = 0 by rewrite -[RHS]q -quad_delta quad_congr colE.
  by move/(psd_null Xp)/matrixP/(_ i 0); rewrite colE mulmxA -colE !mxE.
have : D *m D^T = 0 by rewrite Dt {1}/D mulmxBl (null _ Sp zS) (null _ Tp zT) subrr.
by move/gram_eq0/eqP; rewrite subr_eq0 => /eqP.
Qed.

(* ---- principal_sqrt ---- *)
Lemma Rsqrt_mul (x : R) : 0 <= x -> R_sqrt.sqrt x * R_sqrt.sqrt x = x.
Proof. move/RleP => h; exact: R_sqrt.sqrt_sqrt. Qed.
Lemma Rsqrt_ge0 (x : R) : 0 <= R_sqrt.sqrt x.
Proof. apply/RleP; exact: R_sqrt.sqrt_pos. Qed.

Section Principal.
Variable eigs : forall n, 'M[R]_n -> 'cV[R]_n * 'M[R]_n.
Local Notation decomposed A := (spectral (eigs A).1 (eigs A).2 A).

Lemma principal_clamped n (A : 'M[R]_n) : (0 < n)%N -> (forall i, 0 <= clamp (eigs A).1 i 0) ->
  principal_sqrt eigs A = Base.Ok (Some (sp (eigs A).2 (fun i => R_sqrt.sqrt (clamp (eigs A).1 i 0)))).
Proof. by move=> n0 h; rewrite /principal_sqrt n0 /=; case: ifPn => // /forallP; case. Qed.
Lemma clamp_id n (v : 'cV[R]_n) : (forall i, 0 <= v i 0) -> clamp v = v.
Proof. by move=> h; rewrite /clamp; case: ifPn => // /forallP; case. Qed.
Lemma psd_values n (A : 'M[R]_n) : decomposed A -> psd A -> forall i, 0 <= (eigs A).1 i 0.
Proof. move=> /spectralE [o e] Ap i; apply: (sp_ge0 o (f := fun i => (eigs A).1 i 0)); by rewrite -e. Qed.

Lemma principal_psd n (A : 'M[R]_n) : (0 < n)%N -> decomposed A -> psd A ->
  exists V s, V^T *m V = 1%:M /\ (forall i, 0 <= s i) /\ principal_sqrt eigs A = Base.Ok (Some (sp V s)) /\ sp V s *m sp V s = A.
Proof.
move=> n0 d Ap; have h := psd_values d Ap; have [o e] := spectralE d.
exists (eigs A).2, (fun i => R_sqrt.sqrt ((eigs A).1 i 0)); split=> //; split; first by move=> i; exact: Rsqrt_ge0.
split; first by rewrite principal_clamped ?clamp_id.
rewrite sp_mul // [RHS]e; apply: sp_eq => i; exact: Rsqrt_mul.
Qed.
Lemma principal_root n (A : 'M[R]_n) : (0 < n)%N -> decomposed A -> psd A ->
  exists S, principal_sqrt eigs A = Base.Ok (Some S) /\ psd_root S A /\ forall T, psd_root T A -> T = S.
Proof.
move=> n0 d Ap; have [V [s [o [s0 [e ee]]]]] := principal_psd n0 d Ap.
exists (sp V s); split=> //; have p := psd_sp V s0; split=> // T [Tp Te].
apply: root_unique => //; by rewrite Te.
Qed.

(* the smallest positive coefficient *)
Lemma xgtb_fin (x y : R) : xgtb (XFin x) (xscale (IZR (-10)) (XFin y)) = (- 10%:R * y < x).
Proof.
rewrite /xgtb /=; have -> : - 10%:R * y = Rmult (IZR (-10)) y by rewrite RnatE; toR; rewrite /=; lra.
by apply/idP/idP => [/Rltb_true/RltP|/RltP/Rltb_true].
Qed.
Lemma xgtb_neg (x : R) : xgtb (XFin x) (xscale (IZR (-10)) XPos).
Proof. rewrite /xgtb /=; case: (ExtRealProofs.Rltb_spec 0 (IZR (-10))); [lra | case: (ExtRealProofs.Rltb_spec (IZR (-10)) 0) => //; lra]. Qed.
Lemma min_fold n (v : 'cV[R]_n) (l : seq 'I_n) (acc : xr) :
  (acc = XPos \/ exists m : R, 0 < m /\ acc = XFin m) ->
  let r := foldl (fun least i => std_min least (if 0 < v i 0 then XFin (v i 0) else XPos)) acc l in
  (r = XPos /\ acc = XPos /\ forall i, i \in l -> ~~ (0 < v i 0)) \/
  (exists m : R, r = XFin m /\ 0 < m /\ (acc = XFin m \/ exists2 i, i \in l & v i 0 = m) /\
     (forall x : R, acc = XFin x -> m <= x) /\ forall i, i \in l -> 0 < v i 0 -> m <= v i 0).
Proof.
elim: l acc => [|i l IH] acc h /=.
  case: h => [->|[m [m0 ->]]]; [by left | right; exists m; do 2!split=> //; split; [by left | split=> // x [->]; exact: lexx]].
set acc' := std_min _ _.
have [h' k] : (acc' = XPos \/ exists m : R, 0 < m /\ acc' = XFin m) /\
  ((acc' = XPos /\ acc = XPos /\ ~~ (0 < v i 0)) \/
   exists m : R, acc' = XFin m /\ (acc = XFin m \/ (v i 0 = m)) /\ (forall x : R, acc = XFin x -> m <= x) /\ (0 < v i 0 -> m <= v i 0)).
  rewrite /acc' /std_min; case: (boolP (0 < v i 0)) => vi; case: h => [->|[m [m0 ->]]] /=.
  - split; [by right; exists (v i 0) | right; exists (v i 0); split=> //; split; [by right | by split]].
  - case E : (Rltb _ _); [move/Rltb_true/RltP: E => lt | move/Rltb_false/RleP: E => le].
      split; [by right; exists (v i 0) | right; exists (v i 0); split=> //; split; [by right | split=> // x [<-]; exact: ltW]].
    by split; [by right; exists m | right; exists m; split=> //; split; [by left | split=> [x [<-]|]; rewrite ?(negbTE vi) //]].
  - by split; [by left | left].
  - by split; [by right; exists m | right; exists m; split=> //; split; [by left | split=> [x [<-]|]; rewrite ?(negbTE vi) //]].
case: (IH acc' h') => /= [[-> [e a]]|[m [-> [m0 [w [u a]]]]]].
  left; split=> //; case: k => [[_ [-> vi]]|[m [e2]]]; last by rewrite e in e2.
  split=> // j; rewrite inE => /orP[/eqP ->|] //; exact: a.
right; exists m; do 2!split=> //.
case: k => [[e [e2 vi]]|[m' [e [w' [u' a']]]]].
  split; first by right; case: w => [|[j jl vj]]; [rewrite e | exists j => //; rewrite inE jl orbT].
  split; first by rewrite e2.
  move=> j; rewrite inE => /orP[/eqP ->|]; [by rewrite (negbTE vi) | exact: a].
have mm := u _ e; split.
  case: w => [|[j jl vj]]; last by right; exists j => //; rewrite inE jl orbT.
  rewrite e => -[<-]; case: w' => [|vi]; [by left | by right; exists i => //; rewrite inE eqxx].
split; first by move=> x /u' h2; exact: le_trans h2.
move=> j; rewrite inE => /orP[/eqP ->|]; [move=> /a' h2; exact: le_trans h2 | exact: a].
Qed.
Lemma min_positiveE n (v : 'cV[R]_n) :
  (min_positive v = XPos /\ forall i, ~~ (0 < v i 0)) \/
  (exists m : R, min_positive v = XFin m /\ (exists2 i, 0 < v i 0 & v i 0 = m) /\ forall i, 0 < v i 0 -> m <= v i 0).
Proof.
case: (@min_fold n v (enum 'I_n) XPos (or_introl erefl)) => /= [[e [_ h]]|[m [e [m0 [w [_ h]]]]]].
  by left; split=> // i; apply: h; rewrite mem_enum.
right; exists m; split=> //; split; last by move=> i; apply: h; rewrite mem_enum.
case: w => // -[i _ vi]; exists i => //; by rewrite vi.
Qed.

Lemma clampE n (v : 'cV[R]_n) i : clamp v i 0 =
  if (v i 0 < 0) && [forall j, (0 < v j 0) ==> (- 10%:R * v j 0 < v i 0)] then 0 else v i 0.
Proof.
rewrite /clamp; case: ifPn => [/forallP/(_ i)|_]; first by rewrite leNgt => /negbTE ->.
rewrite mxE; case: ifPn => [/andP[-> h]|h]; case: ifPn => // h2.
- move/negP: h2 => []; apply/forallP => j; apply/implyP => vj.
  case: (min_positiveE v) => [[_ /(_ j)]|[m [e [_ /(_ j vj) le]]]]; first by rewrite vj.
  move: h; rewrite e xgtb_fin => h; apply: le_lt_trans h.
  by rewrite !mulNr ler_opp2 ler_pmul2l // ltr0n.
- move/andP: h2 => [v0 /forallP a]; move: h; rewrite v0 /=.
  case: (min_positiveE v) => [[-> _]|[m [e [[j vj mj] _]]]]; first by rewrite xgtb_neg.
  by rewrite e -mj xgtb_fin; have := a j; rewrite vj /= => ->.
Qed.

Lemma sp0 n (V : 'M[R]_n) : sp V (fun _ => 0) = 0.
Proof.
by rewrite /sp; have -> : diag_mx (\row__ 0) = 0 :> 'M[R]_n by [apply/matrixP => i j; rewrite !mxE mul0rn]; rewrite mulmx0 mul0mx.
Qed.
Lemma principal_negative n (A : 'M[R]_n) : (0 < n)%N -> (forall i, (eigs A).1 i 0 < 0) -> principal_sqrt eigs A = Base.Ok (Some 0).
Proof.
move=> n0 h; have c i : clamp (eigs A).1 i 0 = 0.
  rewrite clampE h /=; case: ifPn => // /forallP []; move=> j; by rewrite ltNge ltW.
rewrite principal_clamped // => [|i]; last by rewrite c.
by rewrite -[0 in RHS](sp0 (eigs A).2); congr (Base.Ok (Some _)); apply: sp_eq => i; rewrite c R_sqrt.sqrt_0.
Qed.
Lemma principal_jordan n (A : 'M[R]_n) : (0 < n)%N -> decomposed A ->
  (forall i j, (eigs A).1 i 0 < 0 -> 0 < (eigs A).1 j 0 -> - 10%:R * (eigs A).1 j 0 < (eigs A).1 i 0) ->
  exists S Q, principal_sqrt eigs A = Base.Ok (Some S) /\ psd S /\ psd Q /\ A = S *m S - Q /\ S *m S *m Q = 0.
Proof.
move=> n0 /spectralE []; move E : (eigs A).1 => v; move E2 : (eigs A).2 => V o e h.
have c i : clamp v i 0 = if v i 0 < 0 then 0 else v i 0.
  rewrite clampE; case: (boolP (v i 0 < 0)) => //= vi; case: ifPn => // /forallP []; move=> j; apply/implyP; exact: h.
have c0 i : 0 <= clamp v i 0 by rewrite c; case: ltP.
have SS : sp V (fun i => R_sqrt.sqrt (clamp v i 0)) *m sp V (fun i => R_sqrt.sqrt (clamp v i 0)) = sp V (fun i => clamp v i 0).
  by rewrite sp_mul //; apply: sp_eq => i; exact: Rsqrt_mul.
exists (sp V (fun i => R_sqrt.sqrt (clamp v i 0))), (sp V (fun i => if v i 0 < 0 then - v i 0 else 0)); split.
  by rewrite principal_clamped // E ?E2.
split; first by apply: psd_sp => i; exact: Rsqrt_ge0.
split; first by apply: psd_sp => i; case: ltP => // vi; rewrite oppr_ge0 ltW.
rewrite SS; split.
  rewrite sp_sub e; apply: sp_eq => i; rewrite c; case: ltP => _; by rewrite ?sub0r ?opprK ?subr0.
rewrite -[RHS](sp0 V).
rewrite sp_mul //; apply: sp_eq => i; rewrite c; case: ltP => _; by rewrite ?mul0r ?mulr0.
Qed.
Lemma principal_nan n (A : 'M[R]_n) i j : (eigs A).1 i 0 < 0 -> 0 < (eigs A).1 j 0 -> (eigs A).1 i 0 <= - 10%:R * (eigs A).1 j 0 ->
  principal_sqrt eigs A = Base.Ok None.
Proof.
move=> vi vj le; have n0 : (0 < n)%N by case: n A i j vi vj le => // ? [].
rewrite /principal_sqrt n0 /=; case: ifPn => // /forallP /(_ i); rewrite clampE vi /=.
case: ifPn => [/forallP /(_ j)|_]; first by rewrite vj /= ltNge le.
by rewrite leNgt vi.
Qed.

(* ---- wasserstein_2 ---- *)
Lemma conj_psd n (S A : 'M[R]_n) : psd S -> psd A -> psd (S *m A *m S).
Proof. by move=> Sp Ap; rewrite -{1}(proj1 Sp); exact: psd_congr. Qed.
Lemma wasserstein_opt n (a b : joint R_fieldType n) : (0 < n)%N -> psd (j_cov a : 'M[R]_n) -> psd (j_cov b : 'M[R]_n) -> decomposed (j_cov b) ->
  (forall S, psd_root S (j_cov b : 'M[R]_n) -> decomposed (S *m j_cov a *m S)) ->
  exists w, wasserstein_2 eigs a b = Base.Ok (XFin w) /\ least_cost a b w.
Proof.
move=> n0 Ap Bp dB dS; have [V [s [o [s0 [e ee]]]]] := principal_psd n0 dB Bp.
have Np := psd_sp V s0; have dP := dS _ (conj Np ee).
have [W [t [o' [t0 [e' ee']]]]] := principal_psd n0 dP (conj_psd Np Ap).
rewrite /wasserstein_2 e /= e' /=; eexists; split; first by [].
have cE C : transport_cost a b C = \sum_i (j_mean a i 0 - j_mean b i 0) ^+ 2 + (\tr (j_cov a : 'M[R]_n) + \tr (j_cov b : 'M[R]_n) - 2%:R * \tr C).
  rewrite cost_tr; congr (_ + _); first by apply: eq_bigr => i _; rewrite big_ord1 !mxE.
  by rewrite linearB linearD /= linearZ.
have wE : \tr ((j_cov a : 'M[R]_n) + j_cov b - 2%:R *: sp W t) = \tr (j_cov a : 'M[R]_n) + \tr (j_cov b : 'M[R]_n) - 2%:R * \tr (sp W t).
  by rewrite linearB linearD /= linearZ.
split.
  have [C [cC tC]] := coupling_attained o' erefl erefl ee ee' Ap.
  by exists C; split=> //; rewrite cE tC wE.
move=> C cC; have := coupling_bound o o' erefl erefl t0 ee ee' cC => le.
by rewrite cE wE ler_add2l ler_add2l ler_opp2 ler_pmul2l // ltr0n.
Qed.
End Principal.

Lemma least_unique n (a b : joint R_fieldType n) v w : least_cost a b v -> least_cost a b w -> v = w.
Proof.
move=> [[C [cC <-]] h] [[D [cD <-]] k]; apply/eqP; rewrite eq_le; apply/andP; split; [exact: h | exact: k].
Qed.
Lemma least_sym n (a b : joint R_fieldType n) w : least_cost a b w -> least_cost b a w.
Proof.
move=> [[C [cC <-]] h]; split; first by exists C^T; split; [exact: coupling_tr | exact: cost_sym].
by move=> D /coupling_tr cD; rewrite -(cost_sym b a D); apply: h.
Qed.
Lemma least_ge0 n (a b : joint R_fieldType n) w : least_cost a b w -> 0 <= w.
Proof. by move=> [[C [cC <-]] _]; exact: cost_ge0. Qed.
Lemma least_eq0 n (a b : joint R_fieldType n) w : psd (j_cov a : 'M[R]_n) -> least_cost a b w -> (w = 0 <-> a = b).
Proof.
move=> Ap [[C [cC <-]] h]; split.
  by move=> /(cost_eq0 cC); case: a b {Ap C cC h} => [? ?] [? ?] /= [-> ->].
move=> e; have [D [cD zD]] := cost_same Ap; apply/eqP; rewrite eq_le cost_ge0 // andbT.
by rewrite -zD; have := h D; rewrite -e in cC h *; apply.
Qed.
Lemma sqrt_le (x y : R) : x <= y -> R_sqrt.sqrt x <= R_sqrt.sqrt y.
Proof. move=> /RleP h; apply/RleP; exact: R_sqrt.sqrt_le_1_alt. Qed.

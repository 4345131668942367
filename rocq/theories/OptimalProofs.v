From mathcomp Require Import all_ssreflect all_algebra.
From Verif Require Import GpModel GpSpec GpProofs PsdProofs MxTac GpProofs2 OptimalSpec.
Set Implicit Arguments.
Unset Strict Implicit.
Unset Printing Implicit Defensive.
Import Order.TTheory GRing.Theory Num.Theory.
Local Open Scope ring_scope.

Lemma trD (V : zmodType) a b (A B : 'M[V]_(a, b)) : (A + B)^T = A^T + B^T.
Proof. by apply/matrixP=> i j; rewrite !mxE. Qed.
Lemma trN (V : zmodType) a b (A : 'M[V]_(a, b)) : (- A)^T = - A^T.
Proof. by apply/matrixP=> i j; rewrite !mxE. Qed.

Section Null.
Variable R : realFieldType.
Lemma gram_diag n k (E : 'M[R]_(n, k)) i : (E *m E^T) i i = \sum_j E i j ^+ 2.
Proof. by rewrite mxE; apply: eq_bigr => j _; rewrite mxE expr2. Qed.
Lemma gram_eq0 n k (E : 'M[R]_(n, k)) : E *m E^T = 0 -> E = 0.
Proof.
move=> h; apply/matrixP => i j; have := gram_diag E i; rewrite h mxE => /esym/eqP.
rewrite psumr_eq0 => [/allP /(_ j (mem_index_enum _))|l _]; last exact: sqr_ge0.
by rewrite /= sqrf_eq0 mxE => /eqP.
Qed.
Lemma quad_col n (A : 'M[R]_n) (x : 'cV[R]_n) : quad A x = (x^T *m A *m x) 0 0. Proof. by []. Qed.
Lemma psd_null n (A : 'M[R]_n) (x : 'cV[R]_n) : psd A -> quad A x = 0 -> A *m x = 0.
Proof.
move=> [As Ap] q0; set z := A *m x; pose c := (z^T *m z) 0 0.
have c0 : 0 <= c by rewrite /c mxE; apply: sumr_ge0 => i _; rewrite mxE -expr2 sqr_ge0.
suff : c = 0.
  move=> e; have : z^T *m z = 0 by apply/matrixP => i j; rewrite (ord1 i) (ord1 j) -/c [LHS]e mxE.
  by rewrite -{2}[z]trmxK => /gram_eq0 /(congr1 trmx); rewrite trmxK trmx0.
have E t : quad A (z - t *: x) = quad A z - (t * c) *+ 2.
  have T : (z - t *: x)^T = z^T - t *: x^T by apply/matrixP => i j; rewrite !mxE.
  rewrite /quad T mulmxBl mulmxBr !mulmxBl -!scalemxAl -!scalemxAr.
  have -> : z^T *m A *m x = z^T *m z by rewrite -mulmxA.
  have -> : x^T *m A *m z = z^T *m z by rewrite /z trmx_mul As !mulmxA.
  have -> : x^T *m A *m x = 0 by apply/matrixP => i j; rewrite (ord1 i) (ord1 j) [RHS]mxE -q0.
  rewrite !scaler0 subr0 !mxE -/c mulr2n opprD addrA; congr (_ - _ - _); by rewrite /c mxE.
apply/eqP; rewrite eq_le c0 andbT leNgt; apply/negP => cp.
have := Ap (z - ((quad A z + 1) / (c *+ 2)) *: x); rewrite E.
have -> : ((quad A z + 1) / (c *+ 2) * c) *+ 2 = quad A z + 1.
  by rewrite -mulrnAr mulfVK // mulrn_eq0 /= gt_eqF.
by rewrite opprD addrA subrr sub0r oppr_ge0 ler10.
Qed.
End Null.

Section Expectation.
Variable R : realFieldType.
Variables (m : nat) (w : 'I_m -> R).
Local Notation E := (expectation w).

Lemma expD a b (x y : 'I_m -> 'M[R]_(a, b)) : E (fun k => x k + y k) = E x + E y.
Proof. by rewrite /expectation -big_split; apply: eq_bigr => k _; rewrite scalerDr. Qed.
Lemma expN a b (x : 'I_m -> 'M[R]_(a, b)) : E (fun k => - x k) = - E x.
Proof. by rewrite /expectation -sumrN; apply: eq_bigr => k _; rewrite scalerN. Qed.
Lemma expB a b (x y : 'I_m -> 'M[R]_(a, b)) : E (fun k => x k - y k) = E x - E y.
Proof. by rewrite expD expN. Qed.
Lemma expMl a b c (A : 'M[R]_(a, b)) (x : 'I_m -> 'M[R]_(b, c)) : E (fun k => A *m x k) = A *m E x.
Proof. by rewrite /expectation mulmx_sumr; apply: eq_bigr => k _; rewrite scalemxAr. Qed.
Lemma expMr a b c (A : 'M[R]_(b, c)) (x : 'I_m -> 'M[R]_(a, b)) : E (fun k => x k *m A) = E x *m A.
Proof. by rewrite /expectation mulmx_suml; apply: eq_bigr => k _; rewrite scalemxAl. Qed.
Lemma expT a b (x : 'I_m -> 'M[R]_(a, b)) : E (fun k => (x k)^T) = (E x)^T.
Proof. by rewrite /expectation; apply/matrixP=> i j; rewrite mxE !summxE; apply: eq_bigr => k _; rewrite !mxE. Qed.
Lemma eq_exp a b (x y : 'I_m -> 'M[R]_(a, b)) : x =1 y -> E x = E y.
Proof. by move=> h; apply: eq_bigr => k _; rewrite h. Qed.
Hypothesis hw : probabilities w.
Lemma expC a b (A : 'M[R]_(a, b)) : E (fun _ => A) = A.
Proof. by rewrite /expectation -scaler_suml hw.2 scale1r. Qed.
Lemma exp_psd a (x : 'I_m -> 'M[R]_a) : (forall k, psd (x k)) -> psd (E x).
Proof.
move=> h; rewrite /expectation; elim/big_ind: _ => //; [exact: psd0|by move=> *; apply: psdD|].
by move=> k _; apply: psdZ; [exact: hw.1|exact: h].
Qed.
Lemma psd_outer a (x : 'cV[R]_a) : psd (x *m x^T).
Proof. have -> : x *m x^T = x^T^T *m 1%:M *m x^T by rewrite mulmx1 trmxK. apply: psd_congr; split; first exact: trmx1.
move=> y; rewrite /quad mulmx1 mxE; apply: sumr_ge0 => i _; rewrite mxE -expr2; exact: sqr_ge0. Qed.

Lemma exp9 a b (f1 f2 f3 f4 f5 f6 f7 f8 f9 : 'I_m -> 'M[R]_(a, b)) :
  E (fun k => f1 k - f2 k - f3 k + f4 k + f5 k - f6 k + f7 k - f8 k + f9 k) =
  E f1 - E f2 - E f3 + E f4 + E f5 - E f6 + E f7 - E f8 + E f9.
Proof. by rewrite expD expB expD expB expD expD !expB. Qed.
(* the error of an affine prediction *)
Lemma affine_error n p (y : 'I_m -> 'cV[R]_n) (z : 'I_m -> 'cV[R]_p) (b : 'cV[R]_p) (B : 'M[R]_(p, n)) :
  let c := E z - b - B *m E y in
  squared_error w z (fun k => b + B *m y k) =
  covariance_of w z z - B *m covariance_of w y z - (covariance_of w y z)^T *m B^T + B *m covariance_of w y y *m B^T + c *m c^T.
Proof.
move=> c; rewrite /squared_error /covariance_of.
set dy := fun k => y k - E y; set dz := fun k => z k - E z.
have y0 : E dy = 0 by rewrite expB expC subrr.
have z0 : E dz = 0 by rewrite expB expC subrr.
have e k : z k - (b + B *m y k) = dz k - B *m dy k + c.
  rewrite /dz /dy /c mulmxBr; move: (B *m y k) (B *m E y) => p1 p2; zgroup.
rewrite (eq_exp (y := fun k => dz k *m (dz k)^T - B *m (dy k *m (dz k)^T) - (dy k *m (dz k)^T)^T *m B^T + B *m (dy k *m (dy k)^T) *m B^T
  + dz k *m c^T - B *m (dy k) *m c^T + c *m (dz k)^T - c *m (dy k)^T *m B^T + c *m c^T)); last first.
  move=> k; rewrite e; move: (dz k) (dy k) => s t.
  rewrite !trD !trN !trmx_mul trmxK !mulmxDl !mulmxDr !mulNmx !mulmxN !opprK -!mulmxA.
  zgroup.
rewrite (exp9 (fun k => dz k *m (dz k)^T) (fun k => B *m (dy k *m (dz k)^T)) (fun k => (dy k *m (dz k)^T)^T *m B^T)
  (fun k => B *m (dy k *m (dy k)^T) *m B^T) (fun k => dz k *m c^T) (fun k => B *m dy k *m c^T) (fun k => c *m (dz k)^T)
  (fun k => c *m (dy k)^T *m B^T) (fun _ => c *m c^T)).
rewrite (expMl B (fun k => dy k *m (dz k)^T)) (expMr B^T (fun k => (dy k *m (dz k)^T)^T)) (expT (fun k => dy k *m (dz k)^T)).
rewrite (expMr B^T (fun k => B *m (dy k *m (dy k)^T))) (expMl B (fun k => dy k *m (dy k)^T)) (expMr c^T dz) (expMr c^T (fun k => B *m dy k)).
rewrite (expMl B dy) (expMl c (fun k => (dz k)^T)) (expT dz) (expMr B^T (fun k => c *m (dy k)^T)) (expMl c (fun k => (dy k)^T)) (expT dy).
by rewrite y0 z0 !(mulmx0, mul0mx, trmx0) expC !(subr0, addr0).
Qed.
End Expectation.

Lemma square_complete (F : fieldType) n p (K : 'M[F]_p) (A : 'M[F]_n) (C : 'M[F]_(n, p)) (B : 'M[F]_(p, n)) : symmetric A -> A \in unitmx ->
  K - B *m C - C^T *m B^T + B *m A *m B^T - (K - C^T *m invmx A *m C) = (B - C^T *m invmx A) *m A *m (B - C^T *m invmx A)^T.
Proof.
move=> s u; rewrite trD trN trmx_mul trmxK (symmetric_inv s) mulmxBl mulmxKV // mulmxBl !mulmxBr !mulmxA mulmxK //.
move: (B *m C) (C^T *m B^T) (B *m A *m B^T) (C^T *m invmx A *m C) => q1 q2 q3 q4; zgroup.
Qed.

Lemma colP_eq0 (F : fieldType) n p (M : 'M[F]_(n, p)) : (forall j, col j M = 0) -> M = 0.
Proof. by move=> h; apply/matrixP=> i j; move: (h j) => /matrixP /(_ i 0); rewrite !mxE. Qed.
Section Optimal.
Variable R : realFieldType.
Variables (m : nat) (w : 'I_m -> R).
Hypothesis hw : probabilities w.
Variables (X : Type) (cov : feature X -> feature X -> R) (mu : feature X -> R).
Variables (n : nat) (xs : 'I_n -> feature X) (v : 'cV[R]_n) (p : nat) (zs : 'I_p -> feature X).
Variables (y : 'I_m -> 'cV[R]_n) (z : 'I_m -> 'cV[R]_p).
Hypothesis hp : follows_prior w cov mu xs v zs y z.
Local Notation ms := (as_measurement (X:=X) \o xs).
Local Notation A := (cov_mx cov ms ms + diag v).
Hypothesis Au : A \in unitmx.
Local Notation C := (cov_mx cov xs zs).
Local Notation W := (C^T *m invmx A).

Lemma moments : expectation w y = mean_v mu ms /\ expectation w z = mean_v mu zs /\
  covariance_of w y y = \matrix_(i, j) (cov (as_measurement (xs i)) (as_measurement (xs j)) + (if i == j then v i 0 else 0)) /\
  covariance_of w y z = C /\ covariance_of w z z = cov_mx cov zs zs.
Proof. exact: hp. Qed.
Lemma AE : covariance_of w y y = A.
Proof.
have [_ [_ [-> _]]] := hp; apply/matrixP=> i j; rewrite !mxE /=; congr (_ + _).
by case: eqP => [->|_]; rewrite ?mulr1n ?mulr0n.
Qed.
Lemma A_psd : psd A.
Proof. by rewrite -AE; apply: exp_psd => // k; apply: psd_outer. Qed.
Lemma A_pd : pd A.
Proof.
have [s h] := A_psd; split=> // x x0; rewrite lt_neqAle h andbT eq_sym; apply: contra_neq x0 => /(psd_null A_psd) e.
by rewrite -[x](mulKmx Au) e mulmx0.
Qed.
Lemma predictE t : let P := predict_joint cov mu (fit cov mu xs (Marginal t v)) zs in
  j_mean P = mean_v mu zs + W *m (t - mean_v mu ms) /\ j_cov P = cov_mx cov zs zs - W *m C.
Proof.
have [/solves_inv [_ H] I] := fit_state (t := Marginal t v) (cov := cov) mu (xs := xs) Au.
rewrite (predict_joint_eq cov mu zs H) /=; split; last by [].
rewrite /ldlt addrC mulmxA; by [].
Qed.

Lemma calibrated : exists P : 'M[R]_p,
  (forall k, j_cov (predict_joint cov mu (fit cov mu xs (Marginal (y k) v)) zs) = P) /\
  squared_error w z (fun k => j_mean (predict_joint cov mu (fit cov mu xs (Marginal (y k) v)) zs)) = P /\
  expectation w (fun k => z k - j_mean (predict_joint cov mu (fit cov mu xs (Marginal (y k) v)) zs)) = 0.
Proof.
exists (cov_mx cov zs zs - W *m C); split; first by move=> k; case: (predictE (y k)).
have [hy [hz [_ [hyz hzz]]]] := moments; have [s _] := A_psd.
have e k : j_mean (predict_joint cov mu (fit cov mu xs (Marginal (y k) v)) zs) = (mean_v mu zs - W *m mean_v mu ms) + W *m y k.
  by case: (predictE (y k)) => -> _; rewrite mulmxBr addrAC -addrA.
split.
  rewrite /squared_error (eq_exp w (y := fun k => (z k - ((mean_v mu zs - W *m mean_v mu ms) + W *m y k)) *m (z k - ((mean_v mu zs - W *m mean_v mu ms) + W *m y k))^T)); last by move=> k; rewrite e.
  have := affine_error hw y z (mean_v mu zs - W *m mean_v mu ms) W; rewrite /squared_error => -> /=.
  rewrite hy hz.
  have -> : mean_v mu zs - (mean_v mu zs - W *m mean_v mu ms) - W *m mean_v mu ms = 0 by zgroup.
  rewrite trmx0 mulmx0 addr0 AE hyz hzz mulmxKV // trmx_mul trmxK.
  by rewrite (symmetric_inv s) subrK.
rewrite expB; apply/eqP; rewrite subr_eq0; apply/eqP.
rewrite hz (eq_exp w e) expD expC // expMl hy; by rewrite subrK.
Qed.

Lemma excess b B : let c := mean_v mu zs - b - B *m mean_v mu ms in
  squared_error w z (fun k => b + B *m y k) - (cov_mx cov zs zs - W *m C) = (B - W) *m A *m (B - W)^T + c *m c^T.
Proof.
move=> c; have [hy [hz [_ [hyz hzz]]]] := moments; have [s _] := A_psd.
rewrite (affine_error hw y z b B) /= hy hz -/c AE hyz hzz.
rewrite -(square_complete (cov_mx cov zs zs) C B s Au); move: (c *m c^T) (B *m C) (C^T *m B^T) (B *m A *m B^T) => q1 q2 q3 q4; zgroup.
Qed.
Lemma best b B t : psd (squared_error w z (fun k => b + B *m y k) - j_cov (predict_joint cov mu (fit cov mu xs (Marginal t v)) zs)).
Proof.
have [_ ->] := predictE t; rewrite excess; apply: psdD; last exact: psd_outer.
by rewrite -{1}[B - W]trmxK; apply: psd_congr; exact: A_psd.
Qed.
Lemma unique b B t : squared_error w z (fun k => b + B *m y k) = j_cov (predict_joint cov mu (fit cov mu xs (Marginal t v)) zs) ->
  forall s, b + B *m s = j_mean (predict_joint cov mu (fit cov mu xs (Marginal s v)) zs).
Proof.
have [_ ->] := predictE t => /eqP; rewrite -subr_eq0 excess => /eqP e s; have [-> _] := predictE s.
set c := mean_v mu zs - b - B *m mean_v mu ms in e.
have p1 : psd ((B - W) *m A *m (B - W)^T) by rewrite -{1}[B - W]trmxK; apply: psd_congr; exact: A_psd.
have zero M : psd M -> psd (- M) -> M = 0 :> 'M[R]_p.
  move=> pm [_ h]; apply/matrixP=> i j; have /(psd_null pm) : quad M (delta_mx j 0) = 0.
    by apply/eqP; rewrite eq_le pm.2 andbT; have := h (delta_mx j 0); rewrite /quad mulmxN mulNmx mxE oppr_ge0.
  by move=> /matrixP /(_ i 0); rewrite -colE !mxE.
have c0 : c = 0.
  apply: gram_eq0; apply: zero; first exact: psd_outer.
  by move/eqP: e; rewrite addrC addr_eq0 => /eqP ->; rewrite opprK.
have eB : B = W.
  move: e; rewrite c0 mul0mx addr0 => e; apply/eqP; rewrite -subr_eq0; apply/eqP/(can_inj (@trmxK _ _ _)); rewrite trmx0.
  apply/colP_eq0 => j; apply/eqP/negPn/negP => x0; have := A_pd.2 _ x0.
  by rewrite /quad tr_col trmxK colE mulmxA -!row_mul e mul0mx !mxE ltxx.
by rewrite eB mulmxBr; move/eqP: c0; rewrite /c eB; move: (W *m _) (W *m s) => q1 q2; rewrite subr_eq0 => /eqP <-; zgroup.
Qed.
End Optimal.

Section Merge.
Variable R : realFieldType.
Variables (X : Type) (cov : feature X -> feature X -> R) (mu : feature X -> R).
Variables (u : nat) (us : 'I_u -> feature X).
Local Notation ums := (as_measurement (X:=X) \o us).
Local Notation K := (cov_mx cov ums ums).
Hypothesis Kp : psd K.

Section One.
Variables (n : nat) (h : 'I_n -> 'I_u) (t : marginal R n).
Hypothesis vp : forall i, 0 < m_var t i 0.
Local Notation N := (diag (m_var t)).
Local Notation H := (rowsub h (1%:M : 'M[R]_u)).
Local Notation S := (cov_mx cov (as_measurement (X:=X) \o (us \o h)) (as_measurement (X:=X) \o (us \o h)) + N).
Local Notation Ni := (diag (\col_i (m_var t i 0)^-1)).
Local Notation J := (diag (\col_j precision h t j)).

Lemma SE : S = H *m K *m H^T + N.
Proof.
congr (_ + _); rewrite mul_rowsub_mx mul1mx.
have -> : rowsub h K *m H^T = colsub h (rowsub h K).
  by apply/matrixP=> i j; rewrite !mxE (bigD1 (h j)) //= big1 ?addr0 => [|k hk]; rewrite !mxE ?eqxx ?mulr1 // eq_sym (negPf hk) mulr0.
by apply/matrixP=> i j; rewrite !mxE.
Qed.
Lemma S_pd : pd S.
Proof.
rewrite SE addrC; apply: pdD; first by apply: pd_diag.
by rewrite -{1}[H]trmxK; apply: psd_congr.
Qed.
Lemma NiN : Ni *m N = 1%:M.
Proof.
rewrite /diag mulmx_diag -diag_const_mx; congr diag_mx; apply/rowP=> i; rewrite !mxE mulVf //.
by rewrite gt_eqF.
Qed.
Lemma JE : H^T *m Ni *m H = J.
Proof.
apply/matrixP=> a b; rewrite /diag mul_mx_diag !mxE /precision [in RHS]big_mkcond /= -sumrMnl; apply: eq_bigr => i _; rewrite !mxE.
case: (h i =P a) => [->|_]; last by rewrite !mul0r mul0rn.
by rewrite mul1r; case: (a == b); rewrite ?mulr1 ?mulr0 ?mulr1n ?mulr0n.
Qed.
Lemma weighted : H^T *m Ni *m m_mean t = \col_j weighted_sum h t j.
Proof.
apply/matrixP=> a b; rewrite (ord1 b) /diag mul_mx_diag !mxE /weighted_sum [in RHS]big_mkcond /=; apply: eq_bigr => i _; rewrite !mxE.
by case: (h i == a); rewrite ?mul1r ?mul0r // mulrC.
Qed.
Lemma push k (r : 'M[R]_(n, k)) : (1%:M + J *m K) *m (H^T *m invmx S *m r) = H^T *m Ni *m r.
Proof.
have Su := pd_unit S_pd; rewrite mulmxDl mul1mx -JE !mulmxA.
have -> : H^T *m Ni *m H *m K *m H^T = H^T *m Ni *m S - H^T.
  by rewrite SE mulmxDr -!(mulmxA (H^T)) NiN mulmx1 !mulmxA addrK.
rewrite mulmxBl mulmxK // mulmxBl addrC subrK; by [].
Qed.
Lemma predicted p (zs : 'I_p -> feature X) : let C := cov_mx cov us zs in
  predict_joint cov mu (fit cov mu (us \o h) t) zs =
  Joint (C^T *m (H^T *m invmx S *m (m_mean t - H *m mean_v mu ums)) + mean_v mu zs) (cov_mx cov zs zs - C^T *m (H^T *m invmx S *m (H *m C))).
Proof.
move=> C; have Su := pd_unit S_pd.
have [/solves_inv [_ I] _] := fit_state (t := t) (cov := cov) mu (xs := us \o h) Su.
rewrite (predict_joint_eq cov mu zs I) /=.
have -> : cov_mx cov (us \o h) zs = H *m C by rewrite mul_rowsub_mx mul1mx; apply/matrixP=> i j; rewrite !mxE.
have -> : mean_v mu (as_measurement (X:=X) \o (us \o h)) = H *m mean_v mu ums.
  by rewrite mul_rowsub_mx mul1mx; apply/matrixP=> i j; rewrite !mxE.
by rewrite trmx_mul /ldlt !mulmxA.
Qed.
Lemma Jp : psd J.
Proof. by apply: psd_diag => j; rewrite mxE; apply: sumr_ge0 => i _; rewrite invr_ge0 ltW. Qed.
Lemma IJK_unit : 1%:M + J *m K \in unitmx.
Proof.
rewrite unitmxE unitfE; apply/negP => /det0P [v v0 vA]; move/negP: v0; apply; apply/eqP/(can_inj (@trmxK _ _ _)); rewrite trmx0.
set x := v^T; have e : x = - (K *m (J *m x)).
  move/eqP: vA; rewrite mulmxDr mulmx1 addr_eq0 => /eqP /(congr1 trmx); rewrite trN !trmx_mul Kp.1 Jp.1 -/x mulmxA.
  by rewrite -mulmxA.
have q : quad K (J *m x) = 0.
  apply/eqP; rewrite eq_le Kp.2 andbT; have := Jp.2 x.
  by rewrite /quad {2}e mulmxN mxE oppr_ge0 trmx_mul Jp.1 !mulmxA.
by rewrite e (psd_null Kp q) oppr0.
Qed.
End One.

Lemma merged n (h : 'I_n -> 'I_u) (t : marginal R n) n' (h' : 'I_n' -> 'I_u) (t' : marginal R n') :
  (forall i, 0 < m_var t i 0) -> (forall i, 0 < m_var t' i 0) ->
  (forall j, precision h t j = precision h' t' j) -> (forall j, weighted_sum h t j = weighted_sum h' t' j) ->
  forall p (zs : 'I_p -> feature X),
  predict_joint cov mu (fit cov mu (us \o h) t) zs = predict_joint cov mu (fit cov mu (us \o h') t') zs.
Proof.
move=> vp vp' ep ew p zs; rewrite !predicted //.
have eJ : diag (\col_j precision h t j) = diag (\col_j precision h' t' j) by congr diag; apply/colP=> j; rewrite !mxE ep.
have eW : \col_j weighted_sum h t j = \col_j weighted_sum h' t' j by apply/colP=> j; rewrite !mxE ew.
have U := IJK_unit h vp; congr Joint.
- congr (_ *m _ + _); apply: (can_inj (mulKmx U)); rewrite push // eJ push //.
  by rewrite !mulmxBr !mulmxA !weighted !JE eW eJ.
- congr (_ - _ *m _); apply: (can_inj (mulKmx U)); rewrite push // eJ push //.
  by rewrite !mulmxA !JE eJ.
Qed.
End Merge.

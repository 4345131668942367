From Coq Require Import Reals.
From mathcomp Require Import all_ssreflect all_algebra all_fingroup.
From Verif Require Import NystromRing RealStruct GpModel GpSpec GpProofs GpProofs2 PsdProofs MxTac OptimalProofs LdltModel LdltSpec SparseGpModel SparseGpSpec
  SparseGpProofs SparseGpProofs2 SparseGpProofs3 SparseGpProofs4.
Set Implicit Arguments.
Unset Strict Implicit.
Unset Printing Implicit Defensive.
Import Order.TTheory GRing.Theory Num.Theory.
Local Open Scope ring_scope.

(* ---- norms ---- *)
Lemma oppmxE' (V : zmodType) m n (A : 'M[V]_(m, n)) i j : (- A) i j = - A i j.
Proof. by rewrite mxE. Qed.
Section Norms.
Variable F : realFieldType.
Definition nsq n (x : 'cV[F]_n) : F := \sum_i x i 0 ^+ 2.
Lemma nsq_ge0 n (x : 'cV[F]_n) : 0 <= nsq x.
Proof. by apply: sumr_ge0 => i _; exact: sqr_ge0. Qed.
Lemma nsqE n (x : 'cV[F]_n) : nsq x = quad 1%:M x.
Proof. by rewrite /quad mulmx1 mxE; apply: eq_bigr => i _; rewrite mxE expr2. Qed.
Lemma psd1 n : psd (1%:M : 'M[F]_n).
Proof. by split; [exact: trmx1|move=> x; rewrite -nsqE; exact: nsq_ge0]. Qed.
Definition form n (A : 'M[F]_n) (x y : 'cV[F]_n) : F := (x^T *m A *m y) 0 0.
Lemma formBl n (A : 'M[F]_n) x y z : form A (x - y) z = form A x z - form A y z.
Proof. by rewrite /form trD trN !mulmxBl !mxE. Qed.
Lemma formBr n (A : 'M[F]_n) x y z : form A x (y - z) = form A x y - form A x z.
Proof. by rewrite /form mulmxBr !mxE. Qed.
Lemma formZl n (A : 'M[F]_n) c x z : form A (c *: x) z = c * form A x z.
Proof. by rewrite /form linearZ /= -!scalemxAl !mxE. Qed.
Lemma formZr n (A : 'M[F]_n) c x z : form A x (c *: z) = c * form A x z.
Proof. by rewrite /form -!scalemxAr !mxE. Qed.
Lemma form_sym n (A : 'M[F]_n) x y : symmetric A -> form A y x = form A x y.
Proof.
move=> s; have -> : form A x y = (x^T *m A *m y)^T 0 0 by rewrite mxE.
by rewrite !trmx_mul trmxK s mulmxA.
Qed.
Lemma cauchy n (A : 'M[F]_n) (x y : 'cV[F]_n) : psd A -> form A x y ^+ 2 <= quad A x * quad A y.
Proof.
move=> Ap; have [s p] := Ap; set b := form A x y; set q := quad A y.
have [q0|q0] := eqVneq q 0.
  by rewrite q0 mulr0 /b /form -mulmxA (psd_null Ap q0) mulmx0 mxE expr0n.
have qp : 0 < q by rewrite lt_neqAle eq_sym q0 p.
have E : quad A (q *: x - b *: y) = q * (quad A x * q - b ^+ 2).
  rewrite -[quad A _]/(form A _ _) formBl !formBr !formZl !formZr (form_sym x y s) -/b -[form A x x]/(quad A x) -[form A y y]/q.
  by rewrite [q * b]mulrC subrr subr0 -mulrBr expr2 [q * quad A x]mulrC.
by have := p (q *: x - b *: y); rewrite E pmulr_rge0 // subr_ge0.
Qed.
Lemma entry_cauchy n (A : 'M[F]_n) i j : psd A -> A i j ^+ 2 <= A i i * A j j.
Proof.
move=> Ap; have := cauchy (delta_mx i 0) (delta_mx j 0) Ap; rewrite !quad_delta.
suff -> : form A (delta_mx i 0) (delta_mx j 0) = A i j by [].
by rewrite /form trmx_delta -rowE -colE !mxE.
Qed.
Lemma dot_cauchy n (x y : 'cV[F]_n) : (x^T *m y) 0 0 ^+ 2 <= nsq x * nsq y.
Proof. by have := cauchy x y (psd1 n); rewrite /form mulmx1 -!nsqE. Qed.

(* solving with a matrix that is at least s *)
Lemma inv_bound n (A : 'M[F]_n) s (b : 'cV[F]_n) : pd A -> 0 < s -> psd (A - s%:M) -> nsq (invmx A *m b) <= nsq b / s ^+ 2.
Proof.
move=> Ap s0 [_ As]; set x := invmx A *m b; rewrite ler_pdivl_mulr ?exprn_gt0 //.
have e : A *m x = b by rewrite /x mulKVmx // pd_unit.
have [->|x0] := eqVneq (nsq x) 0; first by rewrite mul0r nsq_ge0.
have xp : 0 < nsq x by rewrite lt_neqAle eq_sym x0 nsq_ge0.
have h1 : s * nsq x <= (x^T *m b) 0 0.
  rewrite -subr_ge0; have := As x; rewrite /quad mulmxBr mulmxBl -mulmxA e mul_mx_scalar -scalemxAl.
  suff -> : (x^T *m b - s *: (x^T *m x)) 0 0 = (x^T *m b) 0 0 - s * nsq x by [].
  by rewrite !mxE /nsq; congr (_ - s * _); apply: eq_bigr => i _; rewrite mxE expr2.
have h2 : (s * nsq x) ^+ 2 <= nsq x * nsq b.
  by apply: le_trans (dot_cauchy x b); rewrite ler_expn2r // ?nnegrE ?mulr_ge0 ?nsq_ge0 ?ltW // (lt_le_trans _ h1) // mulr_gt0.
rewrite -(ler_pmul2l xp) (le_trans _ h2) // exprMn [_ * s ^+ 2]mulrC [nsq x ^+ 2]expr2; rewrite mulrCA; by [].
Qed.
(* a matrix with small entries *)
Lemma entry_bound n (E : 'M[F]_n) v (x y : 'cV[F]_n) : (forall i j, E i j ^+ 2 <= v) ->
  form E x y ^+ 2 <= n%:R * n%:R * v * (nsq x * nsq y).
Proof.
move=> h; rewrite /form -mulmxA; apply: le_trans (dot_cauchy x (E *m y)) _.
rewrite mulrCA; apply: ler_wpmul2l; first exact: nsq_ge0.
have -> : n%:R * n%:R * v * nsq y = \sum_(i < n) (n%:R * v * nsq y) by rewrite sumr_const card_ord -[RHS]mulr_natl !mulrA.
apply: ler_sum => i _.
have -> : (E *m y) i 0 = ((row i E)^T^T *m y) 0 0 by rewrite trmxK -row_mul [RHS]mxE.
apply: le_trans (dot_cauchy _ _) _; apply: ler_wpmul2r; first exact: nsq_ge0.
have -> : n%:R * v = \sum_(j < n) v by rewrite sumr_const card_ord mulr_natl.
by apply: ler_sum => j _; rewrite !mxE.
Qed.
Lemma square_add (a b : F) : (a + b) ^+ 2 <= 2%:R * (a ^+ 2 + b ^+ 2).
Proof.
rewrite -subr_ge0; have -> : 2%:R * (a ^+ 2 + b ^+ 2) - (a + b) ^+ 2 = (a - b) ^+ 2; last exact: sqr_ge0.
rewrite sqrrD sqrrB mulr_natl mulr2n opprD; zgroup.
Qed.

(* perturbing the matrix and the left vector *)
Lemma perturbed n (A B : 'M[F]_n) (c d y : 'cV[F]_n) s v w : pd A -> pd B -> 0 < s -> psd (A - s%:M) -> psd (B - s%:M) ->
  (forall i j, (A - B) i j ^+ 2 <= v) -> (forall i, (c - d) i 0 ^+ 2 <= w) ->
  ((c^T *m invmx A *m y) 0 0 - (d^T *m invmx B *m y) 0 0) ^+ 2 <=
  2%:R * (n%:R * w / s ^+ 2 + n%:R * n%:R * v * nsq c / s ^+ 4) * nsq y.
Proof.
move=> Ap Bp s0 As Bs hv hw; have [sA _] := Ap; have Au := pd_unit Ap; have Bu := pd_unit Bp.
have -> : (c^T *m invmx A *m y) 0 0 - (d^T *m invmx B *m y) 0 0 =
    ((c - d)^T *m (invmx B *m y)) 0 0 + form (- (A - B)) (invmx A *m c) (invmx B *m y).
  rewrite /form trmx_mul (symmetric_inv sA) mulmxN mulNmx mulmxBr mulmxBl mulmxKV // -!mulmxA !(mulmxA B) mulmxV // mul1mx.
  rewrite trD trN mulmxDl mulNmx !addmxE' !oppmxE' !addmxE' !oppmxE' !mulmxA.
  by zgroup.
apply: le_trans (square_add _ _) _; rewrite -[2%:R * _ * _]mulrA ler_pmul2l ?ltr0n // mulrDl; apply: ler_add.
  apply: le_trans (dot_cauchy _ _) _; rewrite -mulrA [s ^- 2 * _]mulrC.
  apply: ler_pmul; rewrite ?nsq_ge0 //; last exact: inv_bound.
  have -> : n%:R * w = \sum_(i < n) w by rewrite sumr_const card_ord mulr_natl.
  by apply: ler_sum => i _; exact: hw.
apply: le_trans (entry_bound (v := v) _ _ _) _; first by move=> i j; rewrite mxE sqrrN; exact: hv.
have v0 : 0 <= n%:R * n%:R * v.
  clear -hv; case: n A B hv => [|n] A B hv; first by rewrite !mul0r.
  by apply: mulr_ge0; [rewrite mulr_ge0 ?ler0n | apply: le_trans (hv 0 0); exact: sqr_ge0].
have -> : n%:R * n%:R * v * nsq c / s ^+ 4 * nsq y = n%:R * n%:R * v * ((nsq c / s ^+ 2) * (nsq y / s ^+ 2)).
  rewrite -[4%N]/(2 + 2)%N exprD invfM -!mulrA; do 5 congr (_ * _); exact: mulrC.
apply: ler_wpmul2l => //; apply: ler_pmul; rewrite ?nsq_ge0 //; exact: inv_bound.
Qed.
Lemma nsqB n (c d : 'cV[F]_n) w : (forall i, (c - d) i 0 ^+ 2 <= w) -> nsq d <= 2%:R * (nsq c + n%:R * w).
Proof.
move=> hw; have -> : n%:R * w = \sum_(i < n) w by rewrite sumr_const card_ord mulr_natl.
rewrite /nsq -big_split mulr_sumr; apply: ler_sum => i _ /=.
have -> : d i 0 = c i 0 + - (c - d) i 0 by rewrite addmxE' oppmxE' opprB addrC subrK.
by apply: le_trans (square_add _ _) _; rewrite ler_pmul2l ?ltr0n // ler_add2l sqrrN.
Qed.
Lemma perturbed_quad n (A B : 'M[F]_n) (c d : 'cV[F]_n) s v w : pd A -> pd B -> 0 < s -> psd (A - s%:M) -> psd (B - s%:M) ->
  (forall i j, (A - B) i j ^+ 2 <= v) -> (forall i, (c - d) i 0 ^+ 2 <= w) ->
  ((c^T *m invmx A *m c) 0 0 - (d^T *m invmx B *m d) 0 0) ^+ 2 <=
  4%:R * ((n%:R * w / s ^+ 2 + n%:R * n%:R * v * nsq c / s ^+ 4) * nsq c + n%:R * w * (nsq c + n%:R * w) / s ^+ 2).
Proof.
move=> Ap Bp s0 As Bs hv hw; have [sB _] := Bp.
have -> : (c^T *m invmx A *m c) 0 0 - (d^T *m invmx B *m d) 0 0 =
    ((c^T *m invmx A *m c) 0 0 - (d^T *m invmx B *m c) 0 0) + ((c - d)^T *m (invmx B *m d)) 0 0.
  have -> : (d^T *m invmx B *m c) 0 0 = (c^T *m invmx B *m d) 0 0 by exact: (form_sym c d (symmetric_inv sB)).
  by rewrite trD trN mulmxDl mulNmx addmxE' oppmxE' !mulmxA; zgroup.
apply: le_trans (square_add _ _) _; rewrite -[4%N]/(2 * 2)%N natrM -mulrA ler_pmul2l ?ltr0n // mulrDr; apply: ler_add.
  by rewrite [X in _ <= X]mulrA; exact: perturbed.
have nw : nsq (c - d) <= n%:R * w.
  have -> : n%:R * w = \sum_(i < n) w by rewrite sumr_const card_ord mulr_natl.
  by apply: ler_sum => i _; exact: hw.
apply: le_trans (dot_cauchy _ _) _.
have -> : 2%:R * (n%:R * w * (nsq c + n%:R * w) / s ^+ 2) = n%:R * w * (2%:R * (nsq c + n%:R * w) / s ^+ 2).
  by rewrite -!mulrA [2%:R * _]mulrCA; congr (_ * _); rewrite mulrCA.
apply: ler_pmul; rewrite ?nsq_ge0 //; apply: le_trans (inv_bound d Bp s0 Bs) _.
by rewrite ler_pmul2r ?invr_gt0 ?exprn_gt0 //; exact: nsqB.
Qed.
End Norms.

(* ---- inducing points that include the observed features ---- *)
Section Nystrom.
Variable X : Type.
Variable cov : feature X -> feature X -> R.
Variable compute_ldlt : forall n, 'M[R]_n -> ldlt_state n.
Variable compute_qr : forall m n, 'M[R]_(m, n) -> qr_result m n.
Variables nugget nu : R.
Hypothesis hldlt : ldlt_contract compute_ldlt.
Hypothesis hqr : qr_contract compute_qr.
Hypothesis hk : psd_kernel cov.
Hypothesis hnu : 0 < nu.
Variables (k : nat) (u : 'I_k -> feature X).
Variables (n : nat) (xs : 'I_n -> feature X) (h : 'I_n -> 'I_k).
Hypothesis included : forall i y, cov (xs i) y = cov (u (h i)) y.
Local Notation M := (K_uu cov nu u).
Local Notation through_ := (through cov nu u).

Lemma rest_u : cov_mx cov u u - through_ u u = nu%:M - (nu ^+ 2) *: invmx M.
Proof.
have Mu := M_unit hk hnu u; rewrite /through.
have -> : cov_mx cov u u = M - nu%:M by rewrite /K_uu addrK.
rewrite [(M - nu%:M) *m invmx M]mulmxBl mulmxV // mul_scalar_mx [(1%:M - _) *m _]mulmxBl mul1mx -scalemxAl mulmxBr mulVmx // mul_mx_scalar.
rewrite scalerBr scalemx1 scalerA -expr2; zgroup.
Qed.
Lemma rest_diag i : cov (xs i) (xs i) - through_ xs xs i i <= nu.
Proof.
have -> : cov (xs i) (xs i) - through_ xs xs i i = (cov_mx cov u u - through_ u u) (h i) (h i).
  rewrite [RHS]addmxE' oppmxE'; congr (_ - _).
    by rewrite included (cov_sym hk) included mxE.
  rewrite /through; have e : cov_mx cov xs u = rowsub h (cov_mx cov u u) by apply/matrixP => a b; rewrite !mxE included.
  have e' : cov_mx cov u xs = colsub h (cov_mx cov u u).
    by apply/matrixP => a b; rewrite !mxE (cov_sym hk) included (cov_sym hk).
  by rewrite e e' !mul_rowsub_mx mulmx_colsub !mxE.
rewrite rest_u addmxE' oppmxE' mxE eqxx mulr1n mxE ger_addl oppr_le0 mulr_ge0 ?sqr_ge0 //.
by apply: psd_diag_ge0; apply: pd_psd; apply: pd_inv; exact: M_pd.
Qed.
Lemma rest_cross p (zs : 'I_p -> feature X) i a : (cov_mx cov xs zs - through_ xs zs) i a ^+ 2 <= nu * cov (zs a) (zs a).
Proof.
have U := unexplained_psd hk hnu u (concat_f xs zs).
have := entry_cauchy (lshift p i) (rshift n a) U.
have E l l' (q : 'I_l -> feature X) (r : 'I_l' -> feature X) b c : (cov_mx cov q r - through_ q r) b c = cov (q b) (r c) - through_ (fun _ : 'I_1 => q b) (fun _ : 'I_1 => r c) 0 0.
  rewrite addmxE' oppmxE' mxE; congr (_ - _); rewrite /through.
  have -> : cov_mx cov (fun _ : 'I_1 => q b) u = row b (cov_mx cov q u) by apply/matrixP => e f; rewrite !mxE.
  have -> : cov_mx cov u (fun _ : 'I_1 => r c) = col c (cov_mx cov u r) by apply/matrixP => e f; rewrite !mxE.
  by rewrite -!row_mul colE mulmxA -colE !mxE.
have R1 : concat_f xs zs (lshift p i) = xs i by rewrite /concat_f split_lshift.
have R2 : concat_f xs zs (rshift n a) = zs a by rewrite /concat_f split_rshift.
rewrite !E R1 R2 => H; apply: le_trans H _.
have D i' : cov (xs i') (xs i') - through_ (fun _ : 'I_1 => xs i') (fun _ : 'I_1 => xs i') 0 0 = cov (xs i') (xs i') - through_ xs xs i' i'.
  have <- : (cov_mx cov xs xs - through_ xs xs) i' i' = cov (xs i') (xs i') - through_ xs xs i' i' by rewrite addmxE' oppmxE' mxE.
  by rewrite E.
have P1 : 0 <= cov (xs i) (xs i) - through_ (fun _ : 'I_1 => xs i) (fun _ : 'I_1 => xs i) 0 0.
  by have := psd_diag_ge0 i (unexplained_psd hk hnu u xs); rewrite E.
have P2 : 0 <= cov (zs a) (zs a) - through_ (fun _ : 'I_1 => zs a) (fun _ : 'I_1 => zs a) 0 0.
  by have := psd_diag_ge0 a (unexplained_psd hk hnu u zs); rewrite E.
apply: ler_pmul => //; first by rewrite D; exact: rest_diag.
rewrite ger_addl oppr_le0 /through -[cov_mx cov (fun _ => zs a) u]trmxK (cov_tr hk).
by apply: psd_diag_ge0; apply: psd_congr; apply: pd_psd; apply: pd_inv; exact: M_pd.
Qed.
Lemma rest_entry i j : (cov (xs i) (xs j) - through_ xs xs i j) ^+ 2 <= nu ^+ 2.
Proof.
have U := unexplained_psd hk hnu u xs; have := entry_cauchy i j U; rewrite !addmxE' !oppmxE' !(mxE _ (fun _ _ => cov _ _)) => H.
have P a : 0 <= cov (xs a) (xs a) - through_ xs xs a a.
  by have := psd_diag_ge0 a U; rewrite addmxE' oppmxE' mxE.
apply: le_trans H _; rewrite expr2; apply: ler_pmul => //; exact: rest_diag.
Qed.
End Nystrom.

Section Close.
Variable X : Type.
Variable cov : feature X -> feature X -> R.
Variable mean_function : feature X -> R.
Variable compute_ldlt : forall n, 'M[R]_n -> ldlt_state n.
Variable compute_qr : forall m n, 'M[R]_(m, n) -> qr_result m n.
Variables nugget nu : R.
Hypothesis hldlt : ldlt_contract compute_ldlt.
Hypothesis hqr : qr_contract compute_qr.
Hypothesis hk : psd_kernel cov.
Hypothesis hnu : 0 < nu.
Hypothesis zero_mean : forall x, mean_function x = 0.
Variables (k : nat) (u : 'I_k -> feature X).
Variables (n : nat) (xs : 'I_n -> feature X) (h : 'I_n -> 'I_k) (t : marginal R_fieldType n) (groups : seq (seq 'I_n)).
Local Notation meas := (as_measurement (X := X) \o xs).
Hypothesis included : forall i y, cov (meas i) y = cov (u (h i)) y.
Hypothesis unwrapped : forall i y, cov (meas i) y = cov (xs i) y.
Hypothesis partition : groups_partition groups.
Variable s : R.
Hypothesis s0 : 0 < s.
Hypothesis floor : forall i, s < m_var t i 0 + nugget.
Variables (p : nat) (zs : 'I_p -> feature X).
Local Notation B := (pitc cov nu nugget u (same_group groups) meas (m_var t)).
Definition exact_t : marginal R_fieldType n := Marginal (m_mean t) (m_var t + const_mx nugget).
Local Notation A := (cov_mx cov meas meas + diag (m_var exact_t)).
Local Notation sparse := (sparse_predict_joint cov mean_function (sparse_fit_impl cov compute_ldlt compute_qr nugget nu groups u xs t) zs).
Local Notation exact := (predict_joint cov mean_function (fit cov mean_function xs exact_t) zs).

Lemma same_refl i : same_group groups i i.
Proof.
have : i \in flatten groups by rewrite (perm_mem partition) mem_enum.
by move=> /flattenP [g gg ig]; apply/hasP; exists g => //; rewrite ig.
Qed.
Lemma B_shift : B - s%:M = pitc cov nu (nugget - s) u (same_group groups) meas (m_var t).
Proof.
apply/matrixP => i j; rewrite !mxE; have [<-|ij] := eqVneq i j; last by rewrite mulr0n subr0.
by rewrite same_refl mulr1n -!addrA.
Qed.
Lemma B_pd : pd B /\ psd (B - s%:M).
Proof.
split; first by have [] := T_pd hldlt hk hnu u xs partition (fun i => lt_trans s0 (floor i)).
rewrite B_shift; apply: pd_psd.
have [|//] := @T_pd X cov compute_ldlt (nugget - s) nu hldlt hk hnu k u n xs t groups partition.
by move=> i; rewrite addrA subr_gt0.
Qed.
Lemma A_pd' : pd A /\ psd (A - s%:M).
Proof.
have e (c : R) : cov_mx cov meas meas + diag (m_var exact_t) - c%:M = diag_mx (\col_i (m_var t i 0 + nugget - c))^T + cov_mx cov meas meas.
  apply/matrixP => i j; rewrite !mxE; have [<-|ij] := eqVneq i j; last by rewrite !mulr0n addr0 add0r subr0.
  by rewrite !mulr1n -[LHS]addrA addrC.
split; last by rewrite e; apply: pd_psd; apply: pdD => //; apply: pd_diag => i; rewrite mxE subr_gt0.
have := e 0; rewrite raddf0 subr0 => ->; apply: pdD => //; apply: pd_diag => i; rewrite mxE subr0; exact: lt_trans (floor i).
Qed.
Lemma AB_entries i j : (A - B) i j ^+ 2 <= nu ^+ 2.
Proof.
rewrite addmxE' oppmxE' addmxE' [cov_mx _ _ _ _ _]mxE [diag _ _ _]mxE [pitc _ _ _ _ _ _ _ _ _]mxE.
case: ifP => [_|ns].
  have [<-|ij] := eqVneq i j; last by rewrite mulr0n !addr0 subrr expr0n sqr_ge0.
  by rewrite !mxE mulr1n subrr expr0n sqr_ge0.
have ij : i != j by apply/eqP => e; move: ns; rewrite e same_refl.
by rewrite (negbTE ij) mulr0n addr0; exact: rest_entry.
Qed.
Lemma cd_entries a i : (col a (cov_mx cov meas zs) - col a (through cov nu u meas zs)) i 0 ^+ 2 <= nu * cov (zs a) (zs a).
Proof.
have -> : col a (cov_mx cov meas zs) - col a (through cov nu u meas zs) = col a (cov_mx cov meas zs - through cov nu u meas zs).
  by apply/matrixP => l j; rewrite !addmxE' !oppmxE' [RHS]mxE addmxE' oppmxE'; congr (_ - _); rewrite mxE.
by rewrite mxE; exact: rest_cross.
Qed.
Lemma through_tr : through cov nu u zs meas = (through cov nu u meas zs)^T.
Proof. have [sM _] := M_pd hk hnu u. by rewrite /through !trmx_mul (symmetric_inv sM) !(cov_tr hk) mulmxA. Qed.
Lemma both_forms :
  j_mean exact = (cov_mx cov meas zs)^T *m invmx A *m m_mean t /\ j_mean sparse = (through cov nu u meas zs)^T *m invmx B *m m_mean t /\
  j_cov exact = cov_mx cov zs zs - (cov_mx cov meas zs)^T *m invmx A *m cov_mx cov meas zs /\
  j_cov sparse = cov_mx cov zs zs - (through cov nu u meas zs)^T *m invmx B *m through cov nu u meas zs.
Proof.
have [Ap As] := A_pd'; have [Bp Bs] := B_pd; have Au := pd_unit Ap.
have [C _] := history_posterior mean_function hldlt hqr hk hnu zs (history_fit cov compute_ldlt compute_qr nu 0 u xs partition (fun i => lt_trans s0 (floor i))).
have z0 q (ws : 'I_q -> feature X) : mean_v mean_function ws = 0 by apply/matrixP => i j; rewrite !mxE zero_mean.
rewrite z0 in C; have [Bsym _] := Bp; have [-> ->] := (conditional_formula _ _ _ _ _ _ _ (pd_unit Bp) Bsym).1 C.
have [sol _] := fit_state mean_function (t := exact_t) Au; have [_ hs] := (solves_inv _ _).1 sol.
rewrite (predict_joint_eq cov mean_function zs hs) /= !z0 !subr0 addr0 add0r -[ldlt _ _]/(invmx A *m m_mean t).
have e1 : cov_mx cov xs zs = cov_mx cov meas zs by apply/matrixP => i j; rewrite !mxE unwrapped.
by rewrite e1 through_tr mulmxA trmxK.
Qed.
Lemma entryE m q r (P : 'M[R]_(m, q)) (Q : 'M[R]_m) (S : 'M[R]_(m, r)) a b : (P^T *m Q *m S) a b = ((col a P)^T *m Q *m col b S) 0 0.
Proof. by rewrite tr_col -!row_mul [col b S]colE mulmxA -colE !mxE. Qed.
Lemma mean_close a : (j_mean exact a 0 - j_mean sparse a 0) ^+ 2 <=
  2%:R * (n%:R * (nu * cov (zs a) (zs a)) / s ^+ 2 +
          n%:R * n%:R * nu ^+ 2 * (\sum_i cov (meas i) (zs a) ^+ 2) / s ^+ 4) * (\sum_i m_mean t i 0 ^+ 2).
Proof.
have [Ap As] := A_pd'; have [Bp Bs] := B_pd; have [-> [-> _]] := both_forms.
have c0 (y : 'cV[R]_n) : col 0 y = y by apply/matrixP => i j; rewrite !mxE (ord1 j).
rewrite (entryE (cov_mx cov meas zs)) (entryE (through cov nu u meas zs)) c0; have -> : \sum_i cov (meas i) (zs a) ^+ 2 = nsq (col a (cov_mx cov meas zs)) by apply: eq_bigr => i _; rewrite !mxE.
apply: perturbed => //; [exact: AB_entries | exact: cd_entries].
Qed.
Lemma cov_close a : (j_cov sparse a a - j_cov exact a a) ^+ 2 <=
  4%:R * ((n%:R * (nu * cov (zs a) (zs a)) / s ^+ 2 + n%:R * n%:R * nu ^+ 2 * (\sum_i cov (meas i) (zs a) ^+ 2) / s ^+ 4) * (\sum_i cov (meas i) (zs a) ^+ 2) +
          n%:R * (nu * cov (zs a) (zs a)) * (\sum_i cov (meas i) (zs a) ^+ 2 + n%:R * (nu * cov (zs a) (zs a))) / s ^+ 2).
Proof.
have [Ap As] := A_pd'; have [Bp Bs] := B_pd; have [_ [_ [-> ->]]] := both_forms.
rewrite !addmxE' !oppmxE' (entryE (cov_mx cov meas zs)) (entryE (through cov nu u meas zs)); have -> : \sum_i cov (meas i) (zs a) ^+ 2 = nsq (col a (cov_mx cov meas zs)) by apply: eq_bigr => i _; rewrite !mxE.
set q := cov_mx cov zs zs a a; set x := (_ *m _) 0 0; set y := (_ *m _) 0 0; have -> : q - x - (q - y) = y - x by zgroup.
apply: perturbed_quad => //; [exact: AB_entries | exact: cd_entries].
Qed.
End Close.

(* ---- letting the nugget go to 0 ---- *)
Lemma common_floor n (f : 'I_n -> R) : (forall i, 0 < f i) -> exists2 s : R, 0 < s & forall i, s < f i.
Proof.
elim: n f => [|n IH] f fp; first by exists 1 => [|[]]; [exact: ltr01|].
have [s s0 sf] := IH (fun i => f (lift ord0 i)) (fun i => fp _).
have h0 : 0 < f ord0 / 2%:R < f ord0.
  by rewrite divr_gt0 ?ltr0n //= ltr_pdivr_mulr ?ltr0n // ltr_pmulr // ltr1n.
move/andP: h0 => [h0 h1]; exists (Num.min s (f ord0 / 2%:R)); first by rewrite lt_minr s0.
by move=> i; case: (unliftP ord0 i) => [j ->|->]; rewrite lt_minl ?sf // h1 orbT.
Qed.
Lemma small_bound (K e : R) : 0 <= K -> 0 < e -> exists2 v, 0 < v <= 1 & forall nu, 0 < nu < v -> nu * K < e ^+ 2.
Proof.
move=> K0 e0; have e2 : 0 < e ^+ 2 by rewrite exprn_gt0.
have K1 : 0 < K + 1 by rewrite ltr_paddl // ltr01.
exists (Num.min 1 (e ^+ 2 / (K + 1))); first by rewrite lt_minr ltr01 divr_gt0 // le_minl lexx.
move=> nu /andP [n0]; rewrite lt_minr => /andP [_]; rewrite ltr_pdivl_mulr // => H; apply: le_lt_trans H.
by rewrite ler_pmul2l // ler_addl ler01.
Qed.
Lemma abs_lt (x e B : R) : 0 < e -> x ^+ 2 <= B -> B < e ^+ 2 -> `|x| < e.
Proof.
move=> e0 h1 h2; rewrite -(ltr_pexpn2r (n := 2)) // ?nnegrE ?normr_ge0 ?ltW //.
by rewrite real_normK ?num_real //; exact: le_lt_trans h2.
Qed.
Lemma poly_small (nu a b c : R) : 0 <= a -> 0 <= b -> 0 < nu <= 1 -> c = a * nu + b * nu ^+ 2 -> c <= nu * (a + b).
Proof.
move=> a0 b0 /andP [n0 n1] ->; rewrite mulrDr [a * nu]mulrC ler_add2l mulrC ler_wpmul2r // expr2 ger_pmulr //.
Qed.

Lemma mean_identity (q N P C i2 i4 Y nu : R) :
  q * (N * (nu * P) * i2 + N * N * nu ^+ 2 * C * i4) * Y = q * (N * P * i2) * Y * nu + q * (N * N * C * i4) * Y * nu ^+ 2.
Proof. exact: mean_ring. Qed.
Lemma variance_identity (q N P C i2 i4 nu : R) :
  q * ((N * (nu * P) * i2 + N * N * nu ^+ 2 * C * i4) * C + N * (nu * P) * (C + N * (nu * P)) * i2) =
  q * (N * P * i2 * C + N * P * C * i2) * nu + q * (N * N * C * i4 * C + N * P * (N * P) * i2) * nu ^+ 2.
Proof. exact: variance_ring. Qed.

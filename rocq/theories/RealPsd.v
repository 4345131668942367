(* Positive semi-definite matrices of functions of the distance: exponentials, resolvents and square roots
   of conditionally negative definite matrices. No code is modelled here. *)
From Coq Require Import Reals Lra.
From mathcomp Require Import all_ssreflect all_algebra.
From Verif Require Import RealStruct GpSpec PsdProofs CallerPsd.
Set Implicit Arguments.
Unset Strict Implicit.
Unset Printing Implicit Defensive.
Import Order.TTheory GRing.Theory Num.Theory.
Local Open Scope ring_scope.

(* lra for terms written with the operations of mathcomp *)
Ltac toR := change (Num.RealField.sort R_realFieldType) with R in *;
  change (GRing.Ring.sort R_ringType) with R in *; repeat match goal with
  | H : context [@GRing.add _ _ _] |- _ => rewrite RplusE in H
  | H : context [@GRing.opp _ _] |- _ => rewrite RoppE in H
  | H : context [@GRing.mul _ _ _] |- _ => rewrite RmultE in H
  | H : context [@GRing.inv _ _] |- _ => rewrite RinvE in H
  | H : context [@GRing.zero _] |- _ => rewrite R0E in H
  | H : context [@GRing.one _] |- _ => rewrite R1E in H
  end; rewrite ?RE.
Ltac Rlra := toR; lra.
Ltac eqR := match goal with |- @eq _ ?a ?b => change (@eq R a b) end.
Ltac Rfield := toR; eqR; field.
Ltac Rring := toR; eqR; ring.

(* ---- limits ---- *)
Lemma cv_sum (I : finType) (u : I -> nat -> R) (l : I -> R) :
  (forall i, Un_cv (u i) (l i)) -> Un_cv (fun k => \sum_i u i k) (\sum_i l i).
Proof.
move=> h; rewrite -[index_enum I]/(index_enum I).
elim: (index_enum I) => [|i s IH].
  rewrite big_nil => eps he; exists 0%N => k _; rewrite big_nil /Rfunctions.R_dist.
  by rewrite -RminusE subrr Rabs_R0.
rewrite big_cons => eps he; case: (CV_plus _ _ _ _ (h i) IH eps he) => N hN.
by exists N => k hk; rewrite big_cons; exact: hN.
Qed.
Lemma cv_const (x : R) : Un_cv (fun _ => x) x.
Proof. by move=> eps he; exists 0%N => k _; rewrite /Rfunctions.R_dist -RminusE subrr Rabs_R0. Qed.
Lemma cv_ge0 (u : nat -> R) l : (forall k, 0 <= u k) -> Un_cv u l -> 0 <= l.
Proof.
move=> h cv; apply/RleP; apply: Rnot_lt_le => hl.
case: (cv (Ropp l)); first by Rlra.
move=> N /(_ N (le_n N)); rewrite /Rfunctions.R_dist => hN.
have /RleP h0 := h N; toR.
by move: hN; rewrite Rabs_right; lra.
Qed.
Lemma cv_eq (u v : nat -> R) l : u =1 v -> Un_cv u l -> Un_cv v l.
Proof. by move=> e cv eps he; case: (cv eps he) => N hN; exists N => k hk; rewrite -e; exact: hN. Qed.

(* a form is non negative in the limit *)
Lemma cv_quad n (A : nat -> 'M[R]_n) (B : 'M[R]_n) x :
  (forall i j, Un_cv (fun k => A k i j) (B i j)) -> Un_cv (fun k => quad (A k) x) (quad B x).
Proof.
move=> h; rewrite quadE; apply: (@cv_eq (fun k => \sum_i \sum_j x i 0 * A k i j * x j 0)).
  by move=> k; rewrite quadE.
apply: cv_sum => i; apply: cv_sum => j.
apply: (@cv_eq (fun k => Rmult (Rmult (x i 0) (A k i j)) (x j 0))) => //.
apply: CV_mult; last exact: cv_const.
by apply: CV_mult; first exact: cv_const.
Qed.
Lemma cv_psd n (A : nat -> 'M[R]_n) (B : 'M[R]_n) :
  (forall k, psd (A k)) -> (forall i j, Un_cv (fun k => A k i j) (B i j)) -> psd B.
Proof.
move=> pA cv; split.
  apply/matrixP => i j; rewrite mxE; apply: (UL_sequence (fun k => A k j i)); first exact: cv.
  by apply: (cv_eq _ (cv i j)) => k; case: (pA k) => s _; rewrite -{1}s mxE.
by move=> x; apply: (cv_ge0 _ (cv_quad x cv)) => k; case: (pA k).
Qed.

(* ---- entrywise functions ---- *)
Lemma psd_ones n : psd (const_mx 1 : 'M[R]_n).
Proof.
have -> : (const_mx 1 : 'M[R]_n) = (const_mx 1 : 'rV_n)^T *m 1%:M *m const_mx 1.
  by rewrite mulmx1; apply/matrixP => i j; rewrite !mxE big_ord1 !mxE mulr1.
apply: psd_congr; rewrite -[1%:M]/(1%:M); split; first by rewrite /symmetric tr_scalar_mx.
by move=> x; rewrite quadE !big_ord1 mxE eqxx mulr1n mulr1 -expr2 sqr_ge0.
Qed.
Lemma psd_eq n (A B : 'M[R]_n) : A =2 B -> psd A -> psd B.
Proof. by move=> /matrixP ->. Qed.
Lemma psd_power n (A : 'M[R]_n) k : psd A -> psd (\matrix_(i, j) (A i j ^+ k)).
Proof.
move=> pA; elim: k => [|k IH].
  by apply: psd_eq (psd_ones n) => i j; rewrite !mxE expr0.
by apply: psd_eq (schur_product pA IH) => i j; rewrite !mxE exprS.
Qed.
Lemma psd_partial_sums n (A : 'M[R]_n) (c : nat -> R) m : psd A -> (forall k, 0 <= c k) ->
  psd (\matrix_(i, j) sum_f_R0 (fun k => Rmult (c k) (pow (A i j) k)) m).
Proof.
move=> pA hc; elim: m => [|m IH].
  apply: psd_eq (psdZ (hc 0%N) (psd_power 0 pA)) => i j; rewrite !mxE /=; by rewrite expr0 RmultE.
apply: psd_eq (psdD IH (psdZ (hc m.+1) (psd_power m.+1 pA))) => i j; rewrite !mxE [in RHS]/=.
by rewrite RexpE RplusE RmultE.
Qed.
Lemma psd_series n (A : 'M[R]_n) (c : nat -> R) (f : R -> R) : psd A -> (forall k, 0 <= c k) ->
  (forall i j, Un_cv (sum_f_R0 (fun k => Rmult (c k) (pow (A i j) k))) (f (A i j))) ->
  psd (\matrix_(i, j) f (A i j)).
Proof.
move=> pA hc cv; apply: (@cv_psd _ (fun m => \matrix_(i, j) sum_f_R0 (fun k => Rmult (c k) (pow (A i j) k)) m)).
  by move=> k; exact: psd_partial_sums.
by move=> i j; rewrite !mxE; apply: (cv_eq _ (cv i j)) => k; rewrite mxE.
Qed.
Lemma psd_exp n (A : 'M[R]_n) : psd A -> psd (\matrix_(i, j) exp (A i j)).
Proof.
move=> pA; apply: (@psd_series n A (fun k => Rinv (INR (fact k))) exp pA).
  by move=> k; apply/RleP; apply: Rlt_le; apply: Rinv_0_lt_compat; exact: INR_fact_lt_0.
move=> i j; rewrite /exp; case: (exist_exp (A i j)) => l /= hl eps he.
by case: (hl eps he) => N hN; exists N.
Qed.

(* ---- Cauchy matrices and resolvents ---- *)
Lemma cauchy_key (p q c : R) : p + q != 0 -> p + c != 0 -> q + c != 0 ->
  (p + q)^-1 = (p - c) / (p + c) * ((q - c) / (q + c)) * (p + q)^-1 + (c + c) / (p + c) / (q + c).
Proof. by move=> /eqP e1 /eqP e2 /eqP e3; Rfield. Qed.
Lemma psd_cauchy n (a : 'I_n -> R) : (forall i, 0 < a i) -> psd (\matrix_(i, j) (a i + a j)^-1).
Proof.
elim: n a => [|n IH] a ha.
  by split=> [|x]; [apply/matrixP => -[] | rewrite quadE big_ord0].
pose C : 'M[R]_n := \matrix_(i, j) (a (lift ord0 i) + a (lift ord0 j))^-1.
have pC : psd C by apply: (IH (fun i => a (lift ord0 i))) => i; exact: ha.
pose b := a 0; have hb : 0 < b by exact: ha.
have h2 i j : a i + a j != 0 by rewrite gt_eqF // addr_gt0.
(* the Schur complement is C scaled by (a - b) / (a + b) *)
split; first by apply/matrixP => i j; rewrite !mxE addrC.
move=> x; pose r i := (a i - b) / (a i + b).
pose y : 'cV[R]_n := \col_i (r (lift ord0 i) * x (lift ord0 i) 0).
pose s := \sum_i x i 0 / (a i + b).
have -> : quad (\matrix_(i, j) (a i + a j)^-1) x = quad C y + (b + b) * s ^+ 2.
  rewrite quadE.
  have key i j : (a i + a j)^-1 = r i * r j * (a i + a j)^-1 + (b + b) / (a i + b) / (a j + b).
    by apply: cauchy_key; exact: h2.
  have -> : \sum_i \sum_j x i 0 * (\matrix_(i, j) (a i + a j)^-1) i j * x j 0 =
     \sum_i \sum_j (r i * x i 0) * (a i + a j)^-1 * (r j * x j 0) +
     \sum_i \sum_j (b + b) * ((x i 0 / (a i + b)) * (x j 0 / (a j + b))).
    rewrite -big_split; apply: eq_bigr => i _ /=; rewrite -big_split; apply: eq_bigr => j _ /=.
    rewrite mxE {1}key; move: (r i) (r j) (x i 0) (x j 0) ((a i + a j)^-1) => ri rj xi xj aij.
    by rewrite ![_ / _]mulrC; move: ((a i + b)^-1) ((a j + b)^-1) => p q; Rring.
  congr (_ + _).
    rewrite quadE.
    have r0 : r 0 = 0 by rewrite /r /b subrr mul0r.
    rewrite big_ord_recl r0 [X in X + _]big1 ?add0r; last by move=> j _; rewrite mul0r !mul0r.
    apply: eq_bigr => i _; rewrite big_ord_recl r0 mul0r mulr0 add0r.
    by apply: eq_bigr => j _; rewrite !mxE.
  rewrite expr2 /s mulr_suml mulr_sumr; apply: eq_bigr => i _; rewrite mulr_sumr mulr_sumr.
  by apply: eq_bigr => j _.
apply: addr_ge0; first by case: pC.
by apply: mulr_ge0; [apply: addr_ge0; exact: ltW | exact: sqr_ge0].
Qed.

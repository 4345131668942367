From mathcomp Require Import all_ssreflect all_algebra.
From Verif Require Import GpSpec PsdProofs TruncatedSolveModel TruncatedSolveSpec.
Set Implicit Arguments.
Unset Strict Implicit.
Unset Printing Implicit Defensive.
Import Order.TTheory GRing.Theory Num.Theory.
Local Open Scope ring_scope.

Section Proofs.
Variable F : realFieldType.
Lemma keptE n (d : 'cV[F]_n) t : kept d t = [seq i <- enum 'I_n | t <= d i 0].
Proof.
rewrite /kept -[RHS]cat0s; elim: (enum 'I_n) [::] => [|i s IH] a /=; first by rewrite cats0.
by rewrite IH; case: ifP => _ //; rewrite cat_rcons.
Qed.
Lemma mem_kept n (d : 'cV[F]_n) t i : (i \in kept d t) = (t <= d i 0).
Proof. by rewrite keptE mem_filter mem_enum andbT. Qed.
Lemma finite_kept n (d : 'cV[F]_n) t : (forall i, t <= d i 0 -> d i 0 != 0) ->
  [forall k, rowsub (tnth (in_tuple (kept d t))) d k 0 != 0].
Proof. by move=> h; apply/forallP => k; rewrite mxE h // -mem_kept mem_tnth. Qed.

(* the pseudo inverse in full form *)
Definition pinv_mx n (V : 'M[F]_n) (d : 'cV[F]_n) t : 'M[F]_n :=
  V *m diag_mx (\row_i (if t <= d i 0 then (d i 0)^-1 else 0)) *m V^T.
Lemma truncatedE n p V (d : 'cV[F]_n) (rhs : 'M[F]_(n, p)) t x :
  truncated_psd_solve V d rhs t = Some x -> x = pinv_mx V d t *m rhs.
Proof.
rewrite /truncated_psd_solve; case: ifP => // _ [<-]; congr (_ *m _); rewrite /pinv_mx.
apply/matrixP => a b; rewrite [LHS]mxE [RHS]mxE.
transitivity (\sum_(i <- kept d t) V a i * (d i 0)^-1 * V b i).
  rewrite [RHS]big_tnth; apply: eq_bigr => k _; rewrite mxE.
  rewrite (bigD1 k) //= big1 ?addr0 => [|l hl]; last by rewrite !mxE (negbTE hl) mulr0n mulr0.
  by rewrite !mxE eqxx mulr1n.
rewrite keptE big_filter big_enum_cond /= [LHS]big_mkcond; apply: eq_bigr => i _; rewrite mxE.
rewrite (bigD1 i) //= big1 ?addr0 => [|l hl]; last by rewrite !mxE (negbTE hl) mulr0n mulr0.
by rewrite !mxE eqxx mulr1n; case: ifP => _; rewrite ?mulr0 ?mul0r.
Qed.
Lemma truncated_defined n p V (d : 'cV[F]_n) (rhs : 'M[F]_(n, p)) t : 0 < t ->
  exists x, truncated_psd_solve V d rhs t = Some x.
Proof.
move=> t0; rewrite /truncated_psd_solve finite_kept ?eqxx; first by eexists.
by move=> i /(lt_le_trans t0) /gt_eqF ->.
Qed.
Lemma row_diag_mul n p (v : 'rV[F]_n) (M : 'M[F]_(n, p)) i : row i (diag_mx v *m M) = v 0 i *: row i M.
Proof. by apply/rowP => j; rewrite mul_diag_mx !mxE. Qed.
Section Decomposed.
Variables (n : nat) (A V : 'M[F]_n) (d : 'cV[F]_n).
Hypothesis dec : decomposes A V d.
Lemma VtV : V^T *m V = 1%:M. Proof. by case: dec. Qed.
Lemma VVt : V *m V^T = 1%:M. Proof. by apply: mulmx1C; exact: VtV. Qed.
Lemma AE : A = V *m diag_mx d^T *m V^T.
Proof. by case: dec => _ <-; rewrite -mulmxA VVt mulmx1. Qed.
Lemma alongE p (x : 'M[F]_(n, p)) i : along V i x = row i (V^T *m x).
Proof. by rewrite /along tr_col row_mul. Qed.
Lemma coordinates p (x y : 'M[F]_(n, p)) : (forall i, along V i x = along V i y) -> x = y.
Proof.
move=> h; have e : V^T *m x = V^T *m y by apply/row_matrixP => i; rewrite -!alongE.
by rewrite -[x]mul1mx -[y]mul1mx -VVt -!mulmxA e.
Qed.
Lemma along_A p (x : 'M[F]_(n, p)) i : along V i (A *m x) = d i 0 *: along V i x.
Proof.
rewrite !alongE [X in row i (V^T *m (X *m _))]AE !mulmxA VtV mul1mx -mulmxA row_diag_mul.
by rewrite mxE.
Qed.
Lemma along_pinv p (x : 'M[F]_(n, p)) t i :
  along V i (pinv_mx V d t *m x) = if t <= d i 0 then (d i 0)^-1 *: along V i x else 0.
Proof.
rewrite !alongE /pinv_mx !mulmxA VtV mul1mx -mulmxA row_diag_mul mxE.
by case: ifP => _; rewrite ?scale0r.
Qed.
Lemma A_symmetric : symmetric A.
Proof. by rewrite /symmetric AE !trmx_mul trmxK tr_diag_mx mulmxA. Qed.
Lemma pinv_psd t : 0 < t -> psd (pinv_mx V d t).
Proof.
move=> t0; rewrite /pinv_mx -{1}[V]trmxK.
have -> : (\row_i (if t <= d i 0 then (d i 0)^-1 else 0)) = (\col_i (if t <= d i 0 then (d i 0)^-1 else 0))^T.
  by apply/matrixP => i j; rewrite !mxE.
apply: psd_congr; apply: psd_diag => i; rewrite mxE; case: ifP => // h.
by rewrite invr_ge0 (le_trans (ltW t0) h).
Qed.
Lemma truncated_iff p (rhs x : 'M[F]_(n, p)) t : 0 < t ->
  (truncated_psd_solve V d rhs t = Some x <->
   forall i, along V i x = if t <= d i 0 then (d i 0)^-1 *: along V i rhs else 0).
Proof.
move=> t0; have [y hy] := truncated_defined V d rhs t0; have ey := truncatedE hy.
rewrite hy; split=> [[<-] i|h]; first by rewrite ey along_pinv.
by congr Some; apply: coordinates => i; rewrite h ey along_pinv.
Qed.
Lemma truncated_exact p (rhs : 'M[F]_(n, p)) t : 0 < t -> (forall i, t <= d i 0) ->
  exists2 x, truncated_psd_solve V d rhs t = Some x & forall y, A *m y = rhs <-> y = x.
Proof.
move=> t0 h; have [x hx] := truncated_defined V d rhs t0; exists x => // y.
have nz i : d i 0 != 0 by rewrite gt_eqF // (lt_le_trans t0 (h i)).
have c := (truncated_iff rhs x t0).1 hx; split=> [e|->].
  by apply: coordinates => i; rewrite c h -e along_A scalerA mulVf ?scale1r.
by apply: coordinates => i; rewrite along_A c h scalerA mulfV ?scale1r.
Qed.
Lemma truncated_recovers p (y : 'M[F]_(n, p)) t : 0 < t -> (forall i, d i 0 < t -> along V i y = 0) ->
  truncated_psd_solve V d (A *m y) t = Some y.
Proof.
move=> t0 h; apply/truncated_iff => // i; case: leP => [k|k]; last exact: h.
by rewrite along_A scalerA mulVf ?scale1r // gt_eqF // (lt_le_trans t0 k).
Qed.
Lemma alongB p (x y : 'M[F]_(n, p)) i : along V i (x - y) = along V i x - along V i y.
Proof. by rewrite /along mulmxBr. Qed.
Lemma truncated_residual p (rhs x : 'M[F]_(n, p)) t i : 0 < t -> truncated_psd_solve V d rhs t = Some x ->
  along V i (rhs - A *m x) = if t <= d i 0 then 0 else along V i rhs.
Proof.
move=> t0 /(truncated_iff _ _ t0)/(_ i) c; rewrite alongB along_A c; case: leP => k.
  by rewrite scalerA mulfV ?scale1r ?subrr // gt_eqF // (lt_le_trans t0 k).
by rewrite scaler0 subr0.
Qed.
Lemma norm_along (v : 'cV[F]_n) : quad 1%:M v = \sum_i (along V i v 0 0) ^+ 2.
Proof.
rewrite /quad mulmx1 -{2}[v]mul1mx -VVt -mulmxA mulmxA -{1}[V]trmxK -trmx_mul mxE.
by apply: eq_bigr => i _; rewrite mxE expr2 alongE [row _ _ _ _]mxE.
Qed.
Lemma truncated_least (rhs x y : 'cV[F]_n) t : 0 < t -> truncated_psd_solve V d rhs t = Some x ->
  (forall i, d i 0 < t -> along V i y = 0) ->
  quad 1%:M (rhs - A *m x) <= quad 1%:M (rhs - A *m y) ?= iff (x == y).
Proof.
move=> t0 hx hy; rewrite !norm_along; have c := (truncated_iff rhs x t0).1 hx.
have -> : (x == y) = [forall (i | true), along V i x == along V i y].
  by apply/eqP/forallP => [-> i|h]; [rewrite eqxx | apply: coordinates => i; apply/eqP; exact: h].
apply: (leif_sum (P := predT) (C := fun i => along V i x == along V i y)) => i _; rewrite (truncated_residual i t0 hx).
case: leP => k; last first.
  rewrite alongB along_A c (lt_geF k) hy // scaler0 subr0 eqxx; exact/leif_refl.
have nz : d i 0 != 0 by rewrite gt_eqF // (lt_le_trans t0 k).
rewrite mxE expr0n /=; split; first exact: sqr_ge0.
rewrite eq_sym sqrf_eq0 alongB along_A c k.
apply/eqP/eqP => [e|<-]; last by rewrite scalerA mulfV // scale1r subrr mxE.
apply/matrixP => a b; rewrite !ord1; move: e; rewrite !mxE => /eqP; rewrite subr_eq0 => /eqP ->.
by rewrite mulrA mulVf // mul1r.
Qed.
Lemma truncated_operator t : 0 < t ->
  exists2 G : 'M[F]_n, psd G & forall p (rhs : 'M[F]_(n, p)), truncated_psd_solve V d rhs t = Some (G *m rhs).
Proof.
move=> t0; exists (pinv_mx V d t); first exact: pinv_psd.
by move=> p rhs; have [x hx] := truncated_defined V d rhs t0; rewrite hx (truncatedE hx).
Qed.
End Decomposed.
Lemma truncated_zero n p (V : 'M[F]_n) (d : 'cV[F]_n) (rhs : 'M[F]_(n, p)) i : d i 0 = 0 ->
  truncated_psd_solve V d rhs 0 = None.
Proof.
move=> e; rewrite /truncated_psd_solve; case: ifP => // /forallP h; exfalso.
have: i \in kept d 0 by rewrite mem_kept e.
by move=> /seq_tnthP [k hk]; move: (h k); rewrite mxE -hk e eqxx.
Qed.
End Proofs.
Lemma truncated_meets : let d : 'cV[rat]_2 := \col_i (if i == 0 then 2%:R else - 1) in
  decomposes (diag_mx d^T) 1%:M d /\
  truncated_psd_solve 1%:M d (const_mx 1 : 'cV_2) 1 = Some (\col_i (if i == 0 then 2%:R^-1 else 0)).
Proof.
move=> d; have dec : decomposes (diag_mx d^T) 1%:M d by split; rewrite ?trmx1 ?mulmx1 ?mul1mx.
split=> //; apply/(truncated_iff dec) => // i; rewrite /along !col1 !trmx_delta -!rowE.
by apply/matrixP => a b; rewrite !mxE; case: (i == 0); rewrite !mxE ?mulr1.
Qed.

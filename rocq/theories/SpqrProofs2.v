From Coq Require Import Reals Lra.
From Verif Require Import Base.
From mathcomp Require Import all_ssreflect all_algebra all_fingroup.
From Verif Require Import RealStruct RealPsd SpqrModel SpqrSpec.
Set Implicit Arguments.
Unset Strict Implicit.
Unset Printing Implicit Defensive.
Import Order.TTheory GRing.Theory Num.Theory.
Local Open Scope ring_scope.

Lemma norm_ge0 m n (A : 'M[R]_(m, n)) j : 0 <= column_norm A j.
Proof. by apply/RleP; exact: sqrt_pos. Qed.
Lemma norm_scale m n (A : 'M[R]_(m, n)) c j : column_norm (c *: A) j = `|c| * column_norm A j.
Proof.
rewrite /column_norm (eq_bigr (fun i => (c * c) * (A i j * A i j))); last first.
  by move=> i _; rewrite !mxE; Rring.
rewrite -mulr_sumr RnormE !RmultE sqrt_mult_alt; last by apply/RleP; rewrite -RmultE -expr2 sqr_ge0.
by rewrite sqrt_Rsqr_abs.
Qed.
Section Fold.
Variables (T : eqType) (f : T -> R).
Lemma fold_ge s : forall x, x <= foldl (fun mx j => Rmax mx (f j)) x s /\ forall j, j \in s -> f j <= foldl (fun mx j => Rmax mx (f j)) x s.
Proof.
elim: s => [|a s IH] x /=; first by split.
have [h1 h2] := IH (Rmax x (f a)); split.
  by apply: le_trans h1; apply/RleP; exact: Rmax_l.
move=> j; rewrite inE => /orP [/eqP ->|/h2 //].
by apply: le_trans h1; apply/RleP; exact: Rmax_r.
Qed.
Lemma fold_in s : forall x, foldl (fun mx j => Rmax mx (f j)) x s = x \/ exists2 j, j \in s & foldl (fun mx j => Rmax mx (f j)) x s = f j.
Proof.
elim: s => [|a s IH] x /=; first by left.
case: (IH (Rmax x (f a))) => [->|[j js ->]]; last by right; exists j => //; rewrite inE js orbT.
rewrite /Rmax; case: (Rle_dec x (f a)) => _; last by left.
by right; exists a => //; rewrite inE eqxx.
Qed.
End Fold.
Section Threshold.
Variables (m n : nat) (A : 'M[R]_(m, n)).
Definition mx := foldl (fun mx j => Rmax mx (column_norm A j)) 0 (enum 'I_n).
Lemma mx_ge j : column_norm A j <= mx.
Proof. by have [_ h] := fold_ge (column_norm A) (enum 'I_n) 0; apply: h; rewrite mem_enum. Qed.
Lemma mx_ge0 : 0 <= mx.
Proof. by have [h _] := fold_ge (column_norm A) (enum 'I_n) 0. Qed.
Lemma mx_largest : (0 < n)%N -> largest_column A mx.
Proof.
move=> n0; split; last exact: mx_ge.
case: (fold_in (column_norm A) (enum 'I_n) 0) => [E|[j _ E]]; last by exists j.
exists (Ordinal n0); apply/eqP; rewrite eq_le mx_ge andbT /mx E; exact: norm_ge0.
Qed.
End Threshold.
Lemma largest_unique m n (A : 'M[R]_(m, n)) x y : largest_column A x -> largest_column A y -> x = y.
Proof.
move=> [[i ->] hx] [[j ->] hy]; apply/eqP; by rewrite eq_le hy hx.
Qed.
Lemma threshold_small m n (A : 'M[R]_(m, n)) size coef : (m < size)%N \/ (n < size)%N -> SPQR_pivot_threshold A size coef = (10%:R ^+ 15)^-1.
Proof. by rewrite /SPQR_pivot_threshold => h; case: ifP => // /negbT; rewrite negb_or => /andP [h1 h2]; case: h => h; rewrite h in h1 h2. Qed.
Lemma threshold_large m n (A : 'M[R]_(m, n)) size coef mxn : (0 < n)%N -> (size <= m)%N -> (size <= n)%N -> largest_column A mxn ->
  SPQR_pivot_threshold A size coef = coef * (m + n)%:R * (if mxn == 0 then 1 else mxn) * epsilon.
Proof.
move=> n0 hm hn L; rewrite /SPQR_pivot_threshold !ltnNge hm hn /=.
by rewrite (largest_unique L (mx_largest A n0)) /mx.
Qed.
Lemma largest_scale m n (A : 'M[R]_(m, n)) c x : largest_column A x -> largest_column (c *: A) (`|c| * x).
Proof.
move=> [[i ->] h]; split; first by exists i; rewrite norm_scale.
by move=> j; rewrite norm_scale; apply: ler_wpmul2l.
Qed.
Lemma threshold_scale m n (A : 'M[R]_(m, n)) size coef c : (0 < n)%N -> (size <= m)%N -> (size <= n)%N -> c != 0 -> A != 0 ->
  SPQR_pivot_threshold (c *: A) size coef = `|c| * SPQR_pivot_threshold A size coef.
Proof.
move=> n0 hm hn c0 A0; have L := mx_largest A n0.
have M0 : mx A != 0.
  apply: contraNneq A0 => E; apply/eqP/matrixP => i j; rewrite mxE.
  have : column_norm A j <= 0 by rewrite -E mx_ge.
  move=> h; have {}h : column_norm A j = 0 by apply/eqP; rewrite eq_le h norm_ge0.
  have sq k : 0 <= A k j * A k j by rewrite -expr2 sqr_ge0.
  have S0 : \sum_i A i j * A i j = 0.
    by apply: sqrt_eq_0 => //; apply/RleP; apply: sumr_ge0.
  have /eqP := S0; rewrite psumr_eq0 // => /allP /(_ i (mem_index_enum _)) /eqP.
  by move=> /eqP; rewrite mulf_eq0 orbb => /eqP.
rewrite (threshold_large coef n0 hm hn L) (threshold_large coef n0 hm hn (largest_scale c L)).
rewrite mulf_eq0 normr_eq0 (negbTE c0) (negbTE M0) /=.
by rewrite [_ * (`|c| * mx A)]mulrCA -!mulrA.
Qed.
Lemma eps_gt0 : 0 < epsilon.
Proof. by rewrite /epsilon invr_gt0 exprn_gt0 // ltr0n. Qed.
Lemma threshold_pos m n (A : 'M[R]_(m, n)) size coef : 0 < coef -> (0 < n)%N -> 0 < SPQR_pivot_threshold A size coef.
Proof.
move=> c0 n0; case: (boolP ((m < size)%N || (n < size)%N)) => [/orP h|].
  by rewrite threshold_small // invr_gt0 exprn_gt0 // ltr0n.
rewrite negb_or -!leqNgt => /andP [hm hn].
rewrite (threshold_large coef n0 hm hn (mx_largest A n0)); apply: mulr_gt0 eps_gt0; apply: mulr_gt0.
  by apply: mulr_gt0 => //; rewrite ltr0n addn_gt0 n0 orbT.
case: eqP => [_|/eqP ne]; [exact: ltr01|by rewrite lt0r ne mx_ge0].
Qed.
Lemma threshold_absolute m n (A : 'M[R]_(m, n)) size coef : (m < size)%N \/ (n < size)%N ->
  exists2 c, 0 < c & forall j, column_norm (c *: A) j < SPQR_pivot_threshold (c *: A) size coef.
Proof.
move=> h; set t : R := (10%:R ^+ 15)^-1; have t0 : 0 < t by rewrite invr_gt0 exprn_gt0 // ltr0n.
have M1 : 0 < 1 + mx A by apply: ltr_paddr (mx_ge0 A) ltr01.
exists (t / (1 + mx A)) => [|j]; first by rewrite divr_gt0.
rewrite threshold_small // norm_scale gtr0_norm ?divr_gt0 // mulrAC ltr_pdivr_mulr // ltr_pmul2l //.
by apply: le_lt_trans (mx_ge A j) _; rewrite ltr_addr ltr01.
Qed.

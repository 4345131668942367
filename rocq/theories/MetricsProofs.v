(* Proofs for MetricsProps.v. *)
From Coq Require Import Reals Lra.
From Verif Require Import ExtRealModel DistanceModel DistanceProofs RadialModel.
From Verif Require Base.
From mathcomp Require Import all_ssreflect fingroup perm all_algebra.
From Verif Require Import RealStruct GpModel GpSpec PsdProofs LdltModel LikelihoodModel ScoreModel ScoreSpec RealPsd LikelihoodProofs ScoreProofs MetricsModel MetricsSpec.
Set Implicit Arguments.
Unset Strict Implicit.
Unset Printing Implicit Defensive.
Import Order.TTheory GRing.Theory Num.Theory.
Local Open Scope ring_scope.

Lemma n_neq0 n : (0 < n)%N -> (n%:R : R) != 0.
Proof. by move=> h; rewrite pnatr_eq0 -lt0n. Qed.
Lemma xdiv_fin (a b : R) : b != 0 -> xdiv (XFin a) (XFin b) = XFin (a / b)%R.
Proof. by move=> /eqP h; rewrite /xdiv (proj2 (Reqb_false _ _)). Qed.
Lemma difference_value n (a b : 'cV[R]_n) : difference a b = Base.Ok (a - b).
Proof. by rewrite /difference eqxx conform_mx_id. Qed.
Lemma difference_abort m n (a : 'cV[R]_m) (b : 'cV[R]_n) : m <> n -> difference a b = Base.Abort.
Proof. by move=> /eqP /negbTE h; rewrite /difference h. Qed.
Lemma mean_square_ge0 n (x : 'cV[R]_n) : 0 <= mean_square x.
Proof. by rewrite divr_ge0 ?ler0n // sumr_ge0 // => i _; exact: sqr_ge0. Qed.
Lemma rmse_value n (p t : 'cV[R]_n) : (0 < n)%N -> root_mean_square_error p t = Base.Ok (XFin (R_sqrt.sqrt (mean_square (p - t)))).
Proof.
move=> n0; rewrite /root_mean_square_error difference_value /= (xsum_fin (f := fun i => (p - t)%R i 0 ^+ 2)); last by move=> i; rewrite expr2.
by rewrite xdiv_fin ?n_neq0 // -/(mean_square _) xsqrt_fin // mean_square_ge0.
Qed.
Lemma rmse_empty (p t : 'cV[R]_0) : root_mean_square_error p t = Base.Ok XNaN.
Proof.
rewrite /root_mean_square_error difference_value /= (xsum_fin (f := fun i => (p - t)%R i 0 ^+ 2)); last by move=> i; rewrite expr2.
by rewrite big_ord0 /xdiv !(proj2 (Reqb_true _ _)).
Qed.
Lemma mean_square_eq0 n (x : 'cV[R]_n) : (0 < n)%N -> mean_square x = 0 -> x = 0.
Proof.
move=> n0 /eqP; rewrite mulf_eq0 invr_eq0 (negbTE (n_neq0 n0)) orbF psumr_eq0 => [/allP h|i _]; last exact: sqr_ge0.
apply/matrixP => i j; rewrite (ord1 j) mxE; by have := h i (mem_index_enum _); rewrite /= sqrf_eq0 => /eqP.
Qed.
Lemma mean_squareN n (x : 'cV[R]_n) : mean_square (- x) = mean_square x.
Proof. by congr (_ / _); apply: eq_bigr => i _; rewrite mxE sqrrN. Qed.
Lemma mean_square_norm n (x : 'cV[R]_n) : R_sqrt.sqrt (mean_square x) = weighted_norm (const_mx n%:R^-1) x.
Proof. by congr R_sqrt.sqrt; rewrite /mean_square mulrC mulr_sumr; apply: eq_bigr => i _; rewrite mxE. Qed.
Lemma sqrt_eq0 (x : R) : 0 <= x -> R_sqrt.sqrt x = 0 -> x = 0.
Proof. by move=> /RleP; exact: sqrt_eq_0. Qed.

Lemma sample_variance_ge0 n (x : 'cV[R]_n) : (0 < n)%N -> 0 <= sample_variance x.
Proof. by move=> n0; rewrite divr_ge0 ?subr_ge0 ?ler1n // sumr_ge0 // => i _; exact: sqr_ge0. Qed.
Lemma sd_value n (x : 'cV[R]_n) : (1 < n)%N -> standard_deviation x = XFin (R_sqrt.sqrt (sample_variance x)).
Proof.
move=> n1; have n0 : (0 < n)%N by apply: leq_trans n1.
rewrite /standard_deviation; case: n x n1 n0 => [|[|n]] // x _ n0; set m := n.+2 in x n0 *.
have -> : (m == 0)%N = false by []; have -> : (m == 1)%N = false by [].
have nz : (m%:R - 1 : R) != 0 by rewrite subr_eq0 -[1]/(1%:R) eqr_nat.
rewrite (xmean_fin (f := fun i => x i 0)) // -/(average x).
have E i : xdiv (xpow2 (xsub (XFin (x i 0)) (XFin (average x)))) (xsub (XFin m%:R) (XFin 1)) =
    XFin ((x i 0 - average x) ^+ 2 / (m%:R - 1))%R by rewrite expr2 -xdiv_fin.
by rewrite (fold_xadd _ _ E) add0r sum_enum -mulr_suml xsqrt_fin // sample_variance_ge0.
Qed.
Lemma averageD n (x : 'cV[R]_n) (c : R) : (0 < n)%N -> average (x + const_mx c) = average x + c.
Proof.
move=> n0; rewrite /average; under eq_bigr do rewrite !mxE.
rewrite big_split /= mulrDl sumr_const card_ord -[c *+ n]mulr_natr; congr (_ + _).
by apply: (@mulfK R_fieldType); exact: n_neq0.
Qed.
Lemma averageZ n (x : 'cV[R]_n) (c : R) : average (c *: x) = c * average x.
Proof. by rewrite /average; under eq_bigr do rewrite !mxE; rewrite -mulr_sumr mulrA. Qed.
Lemma varianceD n (x : 'cV[R]_n) (c : R) : (0 < n)%N -> sample_variance (x + const_mx c) = sample_variance x.
Proof. by move=> n0; rewrite /sample_variance averageD //; congr (_ / _); apply: eq_bigr => i _; rewrite !mxE opprD addrACA subrr addr0. Qed.
Lemma varianceZ n (x : 'cV[R]_n) (c : R) : sample_variance (c *: x) = c ^+ 2 * sample_variance x.
Proof. by rewrite /sample_variance averageZ mulrA; congr (_ / _); rewrite mulr_sumr; apply: eq_bigr => i _; rewrite !mxE -mulrBr exprMn. Qed.
Lemma variance_eq0 n (x : 'cV[R]_n) : (1 < n)%N -> sample_variance x = 0 -> x = const_mx (average x).
Proof.
move=> n1; have n0 : (0 < n)%N by apply: leq_trans n1.
have nz : (n%:R - 1 : R) != 0 by rewrite subr_eq0 -[1]/(1%:R) eqr_nat; case: n n1 {x n0} => [|[]].
move=> /eqP; rewrite mulf_eq0 invr_eq0 (negbTE nz) orbF psumr_eq0 => [/allP h|i _]; last exact: sqr_ge0.
apply/matrixP => i j; rewrite (ord1 j) mxE; by have := h i (mem_index_enum _); rewrite /= sqrf_eq0 subr_eq0 => /eqP.
Qed.
Lemma decomposition n (x : 'cV[R]_n) : (1 < n)%N ->
  mean_square x = average x ^+ 2 + (n%:R - 1) / n%:R * sample_variance x.
Proof.
move=> n1; have n0 : (0 < n)%N by apply: leq_trans n1.
have nz : (n%:R - 1 : R) != 0 by rewrite subr_eq0 -[1]/(1%:R) eqr_nat; case: n n1 {x n0} => [|[]].
have -> : ((n%:R - 1) / n%:R * sample_variance x = (\sum_i (x i 0 - average x) ^+ 2) / n%:R :> R)%R.
  rewrite /sample_variance; set S := \sum_i _.
  by rewrite [(_ - 1) / _]mulrC -mulrA [(_ - 1) * _]mulrC (@mulfVK R_fieldType) // mulrC.
have -> : \sum_i (x i 0 - average x) ^+ 2 = (\sum_i x i 0 ^+ 2) - n%:R * average x ^+ 2.
  under eq_bigr do rewrite sqrrB.
  rewrite big_split sumrB /= sumr_const card_ord -[_ *+ n]mulr_natl sumrMnl -mulr_suml.
  have -> : \sum_i x i 0 = n%:R * average x by rewrite /average mulrC (@mulfVK R_fieldType) ?n_neq0.
  rewrite mulr2n [average x ^+ 2]expr2; move: (\sum_i x i 0 ^+ 2) (average x) (n%:R : R) => S a m; Rring.
by rewrite /mean_square mulrBl [n%:R * _]mulrC (@mulfK R_fieldType) ?n_neq0 // addrC subrK.
Qed.
Lemma perm_sum n (s : {perm 'I_n}) (f : 'I_n -> R) : \sum_i f (s i) = \sum_i f i.
Proof. by rewrite [RHS](reindex_inj (@perm_inj _ s)). Qed.

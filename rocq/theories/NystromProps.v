(* C98: a sparse Gaussian process whose inducing points include the observed features approaches the exact one as the nugget
   added to the inducing points becomes small. *)
From Coq Require Import Reals.
From mathcomp Require Import all_ssreflect all_algebra all_fingroup.
From Verif Require Import RealStruct GpModel GpSpec LdltModel LdltSpec SparseGpModel SparseGpSpec SparseGpExamples NystromProofs.
Set Implicit Arguments.
Unset Strict Implicit.
Unset Printing Implicit Defensive.
Import Order.TTheory GRing.Theory Num.Theory.
Local Open Scope ring_scope.

Section C98.
Variable X : Type.
Variable cov : feature X -> feature X -> R.
Variable mean_function : feature X -> R.
Variable compute_ldlt : forall n, 'M[R]_n -> ldlt_state n.
Variable compute_qr : forall m n, 'M[R]_(m, n) -> qr_result m n.
Hypothesis hldlt : ldlt_contract compute_ldlt.
Hypothesis hqr : qr_contract compute_qr.
Hypothesis hk : psd_kernel cov.
Hypothesis zero_mean : forall x, mean_function x = 0.
Variables (k : nat) (u : 'I_k -> feature X) (n : nat) (xs : 'I_n -> feature X) (h : 'I_n -> 'I_k).
(* observation i is of inducing point h i, and the covariance function does not treat measurements specially *)
Hypothesis included : forall i y, cov (as_measurement (xs i)) y = cov (u (h i)) y.
Hypothesis unwrapped : forall i y, cov (as_measurement (xs i)) y = cov (xs i) y.
Variables (t : marginal R_fieldType n) (groups : seq (seq 'I_n)) (measurement_nugget : R).
Hypothesis partition : groups_partition groups.
Variables (p : nat) (zs : 'I_p -> feature X).

(* what the sparse process predicts, and the exact one if the measurement nugget is added to the variances *)
Let sparse nu := sparse_predict_joint cov mean_function (sparse_fit_impl cov compute_ldlt compute_qr measurement_nugget nu groups u xs t) zs.
Let exact := predict_joint cov mean_function
  (fit cov mean_function xs (Marginal (F := R_fieldType) (m_mean t) (m_var t + const_mx measurement_nugget))) zs.
(* the prior variance of a prediction and the sum of its squared covariances with the observations *)
Let prior a := cov (zs a) (zs a).
Let cross a := \sum_i cov (as_measurement (xs i)) (zs a) ^+ 2.

Theorem C98_mean nu s a : 0 < nu -> 0 < s -> (forall i, s < m_var t i 0 + measurement_nugget) ->
  (j_mean exact a 0 - j_mean (sparse nu) a 0) ^+ 2 <=
  2%:R * (n%:R * (nu * prior a) / s ^+ 2 + n%:R * n%:R * nu ^+ 2 * cross a / s ^+ 4) * (\sum_i m_mean t i 0 ^+ 2).
Proof. by move=> nu0 s0 fl; exact: (mean_close hldlt hqr hk nu0 zero_mean included unwrapped partition s0 fl). Qed.
Theorem C98_variance nu s a : 0 < nu -> 0 < s -> (forall i, s < m_var t i 0 + measurement_nugget) ->
  (j_cov (sparse nu) a a - j_cov exact a a) ^+ 2 <=
  4%:R * ((n%:R * (nu * prior a) / s ^+ 2 + n%:R * n%:R * nu ^+ 2 * cross a / s ^+ 4) * cross a +
          n%:R * (nu * prior a) * (cross a + n%:R * (nu * prior a)) / s ^+ 2).
Proof. by move=> nu0 s0 fl; exact: (cov_close hldlt hqr hk nu0 zero_mean included unwrapped partition s0 fl). Qed.

(* So every accuracy is reached, with a nugget that is small enough for these observations and predictions. *)
Theorem C98_limit (accuracy : R) : (forall i, 0 < m_var t i 0 + measurement_nugget) -> 0 < accuracy ->
  forall a, exists2 nu0, 0 < nu0 & forall nu, 0 < nu < nu0 ->
  `|j_mean exact a 0 - j_mean (sparse nu) a 0| < accuracy /\ `|j_cov (sparse nu) a a - j_cov exact a a| < accuracy.
Proof.
move=> pos e0 a; have [s s0 fl] := common_floor pos.
have P0 : 0 <= prior a.
  by have := PsdProofs.psd_diag_ge0 a (hk zs); rewrite mxE.
have C0 : 0 <= cross a by apply: sumr_ge0 => i _; exact: sqr_ge0.
set Y := \sum_i m_mean t i 0 ^+ 2; have Y0 : 0 <= Y by apply: sumr_ge0 => i _; exact: sqr_ge0.
set N : R := n%:R; have N0 : 0 <= N by rewrite ler0n.
have s2 : 0 <= s ^- 2 by rewrite invr_ge0 exprn_ge0 ?ltW.
have s4 : 0 <= s ^- 4 by rewrite invr_ge0 exprn_ge0 ?ltW.
pose a1 := 2%:R * (N * prior a / s ^+ 2) * Y; pose b1 := 2%:R * (N * N * cross a / s ^+ 4) * Y.
pose a2 := 4%:R * (N * prior a / s ^+ 2 * cross a + N * prior a * cross a / s ^+ 2).
pose b2 := 4%:R * (N * N * cross a / s ^+ 4 * cross a + N * prior a * (N * prior a) / s ^+ 2).
have a10 : 0 <= a1 by rewrite /a1 !mulr_ge0 ?ler0n.
have b10 : 0 <= b1 by rewrite /b1 !mulr_ge0 ?ler0n.
have a20 : 0 <= a2 by rewrite /a2 mulr_ge0 ?ler0n // addr_ge0 // !mulr_ge0.
have b20 : 0 <= b2 by rewrite /b2 mulr_ge0 ?ler0n // addr_ge0 // !mulr_ge0.
have [v1 /andP [v10 v11] V1] := small_bound (addr_ge0 a10 b10) e0.
have [v2 /andP [v20 v21] V2] := small_bound (addr_ge0 a20 b20) e0.
exists (Num.min v1 v2); first by rewrite lt_minr v10.
move=> nu /andP [n0]; rewrite lt_minr => /andP [n1 n2].
have nu1 : 0 < nu <= 1 by rewrite n0 (le_trans (ltW n1)).
have N1 : 0 < nu < v1 by rewrite n0. have N2 : 0 < nu < v2 by rewrite n0.
split.
- apply: (abs_lt e0 (C98_mean a n0 s0 fl)); apply: le_lt_trans (V1 _ N1); apply: poly_small => //.
  exact: mean_identity.
- apply: (abs_lt e0 (C98_variance a n0 s0 fl)); apply: le_lt_trans (V2 _ N2); apply: poly_small => //.
  exact: variance_identity.
Qed.
End C98.
Print Assumptions C98_mean.
Print Assumptions C98_variance.
Print Assumptions C98_limit.

(* three observations in two groups, with an inducing point for each of the observed features *)
Example C98_meets :
  ldlt_contract plain_ldlt /\ qr_contract plain_qr /\ psd_kernel linear /\ groups_partition ex_groups /\
  (forall i y, linear (as_measurement (ex_xs i)) y = linear (ex_xs i) y) /\ (forall i, 0 < m_var ex_t i 0 + 1).
Proof.
split; first exact: plain_ldlt_contract. split; first exact: plain_qr_contract. split; first exact: linear_psd.
split; first exact: ex_partition. by split; [|exact: ex_var].
Qed.

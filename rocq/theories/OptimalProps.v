(* C96: the predictions of a Gaussian process are the best affine ones and their covariance is that of their errors; C97:
   repeated observations count through their precision weighted mean. *)
From mathcomp Require Import all_ssreflect all_algebra.
From Verif Require Import GpModel GpSpec PsdProofs OptimalSpec OptimalProofs.
Set Implicit Arguments.
Unset Strict Implicit.
Unset Printing Implicit Defensive.
Import Order.TTheory GRing.Theory Num.Theory.
Local Open Scope ring_scope.

Section C96.
Variable R : realFieldType.
Variables (m : nat) (w : 'I_m -> R) (X : Type) (cov : feature X -> feature X -> R) (mu : feature X -> R).
Variables (n : nat) (xs : 'I_n -> feature X) (v : 'cV[R]_n) (p : nat) (zs : 'I_p -> feature X).
Variables (y : 'I_m -> 'cV[R]_n) (z : 'I_m -> 'cV[R]_p).
Hypothesis probable : probabilities w.
Hypothesis prior : follows_prior w cov mu xs v zs y z.
Hypothesis regular : covariance_of w y y \in unitmx.
Local Notation prediction targets := (predict_joint cov mu (fit cov mu xs (Marginal targets v)) zs).

(* The covariance of the prediction does not depend on the observed values and is exactly the covariance of the error that
   the prediction makes, which is zero on average. *)
Theorem C96_calibrated : exists P : 'M[R]_p,
  (forall k, j_cov (prediction (y k)) = P) /\
  squared_error w z (fun k => j_mean (prediction (y k))) = P /\
  expectation w (fun k => z k - j_mean (prediction (y k))) = 0.
Proof. by apply: calibrated => //; rewrite -(AE prior). Qed.

(* No affine function of the observations has smaller squared errors, for any combination of the values: *)
Theorem C96_best (b : 'cV[R]_p) (B : 'M[R]_(p, n)) targets :
  psd (squared_error w z (fun k => b + B *m y k) - j_cov (prediction targets)).
Proof. by apply: best => //; rewrite -(AE prior). Qed.
(* in particular for each value, *)
Theorem C96_variance (b : 'cV[R]_p) (B : 'M[R]_(p, n)) targets i :
  m_var (predict_marginal cov mu (fit cov mu xs (Marginal targets v)) zs) i 0 <= \sum_k w k * (z k i 0 - (b + B *m y k) i 0) ^+ 2.
Proof.
have e : squared_error w z (fun k => b + B *m y k) i i = \sum_k w k * (z k i 0 - (b + B *m y k) i 0) ^+ 2.
  by rewrite /squared_error /expectation summxE; apply: eq_bigr => k _; rewrite mxE [in LHS]mxE big_ord1 !mxE -expr2.
have [-> _] := GpProofs2.predict_agree cov mu (fit cov mu xs (Marginal targets v)) zs; rewrite /= mxE -e -subr_ge0.
by have := psd_diag_ge0 i (C96_best b B targets); rewrite GpProofs2.addmxE' (mxE _ (fun _ _ => - _)).
Qed.
(* and the prediction is the only one that reaches them. *)
Theorem C96_unique (b : 'cV[R]_p) (B : 'M[R]_(p, n)) targets :
  squared_error w z (fun k => b + B *m y k) = j_cov (prediction targets) ->
  forall s, b + B *m s = j_mean (prediction s).
Proof. by apply: unique => //; rewrite -(AE prior). Qed.
End C96.
Print Assumptions C96_calibrated.
Print Assumptions C96_best.
Print Assumptions C96_variance.
Print Assumptions C96_unique.

(* Observations of the distinct features us, the i-th of them of us (h i), are used only through the precision of each feature
   and the sum of its observations weighted by their precisions: two data sets, of any sizes, that agree on these give the
   same predictions everywhere. *)
Theorem C97_sufficient (R : realFieldType) X (cov : feature X -> feature X -> R) mu u (us : 'I_u -> feature X)
    n (h : 'I_n -> 'I_u) (t : marginal R n) n' (h' : 'I_n' -> 'I_u) (t' : marginal R n') :
  psd (\matrix_(i, j) cov (as_measurement (us i)) (as_measurement (us j))) ->
  (forall i, 0 < m_var t i 0) -> (forall i, 0 < m_var t' i 0) ->
  (forall j, precision h t j = precision h' t' j) -> (forall j, weighted_sum h t j = weighted_sum h' t' j) ->
  forall p (zs : 'I_p -> feature X),
  predict_joint cov mu (fit cov mu (us \o h) t) zs = predict_joint cov mu (fit cov mu (us \o h') t') zs.
Proof. by move=> Kp v1 v2 e1 e2 p zs; exact: (@merged R X cov mu u us Kp n h t n' h' t' v1 v2 e1 e2 p zs). Qed.
Print Assumptions C97_sufficient.

(* So repeated observations may be replaced by one per feature, their precision weighted mean with the inverse of the total
   precision as its variance. *)
Theorem C97_collapse (R : realFieldType) X (cov : feature X -> feature X -> R) mu u (us : 'I_u -> feature X)
    n (h : 'I_n -> 'I_u) (t : marginal R n) :
  psd (\matrix_(i, j) cov (as_measurement (us i)) (as_measurement (us j))) ->
  (forall i, 0 < m_var t i 0) -> (forall j, exists i, h i = j) ->
  let collapsed := Marginal (\col_j (weighted_sum h t j / precision h t j)) (\col_j (precision h t j)^-1) in
  forall p (zs : 'I_p -> feature X),
  predict_joint cov mu (fit cov mu (us \o h) t) zs = predict_joint cov mu (fit cov mu us collapsed) zs.
Proof.
move=> Kp vp surj collapsed p zs.
have pp j : 0 < precision h t j.
  have [i hi] := surj j; rewrite /precision (bigD1 i) ?hi //= ltr_paddr ?invr_gt0 //.
  by apply: sumr_ge0 => k _; rewrite invr_ge0 ltW.
apply: (@C97_sufficient R X cov mu u us n h t u id collapsed) => // j; first by rewrite mxE invr_gt0.
- by rewrite [in RHS]/precision big_pred1_eq mxE invrK.
- by rewrite [in RHS]/weighted_sum big_pred1_eq !mxE invrK mulfVK // gt_eqF.
Qed.
Print Assumptions C97_collapse.

(* Splitting an observation into k of the same value with k times the variance changes nothing. *)
Theorem C97_split (R : realFieldType) X (cov : feature X -> feature X -> R) mu (x : feature X) k (y v : R) :
  0 <= cov (as_measurement x) (as_measurement x) -> 0 < v -> (0 < k)%N ->
  forall p (zs : 'I_p -> feature X),
  predict_joint cov mu (fit cov mu (fun _ : 'I_k => x) (Marginal (const_mx y) (const_mx (k%:R * v)))) zs =
  predict_joint cov mu (fit cov mu (fun _ : 'I_1 => x) (Marginal (const_mx y) (const_mx v))) zs.
Proof.
move=> c0 v0 k0 p zs; have k0' : k%:R != 0 :> R by rewrite pnatr_eq0 -lt0n.
have ek : (k%:R * v)^-1 *+ k = v^-1 by rewrite -[_ *+ k]mulr_natl invfM mulrA mulfV // mul1r.
apply: (@C97_sufficient R X cov mu 1 (fun _ => x) k (fun _ => 0) _ 1 id).
- split; first by apply/matrixP=> i j; rewrite !mxE.
  by move=> s; rewrite /quad mxE big_ord1 !mxE big_ord1 !mxE mulrAC mulrC -expr2 mulr_ge0 // sqr_ge0.
- by move=> i; rewrite mxE mulr_gt0 // ltr0n.
- by move=> i; rewrite mxE.
- move=> j; rewrite (ord1 j) /precision big_pred1_eq !mxE; under eq_bigr do rewrite mxE.
  by rewrite sumr_const card_ord ek.
- move=> j; rewrite (ord1 j) /weighted_sum big_pred1_eq !mxE; under eq_bigr do rewrite !mxE.
  by rewrite sumr_const card_ord -mulrnAr ek.
Qed.
Print Assumptions C97_split.

(* A fair coin decides the function, which is 1 or -1 everywhere, and another one the error of its observation: *)
Definition ex_cov (_ _ : feature unit) : rat := 1.
Definition coins (k : 'I_4) : bool * bool := ((k < 2)%N, odd k).
Definition sgn (b : bool) : rat := if b then 1 else - 1.
Example C96_meets : let w := fun _ : 'I_4 => 1 / 4%:R in
  let y k := const_mx (sgn (coins k).1 + sgn (coins k).2) in let z k := const_mx (sgn (coins k).1) in
  probabilities w /\ follows_prior w ex_cov (fun _ => 0) (fun _ : 'I_1 => Bare tt) (const_mx 1) (fun _ : 'I_1 => Bare tt) y z /\
  covariance_of w y y \in unitmx.
Proof.
have S (f : 'I_4 -> rat) : \sum_k f k = f 0 + (f (Ordinal (isT : (1 < 4)%N)) + (f (Ordinal (isT : (2 < 4)%N)) + f (Ordinal (isT : (3 < 4)%N)))).
  by rewrite !big_ord_recl big_ord0 addr0; congr (_ + (f _ + (f _ + f _))); apply: val_inj.
move=> w.
have Ex (f : 'I_4 -> rat) : expectation w (fun k => const_mx (f k) : 'cV_1) = const_mx (\sum_k w k * f k).
  by apply/matrixP=> i j; rewrite /expectation summxE !mxE; apply: eq_bigr => k _; rewrite !mxE.
have Cv (f g : 'I_4 -> rat) : covariance_of w (fun k => const_mx (f k) : 'cV_1) (fun k => const_mx (g k) : 'cV_1) =
    const_mx (\sum_k w k * ((f k - \sum_k w k * f k) * (g k - \sum_k w k * g k))).
  rewrite /covariance_of !Ex; apply/matrixP=> i j; rewrite /expectation summxE !mxE; apply: eq_bigr => k _.
  by rewrite mxE [in LHS]mxE big_ord1 !mxE.
have d n (x : rat) : x = 1 *+ n.+1 -> const_mx x \in @unitmx _ 1.
  by move=> ->; rewrite unitmxE det_mx11 mxE unitfE pnatr_eq0.
split; first by split; [|rewrite S; apply/eqP; vm_compute].
split; last by rewrite Cv; apply: (d 1%N); rewrite S !S; apply/eqP; vm_compute.
split; first by rewrite Ex; apply/matrixP=> i j; rewrite !mxE S; apply/eqP; vm_compute.
split; first by rewrite Ex; apply/matrixP=> i j; rewrite !mxE S; apply/eqP; vm_compute.
split; first by rewrite Cv; apply/matrixP=> i j; rewrite (ord1 i) (ord1 j) !mxE S !S; apply/eqP; vm_compute.
by split; rewrite Cv; apply/matrixP=> i j; rewrite !mxE S !S; apply/eqP; vm_compute.
Qed.
(* two observations of one feature, 1 with variance 1 and 4 with variance 1/2, count as 3 with variance 1/3 *)
Example C97_meets : let t := Marginal (\col_(i < 2) (if i == 0 then 1 : rat else 4%:R)) (\col_(i < 2) (if i == 0 then 1 : rat else 1 / 2%:R)) in
  let h := fun _ : 'I_2 => 0 : 'I_1 in
  psd (\matrix_(i < 1, j < 1) ex_cov (Measured tt) (Measured tt)) /\ (forall i, 0 < m_var t i 0) /\ (forall j, exists i, h i = j) /\
  weighted_sum h t 0 / precision h t 0 = 3%:R /\ (precision h t 0)^-1 = 1 / 3%:R.
Proof.
split.
  split; first by apply/matrixP=> i j; rewrite !mxE.
  by move=> s; rewrite /quad mxE big_ord1 !mxE big_ord1 !mxE mulr1 -expr2 sqr_ge0.
split; first by move=> i; rewrite mxE; case: eqP.
split; first by move=> j; exists 0; rewrite (ord1 j).
rewrite /weighted_sum /precision !big_mkcond !big_ord_recl !big_ord0 !mxE; split; apply/eqP; vm_compute; by [].
Qed.

(* C72: the chi-squared distribution function of a vector deviation. *)
From Coq Require Import Reals.
From Verif Require Import ExtRealModel ChiSquaredModel.
From mathcomp Require Import all_ssreflect all_algebra.
From Verif Require Import RealStruct GpModel GpSpec PsdProofs LdltModel LdltSpec LdltProofs SparseGpSpec SparseGpProofs2 SparseGpExamples MetricsModel MetricsProofs ChiSquaredVectorModel.
From Verif Require Base ChiSquaredProps.
Set Implicit Arguments.
Unset Strict Implicit.
Unset Printing Implicit Defensive.
Import Order.TTheory GRing.Theory Num.Theory.
Local Open Scope ring_scope.

(* the contract of Eigen::LLT on a positive definite matrix *)
Definition llt_contract (llt : forall n, 'M[R]_n -> 'M[R]_n) : Prop :=
  forall n (A : 'M[R]_n), pd A -> (forall i j : 'I_n, (i < j)%N -> llt n A i j = 0) /\ llt n A *m (llt n A)^T = A.
(* the squared Mahalanobis distance *)
Definition mahalanobis n (C : 'M[R]_n) (d : 'cV[R]_n) : R := quad (invmx C) d.

Section C72.
Variables tgamma lgamma : xr -> xr.
Variable llt : forall n, 'M[R]_n -> 'M[R]_n.
Hypothesis hl : llt_contract llt.
Local Notation cdf := (chi_squared_cdf tgamma lgamma).

Lemma root_distance n (C L : 'M[R]_n) (d : 'cV[R]_n) : C \in unitmx -> L *m L^T = C ->
  \sum_i (invmx L *m d) i 0 * (invmx L *m d) i 0 = mahalanobis C d.
Proof.
move=> Cu E; have Lu : L \in unitmx by move: Cu; rewrite -E unitmx_mul => /andP [].
rewrite /mahalanobis /quad -E; have -> : invmx (L *m L^T) = (invmx L)^T *m invmx L.
  apply: (can_inj (mulKmx (_ : L *m L^T \in unitmx))); first by rewrite unitmx_mul Lu unitmx_tr.
  rewrite mulmxV ?unitmx_mul ?Lu ?unitmx_tr // trmx_inv -!mulmxA [L^T *m _]mulmxA mulmxV ?unitmx_tr // mul1mx mulmxV //.
rewrite [d^T *m _]mulmxA -trmx_mul -mulmxA mxE; apply: eq_bigr => i _.
by rewrite [(_ ^T) _ _]mxE.
Qed.
(* the distribution function at the Mahalanobis distance, with one degree of freedom for each coordinate *)
Theorem C72_vector n (d : 'cV[R]_n) (C : 'M[R]_n) : pd C ->
  chi_squared_cdf_vector tgamma lgamma llt d C = cdf (XFin (mahalanobis C d)) (XFin (INR n)).
Proof.
move=> Cp; rewrite /chi_squared_cdf_vector eqxx /= conform_mx_id.
have [_ E] := hl Cp; congr (cdf (XFin _) _); exact: root_distance (pd_unit Cp) E.
Qed.
(* a change of coordinates changes nothing *)
Theorem C72_vector_coordinates n (d : 'cV[R]_n) (C M : 'M[R]_n) : pd C -> M \in unitmx ->
  chi_squared_cdf_vector tgamma lgamma llt (M *m d) (M *m C *m M^T) = chi_squared_cdf_vector tgamma lgamma llt d C.
Proof.
move=> Cp Mu; have Cu := pd_unit Cp.
have Dp : pd (M *m C *m M^T).
  rewrite -[M in M *m C]trmxK; apply: (@pd_congr _ _ _ _ _ (invmx M)^T) => //.
  by rewrite -trmx_mul mulmxV // trmx1.
rewrite !C72_vector //; congr (cdf (XFin _) _); rewrite /mahalanobis /quad.
have -> : invmx (M *m C *m M^T) = (invmx M)^T *m invmx C *m invmx M.
  apply: (can_inj (mulKmx (pd_unit Dp))); rewrite (mulmxV (pd_unit Dp)) trmx_inv.
  rewrite -!mulmxA [M^T *m (_ *m _)]mulmxA mulmxV ?unitmx_tr // mul1mx [C *m (_ *m _)]mulmxA mulmxV // mul1mx mulmxV //.
rewrite trmx_mul -!mulmxA [M^T *m (_ *m _)]mulmxA trmx_inv mulmxV ?unitmx_tr // mul1mx.
by rewrite [invmx M *m _]mulmxA mulVmx // mul1mx.
Qed.
(* no deviation: 0, unless the vector is empty, which gives 1 *)
Theorem C72_vector_zero n (C : 'M[R]_n) : pd C ->
  chi_squared_cdf_vector tgamma lgamma llt (0 : 'cV[R]_n) C = Base.Ok (XFin (if n is 0 then 1%R else 0%R)).
Proof.
move=> Cp; rewrite C72_vector // /mahalanobis /quad mulmx0 mxE; case: n C Cp => [|n] C Cp.
  by rewrite /=; apply: ChiSquaredProps.C72_zero_dof; right; exists 0%R; split=> //; exact: Rle_refl.
have e0 := ChiSquaredProps.eps_pos.
have [|_ H] := @ChiSquaredProps.C72_limits tgamma lgamma (INR n.+1); first by exact: (lt_0_INR _ (PeanoNat.Nat.lt_0_succ n)).
by apply: (H 0%R); split; [exact: Rle_refl | apply: Rmult_lt_0_compat; [exact: Rlt_0_2 | case: e0]].
Qed.
(* the metric of a prediction: the distance to the truth in the covariance of the prediction widened by the noise of the
   truth *)
Theorem C72_prediction n (p : joint R_fieldType n) (t : marginal R_fieldType n) :
  let C : 'M[R]_n := j_cov p + diag (m_var t) in pd C ->
  chi_squared_cdf_prediction tgamma lgamma llt p t = cdf (XFin (mahalanobis C (j_mean p - m_mean t))) (XFin (INR n)).
Proof. by move=> C Cp; rewrite /chi_squared_cdf_prediction eqxx /= conform_mx_id difference_value /= C72_vector. Qed.
Theorem C72_vector_sizes m n (d : 'cV[R]_m) (C : 'M[R]_n) (p : joint R_fieldType m) (t : marginal R_fieldType n) : m <> n ->
  chi_squared_cdf_vector tgamma lgamma llt d C = Base.Abort /\ chi_squared_cdf_prediction tgamma lgamma llt p t = Base.Abort.
Proof. by move=> /eqP /negPf h; rewrite /chi_squared_cdf_vector /chi_squared_cdf_prediction h. Qed.
End C72.
Print Assumptions C72_vector.
Print Assumptions C72_vector_coordinates.
Print Assumptions C72_vector_zero.
Print Assumptions C72_prediction.
Print Assumptions C72_vector_sizes.

(* a factorization that meets the contract *)
Example C72_meets_llt : llt_contract (fun n A => S_mx (plain_ldlt A)).
Proof.
move=> n A Ap; have Ff := plain_ldlt_contract Ap; have Fp := factors_pd Ff Ap; split; last by apply: S_sq => // i; exact: ltW (Fp i).
move=> i j ij; have SE : S_mx (plain_ldlt A) = LdltModel.matrixL (plain_ldlt A) *m diag_mx (diagonal_sqrt (plain_ldlt A))^T.
  by rewrite /S_mx (_ : transpositions_mx (plain_ldlt A) = 1%:M) ?trmx1 ?mul1mx //; exact: no_transpositions.
have L0 : LdltModel.matrixL (plain_ldlt A) i j = 0 by rewrite mxE ltnNge (ltnW ij) /= -val_eqE ltn_eqF.
by rewrite SE mul_mx_diag mxE L0 mul0r.
Qed.

(* C103: the likelihood of data is that of its first part times that of the rest as predicted from the first part. Exact real
   arithmetic; the factorization is any that satisfies the contract of SparseGpSpec.v. *)
From Coq Require Import Reals.
From Verif Require Import ExtRealModel DistanceModel DistanceProofs RadialModel GaussianModel.
From mathcomp Require Import all_ssreflect all_algebra.
From Verif Require Import RealStruct GpModel GpSpec GpHistory GpProofs3 PsdProofs LdltModel LdltSpec SparseGpSpec SparseGpExamples LikelihoodModel LikelihoodSpec LikelihoodProofs LikelihoodProps ChainSpec ChainProofs SparseBoundsExamples.
From Verif Require Base.
Set Implicit Arguments.
Unset Strict Implicit.
Unset Printing Implicit Defensive.
Import Order.TTheory GRing.Theory Num.Theory.
Local Open Scope ring_scope.

Section C103.
Variable tolerance : R.
Variable compute_ldlt : forall n, 'M[R]_n -> ldlt_state n.
Hypothesis hl : ldlt_contract compute_ldlt.
Hypothesis t0 : 0 <= tolerance.
Variable X : Type.
Variable cov : feature X -> feature X -> R.
Variable mu : feature X -> R.
Hypothesis cov_sym : forall x y, cov x y = cov y x.
(* every pivot of the factorization is one that Eigen inverts *)
Let big n (A : 'M[R]_n) := forall i, tolerance < vectorD (compute_ldlt A) i 0.
Let measured n (xs : 'I_n -> feature X) := as_measurement (X := X) \o xs.
Let K n (xs : 'I_n -> feature X) : 'M[R]_n := cov_mx (F := R_fieldType) cov (measured xs) (measured xs).
Let nll m r c (deviation : 'cV[R]_m) (covariance : 'M[R]_(r, c)) := nll_dense tolerance compute_ldlt deviation covariance.

(* negative_log_likelihood of two sets of noisy targets: that of the first under the prior, plus that of the second under the
   prediction of a fit to the first *)
Theorem C103_two_parts n m (xs : 'I_n -> feature X) (t : marginal R_fieldType n) (ys : 'I_m -> feature X) (s : marginal R_fieldType m) :
  agree_new cov mu xs ys ->
  let first := K xs + diag (m_var t) in
  let both := K (concat_f xs ys) + diag (col_mx (m_var t) (m_var s)) in
  let prediction := predict_joint cov mu (fit cov mu xs t) ys in
  let second := j_cov prediction + diag (m_var s) in
  pd both -> big first -> big second -> big both ->
  exists a b, nll (m_mean t - mean_v (F := R_fieldType) mu (measured xs)) first = Base.Ok (XFin a) /\
    nll (m_mean s - j_mean prediction) second = Base.Ok (XFin b) /\
    nll (col_mx (m_mean t) (m_mean s) - mean_v (F := R_fieldType) mu (measured (concat_f xs ys))) both = Base.Ok (XFin (a + b)%R).
Proof.
move=> ag first both prediction second pM b1 b2 b3.
have pM' : pd (kmat cov (concat_f xs ys) (concat_t t s)) by exact: pM.
have [p1 p2] : pd first /\ pd second := parts_pd cov_sym ag pM'.
exists (- gaussian_log_density first (kvec mu xs t)), (- gaussian_log_density second (m_mean s - j_mean prediction)).
rewrite /nll !(C58_dense hl t0) //; split; first by []. split; first by [].
congr (Base.Ok (XFin _)); rewrite -opprD; congr (- _).
have := chain_like cov_sym (GpProofs3.fit_like (xs := xs) (t := t) mu (pd_unit p1)) ag pM'; exact.
Qed.

(* any number of batches, each predicted by what was learned from those before it and then learned from *)
Theorem C103_batches n (xs : 'I_n -> feature X) (t : marginal R_fieldType n) (batches : seq (batch R_fieldType X)) :
  (forall x y, cov (as_measurement x) (as_measurement y) = cov x y) -> (forall x, mu (as_measurement x) = mu x) ->
  let all := concat_all xs t batches in
  pd (kmat cov (projT2 all).1 (projT2 all).2) ->
  prior_log_density cov mu all =
  (prior_log_density cov mu (existT _ n (xs, t)) + one_after_another cov mu (fit cov mu xs t) batches)%R.
Proof.
move=> hc hm all pM; apply: (chain_all cov_sym hc hm _ pM).
by apply: GpProofs3.fit_like; apply: pd_unit; exact: (GpProofs4.pd_prefix cov_sym pM).
Qed.

(* log_likelihood ignores the noise of the targets (C68): that of all the data is that of the first part, plus the log likelihood
   of the second as predicted by a fit that ignores the noise, too *)
Theorem C103_log_likelihood n m (xs : 'I_n -> feature X) (t : marginal R_fieldType n) (ys : 'I_m -> feature X) (s : marginal R_fieldType m) prior_ :
  agree_new cov mu xs ys ->
  let prediction := predict_joint cov mu (fit cov mu xs (Marginal (F := R_fieldType) (m_mean t) 0)) ys in
  pd (K (concat_f xs ys)) -> big (K xs) -> big (j_cov prediction) -> big (K (concat_f xs ys)) ->
  exists a b, gp_log_likelihood tolerance compute_ldlt cov mu prior_ xs t = Base.Ok (xadd (XFin a) prior_) /\
    nll (m_mean s - j_mean prediction) (j_cov prediction) = Base.Ok (XFin (- b)%R) /\
    gp_log_likelihood tolerance compute_ldlt cov mu prior_ (concat_f xs ys) (concat_t t s) = Base.Ok (xadd (XFin (a + b)%R) prior_).
Proof.
move=> ag prediction pM b1 b2 b3.
have d0 k : diag (0 : 'cV[R_fieldType]_k) = 0 by apply/matrixP => i j; rewrite !mxE mul0rn.
have c0 : col_mx (0 : 'cV[R_fieldType]_n) (0 : 'cV[R_fieldType]_m) = 0 by rewrite col_mx0.
have := @C103_two_parts n m xs (Marginal (F := R_fieldType) (m_mean t) 0) ys (Marginal (F := R_fieldType) (m_mean s) 0) ag.
cbv zeta; rewrite -/prediction.
have -> : m_var (Marginal (F := R_fieldType) (m_mean t) 0) = 0 by [].
have -> : m_var (Marginal (F := R_fieldType) (m_mean s) 0) = 0 by [].
rewrite c0 !d0 !addr0 => /(_ pM b1 b2 b3) [a [b [h1 [h2 h3]]]].
exists (- a), (- b); split; last split.
- by rewrite /gp_log_likelihood -/(measured xs) -/(K xs) [nll_dense _ _ _ _]h1.
- by rewrite opprK h2.
- by rewrite /gp_log_likelihood -/(measured (concat_f xs ys)) -/(K (concat_f xs ys)) [nll_dense _ _ _ _]h3 /= -opprD.
Qed.
End C103.
Print Assumptions C103_two_parts.
Print Assumptions C103_batches.
Print Assumptions C103_log_likelihood.

(* three observations with noise, and three more; then exact observations of two features with an invertible covariance *)
Lemma C103_linear_pd : pd (kmat linear (concat_f ex_xs ex_xs) (concat_t ex_t ex_t)).
Proof.
rewrite /kmat addrC; apply: pdD; last exact: linear_psd.
by apply: pd_diag => i /=; case: (split_ordP i) => a ->; rewrite ?col_mxEu ?col_mxEd mxE ltr01.
Qed.
Example C103_meets : ldlt_contract plain_ldlt /\ (forall x y, linear x y = linear y x) /\
  (forall x y, linear (as_measurement x) (as_measurement y) = linear x y) /\
  let data : batch R_fieldType R := existT _ 3%N (ex_xs, ex_t) in
  let all := concat_all ex_xs ex_t [:: data] in
  pd (kmat linear (projT2 all).1 (projT2 all).2) /\
  (forall i, 0 < vectorD (plain_ldlt (kmat linear (projT2 all).1 (projT2 all).2)) i 0).
Proof.
split; first exact: plain_ldlt_contract. split; first by move=> x y; exact: mulrC.
split; first by case=> x; case=> y.
split; first exact: C103_linear_pd.
by have [_] := SparseGpProofs.ldlt_pd plain_ldlt_contract C103_linear_pd.
Qed.
Example C103_noiseless_meets : agree_new (F := R_fieldType) shared (fun _ => 0%R) pt (fun _ : 'I_1 => Bare true) /\
  pd (cov_mx (F := R_fieldType) shared (as_measurement (X := bool) \o concat_f pt (fun _ : 'I_1 => Bare true))
       (as_measurement (X := bool) \o concat_f pt (fun _ : 'I_1 => Bare true))).
Proof.
split; first by split; [|split].
have e : cov_mx (F := R_fieldType) shared (as_measurement (X := bool) \o concat_f pt (fun _ : 'I_1 => Bare true))
       (as_measurement (X := bool) \o concat_f pt (fun _ : 'I_1 => Bare true)) =
   block_mx (42%:R)%:M (42%:R)%:M ((42%:R)%:M)^T (84%:R)%:M :> 'M[R]_(1 + 1).
  apply/matrixP => i j; rewrite [LHS]mxE /= /concat_f.
  case: (split_ordP i) => a ->; case: (split_ordP j) => b ->;
    rewrite ?split_lshift ?split_rshift ?block_mxEul ?block_mxEur ?block_mxEdl ?block_mxEdr !mxE !ord1 eqxx mulr1n /shared /= ?addr0 //.
  by rewrite -natrD.
rewrite e; apply: block_pd; first by apply: SparseGpProofs2.pd_scalar_mx; rewrite ltr0n.
rewrite tr_scalar_mx invmx_scalar -!scalar_mxM divff ?pnatr_eq0 // mul1r -raddfB /=.
apply: SparseGpProofs2.pd_scalar_mx; rewrite subr_gt0 ltr_nat //.
Qed.

(* C104: the log likelihood of a sparse Gaussian process is built up group by group. Exact real arithmetic; the factorizations are
   any that satisfy the contracts of SparseGpSpec.v. A history is a fit followed by any number of updates (SparseGpSpec.v). *)
From Coq Require Import Reals.
From mathcomp Require Import all_ssreflect all_algebra all_fingroup.
From Verif Require Import RealStruct GpModel GpSpec GpHistory LdltModel LdltSpec SparseGpModel SparseGpSpec PsdProofs SparseGpProofs4 SparseGpExamples SparseGpProps SparseBoundsExamples SparseChainSpec SparseChainProofs SparseChainExamples.
Set Implicit Arguments.
Unset Strict Implicit.
Unset Printing Implicit Defensive.
Import Order.TTheory GRing.Theory Num.Theory.
Local Open Scope ring_scope.

Section C104.
Variable X : Type.
Variable cov : feature X -> feature X -> R.
Variable mean_function : feature X -> R.
Variable compute_ldlt : forall n, 'M[R]_n -> ldlt_state n.
Variable compute_qr : forall m n, 'M[R]_(m, n) -> qr_result m n.
Variables tolerance measurement_nugget inducing_nugget sparse_R_nugget : R.
Hypothesis hldlt : ldlt_contract compute_ldlt.
Hypothesis hqr : qr_contract compute_qr.
Hypothesis hk : psd_kernel cov.
Hypothesis hnu : 0 < inducing_nugget.
Hypothesis t0 : 0 <= tolerance.
Variables (k : nat) (u : 'I_k -> feature X).
Local Notation history_ := (history cov compute_ldlt compute_qr measurement_nugget inducing_nugget sparse_R_nugget u).
Local Notation resolved := (resolved_pivots cov compute_ldlt tolerance measurement_nugget inducing_nugget u).
Local Notation log_likelihood := (likelihood_of cov compute_ldlt compute_qr tolerance measurement_nugget inducing_nugget u).
Local Notation data xs t groups := (existT _ _ (xs, t, groups) : grouped X).

(* A group of observations adds the log density of its targets under the prediction of the measurements, with their noise and the
   nugget, by a model that was fit, or fit and updated, to the observations before it. *)
Theorem C104_group n m (xs : 'I_n -> feature X) t groups f (ys : 'I_m -> feature X) (s : marginal R_fieldType m) prior_ :
  history_ xs t groups f -> (forall i, 0 < m_var s i 0 + measurement_nugget) -> (forall x, mean_function x = 0) ->
  let both := data (concat_f xs ys) (concat_t t s) (joined_groups groups (one_group m)) in
  resolved (data xs t groups) -> resolved both ->
  exists first, log_likelihood (data xs t groups) prior_ = Some first /\
    log_likelihood both prior_ = Some (first + sparse_predicted_log_density cov mean_function measurement_nugget f ys s)%R.
Proof.
move=> H hv h0 both r1 r2; have [hp hv1] := C47_groups hldlt hqr hk hnu H.
have H' := history_update ys H (one_group_partition m) hv; have [hp' hv'] := C47_groups hldlt hqr hk hnu H'.
eexists; split; first exact: (C46_log_likelihood hldlt hqr hk hnu prior_ hp hv1 t0 r1).
rewrite [LHS](C46_log_likelihood hldlt hqr hk hnu prior_ hp' hv' t0 r2); congr Some.
by rewrite [X in X + _](chain_group hldlt hqr hk hnu ys H hv h0) addrAC.
Qed.

(* Any number of batches, each of them a group, predicted by what was learned from those before and then learned from. *)
Theorem C104_batches n (xs : 'I_n -> feature X) t groups f (batches : seq (batch R_fieldType X)) prior_ :
  history_ xs t groups f -> (forall x, mean_function x = 0) ->
  let all := add_groups xs t groups batches in
  noisy measurement_nugget all -> resolved (data xs t groups) -> resolved all ->
  exists first, log_likelihood (data xs t groups) prior_ = Some first /\
    log_likelihood all prior_ =
    Some (first + sparse_one_after_another cov mean_function compute_ldlt compute_qr measurement_nugget inducing_nugget sparse_R_nugget f batches)%R.
Proof.
move=> H h0 all hv r1 r2; have [hp hv1] := C47_groups hldlt hqr hk hnu H.
eexists; split; first exact: (C46_log_likelihood hldlt hqr hk hnu prior_ hp hv1 t0 r1).
have := add_history hldlt hqr hk hnu H hv h0; move: hv r2; rewrite -/all; case: all => q [[zs r] hs] /= hv r2 [hp' e].
by rewrite [LHS](C46_log_likelihood hldlt hqr hk hnu prior_ hp' hv t0 r2) e addrAC.
Qed.

(* Neither the order of the observations nor that of the groups matters. *)
Theorem C104_order n (xs : 'I_n -> feature X) t groups groups' (order : 'I_n -> 'I_n) prior_ :
  bijective order -> (forall i j, same_group groups' i j = same_group groups (order i) (order j)) ->
  groups_partition groups -> groups_partition groups' -> (forall i, 0 < m_var t i 0 + measurement_nugget) ->
  let other := data (xs \o order) (marginal_subset order t) groups' in
  resolved (data xs t groups) -> resolved other ->
  log_likelihood other prior_ = log_likelihood (data xs t groups) prior_.
Proof.
move=> hb hs hp hp' hv other r1 r2.
rewrite [RHS](C46_log_likelihood hldlt hqr hk hnu prior_ hp hv t0 r1).
have hv' i : 0 < m_var (marginal_subset order t) i 0 + measurement_nugget by rewrite /= mxE.
rewrite [LHS](C46_log_likelihood hldlt hqr hk hnu prior_ hp' hv' t0 r2); congr (Some (_ + _)).
rewrite [m_var _]/= (reordered_pitc cov measurement_nugget inducing_nugget u xs (m_var t) (bij_inj hb) hs).
by apply: density_mxsub => //; exact: (PsdProofs.pd_unit (T_pd hldlt hk hnu u xs hp hv).2).
Qed.
End C104.
Print Assumptions C104_group.
Print Assumptions C104_batches.
Print Assumptions C104_order.

(* finding: with a mean function the likelihood is not that of the predictions. Predictions add the mean function, but log_likelihood
   leaves it out (C48) *)
Theorem C104_mean_function_refuted (compute_ldlt : forall n, 'M[R]_n -> ldlt_state n) (compute_qr : forall m n, 'M[R]_(m, n) -> qr_result m n) :
  ldlt_contract compute_ldlt -> qr_contract compute_qr ->
  exists X (cov : feature X -> feature X -> R) (mean_function : feature X -> R) (nugget : R) k (u : 'I_k -> feature X)
    n (xs : 'I_n -> feature X) t groups f m (ys : 'I_m -> feature X) s a b,
  psd_kernel cov /\ 0 < nugget /\ history cov compute_ldlt compute_qr 0%R nugget 0%R u xs t groups f /\ (forall i, 0 < m_var s i 0) /\
  sparse_log_likelihood cov compute_ldlt compute_qr 0%R 0%R nugget groups u xs t 0%R = Some a /\
  sparse_log_likelihood cov compute_ldlt compute_qr 0%R 0%R nugget (joined_groups groups (one_group m)) u (concat_f xs ys) (concat_t t s) 0%R = Some b /\
  b <> (a + sparse_predicted_log_density cov mean_function 0%R f ys s)%R.
Proof.
move=> hl hq; have nu0 : 0 < (7%:R : R) by rewrite ltr0n.
pose f := sparse_fit_impl shared compute_ldlt compute_qr 0%R (7%:R)%R [::] pt none none_t.
have H : history shared compute_ldlt compute_qr 0%R (7%:R)%R 0%R pt none none_t [::] f
  by apply: history_fit; [exact: none_partition | exact: none_var].
have hv i : 0 < m_var one_t i 0 + 0%R by rewrite mxE addr0 ltr01.
have H' := history_update once H (one_group_partition 1) hv; have [hp' hv'] := C47_groups hl hq shared_psd nu0 H'.
have r1 := resolved_0 pt none hl shared_psd nu0 none_partition (none_var 0%R).
have r2 := resolved_0 pt (concat_f none once) hl shared_psd nu0 hp' hv'.
have [a [ea eb]] := C104_group (mean_function := fun _ => 0%R) hl hq shared_psd nu0 (lexx 0) 0%R H hv (fun _ => erefl) r1 r2.
exists bool, shared, (fun _ => 1%R), (7%:R)%R, 1%N, pt, 0%N, none, none_t, [::], f, 1%N, once, one_t, a.
eexists; split; first exact: shared_psd. split; first by []. split; first exact: H.
split; first by move=> i; have := hv i; rewrite addr0.
split; first exact: ea. split; first exact: eb.
by move/addrI; exact/eqP/mean_matters.
Qed.
Print Assumptions C104_mean_function_refuted.

(* finding: nor is it for a batch of more than one group: predictions use the exact covariance of observations in different groups,
   log_likelihood the approximate one *)
Theorem C104_groups_refuted (compute_ldlt : forall n, 'M[R]_n -> ldlt_state n) (compute_qr : forall m n, 'M[R]_(m, n) -> qr_result m n) :
  ldlt_contract compute_ldlt -> qr_contract compute_qr ->
  exists X (cov : feature X -> feature X -> R) (nugget : R) k (u : 'I_k -> feature X)
    n (xs : 'I_n -> feature X) t groups f m (ys : 'I_m -> feature X) s groups' a b,
  psd_kernel cov /\ 0 < nugget /\ history cov compute_ldlt compute_qr 0%R nugget 0%R u xs t groups f /\ groups_partition groups' /\
  (forall i, 0 < m_var s i 0) /\
  sparse_log_likelihood cov compute_ldlt compute_qr 0%R 0%R nugget groups u xs t 0%R = Some a /\
  sparse_log_likelihood cov compute_ldlt compute_qr 0%R 0%R nugget (joined_groups groups groups') u (concat_f xs ys) (concat_t t s) 0%R = Some b /\
  b <> (a + sparse_predicted_log_density cov (fun _ => 0%R) 0%R f ys s)%R.
Proof.
move=> hl hq; have nu0 : 0 < (7%:R : R) by rewrite ltr0n.
pose f := sparse_fit_impl shared compute_ldlt compute_qr 0%R (7%:R)%R [::] pt none none_t.
have H : history shared compute_ldlt compute_qr 0%R (7%:R)%R 0%R pt none none_t [::] f
  by apply: history_fit; [exact: none_partition | exact: none_var].
have H' := history_update twice H apart_partition twice_var; have [hp' hv'] := C47_groups hl hq shared_psd nu0 H'.
have r1 := resolved_0 pt none hl shared_psd nu0 none_partition (none_var 0%R).
have r2 := resolved_0 pt (concat_f none twice) hl shared_psd nu0 hp' hv'.
have ea := C46_log_likelihood hl hq shared_psd nu0 0%R none_partition (none_var 0%R) (lexx 0) r1.
have eb := C46_log_likelihood hl hq shared_psd nu0 0%R hp' hv' (lexx 0) r2.
rewrite addr0 in ea; rewrite addr0 in eb.
exists bool, shared, (7%:R)%R, 1%N, pt, 0%N, none, none_t, [::], f, 2%N, twice, twice_t, apart; do 2 eexists.
split; first exact: shared_psd. split; first by []. split; first exact: H. split; first exact: apart_partition.
split; first by move=> i; have := twice_var i; rewrite addr0.
split; first exact: ea. split; first exact: eb.
exact/eqP/two_groups.
Qed.
Print Assumptions C104_groups_refuted.

(* three observations in two groups, then three more in one group, in two orders *)
Example C104_meets :
  ldlt_contract plain_ldlt /\ qr_contract plain_qr /\ psd_kernel linear /\
  let f := sparse_fit_impl linear plain_ldlt plain_qr 1 1 ex_groups ex_u ex_xs ex_t in
  history linear plain_ldlt plain_qr 1 1 1 ex_u ex_xs ex_t ex_groups f /\
  let more : batch R_fieldType R := existT _ 3%N (ex_xs, ex_t) in
  let all := add_groups ex_xs ex_t ex_groups [:: more] in
  noisy 1 all /\ resolved_pivots linear plain_ldlt 0 1 1 ex_u (existT _ _ (ex_xs, ex_t, ex_groups)) /\
  resolved_pivots linear plain_ldlt 0 1 1 ex_u all /\
  resolved_pivots linear plain_ldlt 0 1 1 ex_u (existT _ _ (ex_xs \o @rev_ord 3, marginal_subset (@rev_ord 3) ex_t, ex_opposite)) /\
  (forall i j, same_group ex_opposite i j = same_group ex_groups (rev_ord i) (rev_ord j)).
Proof.
have one0 : 0 < 1 :> R by exact: ltr01.
split; first exact: plain_ldlt_contract. split; first exact: plain_qr_contract. split; first exact: linear_psd.
move=> f; have H : history linear plain_ldlt plain_qr 1 1 1 ex_u ex_xs ex_t ex_groups f
  by apply: history_fit; [exact: ex_partition | exact: ex_var].
split; first exact: H. move=> more all.
have H' := history_update ex_xs H (one_group_partition 3) ex_var.
have [hp' hv'] := C47_groups plain_ldlt_contract plain_qr_contract linear_psd one0 H'.
split; first exact: hv'.
split; first exact: (resolved_0 ex_u ex_xs plain_ldlt_contract linear_psd one0 ex_partition ex_var).
split; first exact: (resolved_0 ex_u _ plain_ldlt_contract linear_psd one0 hp' hv').
split; first exact: (resolved_0 ex_u _ plain_ldlt_contract linear_psd one0 opposite_partition opposite_var).
exact: opposite_same.
Qed.

(* Proofs of C104. *)
From Coq Require Import Reals.
From mathcomp Require Import all_ssreflect all_algebra all_fingroup.
From Verif Require Import RealStruct GpModel GpSpec GpHistory GpProofs GpProofs2 GpProofs3 GpProofs4 PsdProofs LdltModel LdltSpec SparseGpModel SparseGpSpec SparseGpProofs SparseGpProofs2 SparseGpProofs3 SparseGpProofs4 SparseBoundsProofs ChainProofs SparseChainSpec.
Set Implicit Arguments.
Unset Strict Implicit.
Unset Printing Implicit Defensive.
Import Order.TTheory GRing.Theory Num.Theory.
Local Open Scope ring_scope.

Lemma one_group_partition m : groups_partition (one_group m).
Proof. by rewrite /groups_partition /one_group /= cats0. Qed.
Lemma one_group_same m (i j : 'I_m) : same_group (one_group m) i j.
Proof. by rewrite /same_group /= !mem_enum. Qed.

Section Chain.
Variable X : Type.
Variable cov : feature X -> feature X -> R.
Variable mean_function : feature X -> R.
Variable compute_ldlt : forall n, 'M[R]_n -> ldlt_state n.
Variable compute_qr : forall m n, 'M[R]_(m, n) -> qr_result m n.
Variables tolerance measurement_nugget inducing_nugget sparse_R_nugget : R.
Hypothesis hldlt : ldlt_contract compute_ldlt.
Hypothesis hqr : qr_contract compute_qr.
Hypothesis hk : psd_kernel cov.
Hypothesis hnu : 0 < inducing_nugget.
Variables (k : nat) (u : 'I_k -> feature X).
Local Notation M := (K_uu cov inducing_nugget u).
Local Notation meas xs := (as_measurement (X := X) \o xs).
Local Notation pitc_ gs xs v := (pitc cov inducing_nugget measurement_nugget u (same_group gs) (meas xs) v).
Local Notation thr := (through cov inducing_nugget u).
Local Notation history_ := (history cov compute_ldlt compute_qr measurement_nugget inducing_nugget sparse_R_nugget u).

Lemma through_tr n m (xs : 'I_n -> feature X) (ys : 'I_m -> feature X) : (thr xs ys)^T = thr ys xs.
Proof.
rewrite !throughE !trmx_mul mulmxA (cov_tr hk u ys) (cov_tr hk xs u).
by have [-> _] := pd_inv (M_pd hk hnu u).
Qed.
Lemma through_entry n m (xs : 'I_n -> feature X) (ys : 'I_m -> feature X) i j :
  thr xs ys i j = \sum_c (\sum_d cov (xs i) (u d) * invmx M d c) * cov (u c) (ys j).
Proof.
rewrite throughE !mxE; apply: eq_bigr => c _; rewrite !mxE; congr (_ * _).
by apply: eq_bigr => d _; rewrite !mxE.
Qed.

Lemma pitc_join n m (xs : 'I_n -> feature X) (ys : 'I_m -> feature X) v w gs gs' :
  pitc_ (joined_groups gs gs') (concat_f xs ys) (col_mx v w) =
  block_mx (pitc_ gs xs v) (thr (meas xs) (meas ys)) (thr (meas xs) (meas ys))^T (pitc_ gs' ys w).
Proof.
rewrite through_tr; apply/matrixP => i j; rewrite /joined_groups.
case: (split_ordP i) => a ->; case: (split_ordP j) => b ->;
  rewrite ?block_mxEul ?block_mxEur ?block_mxEdl ?block_mxEdr [LHS]mxE ?same_ll ?same_lr ?same_rl ?same_rr.
- rewrite [RHS]mxE (inj_eq (@lshift_inj _ _)) col_mxEu !through_entry /= /concat_f !split_lshift //.
- by rewrite !through_entry /= /concat_f split_lshift split_rshift.
- by rewrite !through_entry /= /concat_f split_lshift split_rshift.
- rewrite [RHS]mxE (inj_eq (@rshift_inj _ _)) col_mxEd !through_entry /= /concat_f !split_rshift //.
Qed.
Lemma pitc_one m (ys : 'I_m -> feature X) w :
  pitc_ (one_group m) ys w = cov_mx cov (meas ys) (meas ys) + diag w + measurement_nugget%:M.
Proof.
apply/matrixP => i j; rewrite [LHS]mxE one_group_same !mxE -addrA; congr (_ + _).
by case: eqP => [->|_]; rewrite ?mulr1n // !mulr0n addr0.
Qed.

Lemma chain_group n m (xs : 'I_n -> feature X) t gs f (ys : 'I_m -> feature X) s :
  history_ xs t gs f -> (forall i, 0 < m_var s i 0 + measurement_nugget) -> (forall x, mean_function x = 0) ->
  gaussian_log_density (pitc_ (joined_groups gs (one_group m)) (concat_f xs ys) (m_var (concat_t t s))) (m_mean (concat_t t s)) =
  (gaussian_log_density (pitc_ gs xs (m_var t)) (m_mean t) + sparse_predicted_log_density cov mean_function measurement_nugget f ys s)%R.
Proof.
move=> H hv' h0; have [[W [e1 [e2 e3]]] [pA _]] := history_posterior mean_function hldlt hqr hk hnu (meas ys) H.
have [hp [hv _]] := history_stores hldlt hqr hk hnu H.
have pJ : pd (pitc_ (joined_groups gs (one_group m)) (concat_f xs ys) (m_var (concat_t t s))).
  apply: (T_pd hldlt hk hnu u (concat_f xs ys) (t := concat_t t s) _ _).2.
    exact: partition_join hp (one_group_partition m).
  by move=> i /=; case: (split_ordP i) => a ->; rewrite ?col_mxEu ?col_mxEd.
move: pJ; rewrite [m_var (concat_t t s)]/= [m_mean (concat_t t s)]/= pitc_join => pJ.
rewrite density_block //; congr (_ + _).
set A := pitc_ gs xs _ in e1 e2 e3 pA pJ *; have Au := pd_unit pA.
have As : A^T = A by case: pA.
rewrite through_tr.
have {}e1 : thr (meas ys) (meas xs) = W *m A by apply/eqP; rewrite -subr_eq0 e1.
have eW : thr (meas ys) (meas xs) *m invmx A = W by rewrite e1 mulmxK.
have m0 : mean_v mean_function (meas ys) = 0 by apply/matrixP => i j; rewrite !mxE h0.
rewrite eW /sparse_predicted_log_density pitc_one; congr gaussian_log_density.
- by rewrite e3 -(through_tr (meas ys) (meas xs)) e1 subrK ![_ + _ - W *m _]addrAC.
- by rewrite e2 m0 subr0 add0r.
Qed.

Lemma add_history n (xs : 'I_n -> feature X) t gs f (bs : seq (batch R_fieldType X)) :
  history_ xs t gs f -> noisy measurement_nugget (add_groups xs t gs bs) -> (forall x, mean_function x = 0) ->
  let: existT _ (zs, r, hs) := add_groups xs t gs bs in
  groups_partition hs /\
  gaussian_log_density (pitc_ hs zs (m_var r)) (m_mean r) =
  (gaussian_log_density (pitc_ gs xs (m_var t)) (m_mean t) +
   sparse_one_after_another cov mean_function compute_ldlt compute_qr measurement_nugget inducing_nugget sparse_R_nugget f bs)%R.
Proof.
move=> H hv h0; elim: bs n xs t gs f H hv => [|[m [ys s]] bs IH] n xs t gs f H hv.
  by rewrite /= addr0; split; first by have [] := history_stores hldlt hqr hk hnu H.
have hs : forall i, 0 < m_var s i 0 + measurement_nugget.
  have L : forall bs' q (zs : 'I_q -> feature X) r hs, noisy measurement_nugget (add_groups zs r hs bs') -> forall i, 0 < m_var r i 0 + measurement_nugget.
    elim=> [|[m' [ys' s']] bs' IH'] q zs r hs //= h i.
    by have := IH' _ _ _ _ h (lshift _ i); rewrite /= col_mxEu.
  by move=> i; have := L bs _ (concat_f xs ys) (concat_t t s) _ hv (rshift n i); rewrite /= col_mxEd.
have H' := history_update ys H (one_group_partition m) hs.
have := IH _ _ _ _ _ H' hv; rewrite /= -/(joined_groups gs (one_group m)).
case: (add_groups (concat_f xs ys) (concat_t t s) (joined_groups gs (one_group m)) bs) => q [[zs r] gg] [hg ->]; split; first exact: hg.
by have := chain_group ys H hs h0; rewrite /= => ->; rewrite addrA.
Qed.

Lemma reordered_pitc n (xs : 'I_n -> feature X) v gs gs' (h : 'I_n -> 'I_n) : injective h ->
  (forall i j, same_group gs' i j = same_group gs (h i) (h j)) ->
  pitc_ gs' (xs \o h) (subset_v h v) = mxsub h h (pitc_ gs xs v).
Proof.
move=> hi hs; apply/matrixP => i j; rewrite [LHS]mxE [RHS]mxE [RHS]mxE hs (inj_eq hi) !through_entry.
by case: ifP => // _; rewrite mxE.
Qed.
Lemma density_mxsub n (A : 'M[R]_n) (y : 'cV[R]_n) (h : 'I_n -> 'I_n) : bijective h -> A \in unitmx ->
  gaussian_log_density (mxsub h h A) (rowsub h y) = gaussian_log_density A y.
Proof.
move=> hb Au; rewrite /gaussian_log_density det_mxsub //; have [_ ->] := mxsub_inv hb Au.
rewrite mxsub_tr -(mxsub_mulb _ _ id h hb) -(mxsub_mulb _ _ id id hb).
by have -> : mxsub id id (y^T *m invmx A *m y) = y^T *m invmx A *m y by apply/matrixP => i j; rewrite [LHS]mxE.
Qed.
End Chain.

(* Concrete instances of C104: a mean function, and a batch of two groups. *)
From Coq Require Import Reals.
From mathcomp Require Import all_ssreflect all_algebra all_fingroup.
From Verif Require Import RealStruct GpModel GpSpec GpHistory GpProofs GpProofs2 GpProofs3 GpProofs4 PsdProofs LdltModel LdltSpec SparseGpModel SparseGpSpec SparseGpProofs SparseGpProofs2 SparseGpProofs3 SparseGpProofs4 SparseGpExamples SparseBoundsProofs SparseBoundsExamples ChainProofs SparseChainSpec SparseChainProofs.
Set Implicit Arguments.
Unset Strict Implicit.
Unset Printing Implicit Defensive.
Import Order.TTheory GRing.Theory Num.Theory.
Local Open Scope ring_scope.

Lemma det2 (A : 'M[R]_2) : \det A = A 0 0 * A 1 1 - A 0 1 * A 1 0.
Proof.
rewrite (expand_det_row A 0) big_ord_recl big_ord1 /cofactor !det_mx11 !mxE /= !expr0 !mul1r.
have -> : lift ord0 ord0 = 1 :> 'I_2 by apply/val_inj.
have -> : lift 1 0 = 0 :> 'I_2 by apply/val_inj.
by rewrite expr1 mulN1r mulrN.
Qed.
Lemma resolved_0 X (cov : feature X -> feature X -> R) (compute_ldlt : forall n, 'M[R]_n -> ldlt_state n) mn nu k (u : 'I_k -> feature X) n (xs : 'I_n -> feature X) t gs :
  ldlt_contract compute_ldlt -> psd_kernel cov -> 0 < nu -> groups_partition gs -> (forall i, 0 < m_var t i 0 + mn) ->
  above_tolerance 0 (c_A_ldlt (compute_internal_components cov compute_ldlt mn nu gs u xs t)).
Proof.
move=> hl hk hn hp hv; have [A [-> [Ap _]]] := comp_A hl hk hn u xs hp hv.
exact: above_zero_blocks.
Qed.
Definition none : 'I_0 -> feature bool := fun i => match notF (ltn_ord i) with end.
Definition none_t : marginal R_fieldType 0 := Marginal (F := R_fieldType) 0 0.
Definition one_t : marginal R_fieldType 1 := Marginal (F := R_fieldType) 0 (const_mx 1%R).
Definition once : 'I_1 -> feature bool := fun _ => Bare true.
Lemma none_partition : groups_partition ([::] : seq (seq 'I_0)).
Proof. by rewrite /groups_partition /= enum_ord0. Qed.
Lemma none_var (mn : R) i : 0 < m_var none_t i 0 + mn.
Proof. by case: i. Qed.

Lemma mean_const (c : R) m (ys : 'I_m -> feature bool) : mean_v (F := R_fieldType) (fun _ : feature bool => c) ys = const_mx c.
Proof. by apply/matrixP => i j; rewrite !mxE. Qed.

Section Example.
Variable compute_ldlt : forall n, 'M[R]_n -> ldlt_state n.
Variable compute_qr : forall m n, 'M[R]_(m, n) -> qr_result m n.
Hypothesis hldlt : ldlt_contract compute_ldlt.
Hypothesis hqr : qr_contract compute_qr.
Let nu : R := (7%:R)%R.
Let nu0 : 0 < nu. Proof. by rewrite ltr0n. Qed.
Let f := sparse_fit_impl shared compute_ldlt compute_qr 0%R nu [::] pt none none_t.
Let H : history shared compute_ldlt compute_qr 0%R nu 0%R pt none none_t [::] f.
Proof. by apply: history_fit; [exact: none_partition | exact: none_var]. Qed.
Local Notation density mu ys s := (sparse_predicted_log_density shared mu 0%R f ys s).
Lemma predicted mu m (ys : 'I_m -> feature bool) s :
  density mu ys s = gaussian_log_density (cov_mx shared (as_measurement (X := bool) \o ys) (as_measurement (X := bool) \o ys) + diag (m_var s))
     (m_mean s - mean_v mu (as_measurement (X := bool) \o ys)).
Proof.
rewrite /sparse_predicted_log_density (nothing mu hldlt hqr shared_psd nu0 _ H) [j_cov _]/= [j_mean _]/=.
by rewrite raddf0 addr0.
Qed.
Lemma mean_matters : density (fun _ => 0%R) once one_t != density (fun _ => 1%R) once one_t.
Proof.
rewrite !predicted /gaussian_log_density.
have -> : cov_mx shared (as_measurement (X := bool) \o once) (as_measurement (X := bool) \o once) + diag (m_var one_t) = (85%:R)%:M.
  apply/matrixP => i j; rewrite !mxE !ord1 eqxx !mulr1n /shared /= -natrD -mulrSr //.
rewrite invmx_scalar [m_mean _]/=.
rewrite !mean_const.
have -> : const_mx 0 = 0 :> 'cV[R]_1 by apply/matrixP => i j; rewrite !mxE.
have -> : const_mx 1 = 1%:M :> 'cV[R]_1 by apply/matrixP => i j; rewrite !mxE !ord1.
rewrite subr0 mulmx0 sub0r !mulmxN mulmx1 raddfN /= trmx1 mulNmx opprK mul1mx !mxE eqxx mulr1n.
apply/eqP => /mulfI e.
have {}e := e _; move: (e ltac:(by rewrite oppr_eq0 invr_eq0 pnatr_eq0)) => /addIr /addrI /eqP.
by rewrite eq_sym invr_eq0 pnatr_eq0.
Qed.
Lemma two_groups :
  gaussian_log_density (pitc shared nu 0%R pt (same_group (joined_groups [::] apart)) (as_measurement (X := bool) \o concat_f none twice) (m_var (concat_t none_t twice_t)))
    (m_mean (concat_t none_t twice_t)) !=
  gaussian_log_density (pitc shared nu 0%R pt (same_group ([::] : seq (seq 'I_0))) (as_measurement (X := bool) \o none) (m_var none_t)) (m_mean none_t) +
  density (fun _ => 0%R) twice twice_t.
Proof.
have pJ : pd (pitc shared nu 0%R pt (same_group (joined_groups [::] apart)) (as_measurement (X := bool) \o concat_f none twice) (m_var (concat_t none_t twice_t))).
  apply: (T_pd hldlt shared_psd nu0 pt (concat_f none twice) (t := concat_t none_t twice_t) _ _).2.
    exact: partition_join none_partition apart_partition.
  by move=> i /=; case: (split_ordP i) => a ->; rewrite ?col_mxEu ?col_mxEd ?twice_var ?none_var.
move: pJ; rewrite [m_var (concat_t _ _)]/= [m_mean (concat_t _ _)]/= (pitc_join 0%R shared_psd nu0) => pJ.
rewrite density_block // (inj_eq (addrI _)) predicted.
rewrite [through _ _ _ _ _]flatmx0 trmx0 !mul0mx !subr0.
rewrite mean_const.
have -> : const_mx 0 = 0 :> 'cV[R]_2 by apply/matrixP => i j; rewrite !mxE.
rewrite subr0.
have m0 : m_mean twice_t = 0 by apply/matrixP => i j; rewrite !mxE.
rewrite m0 /gaussian_log_density !mulmx0.
set S := pitc _ _ _ _ _ _ _; set T := cov_mx _ _ _ + _.
have pS : pd S by exact: (T_pd hldlt shared_psd nu0 pt twice (t := twice_t) apart_partition twice_var).2.
have pT : pd T.
  rewrite /T addrC; apply: pdD; last exact: shared_psd.
  by rewrite /diag; apply: (@pd_diag _ _ (const_mx 1)) => i; rewrite mxE ltr01.
have SE i j : S i j = if i == j then 85%:R else 36%:R.
  rewrite /S mxE apart_same; case: eqP => _; last exact: through36.
  by rewrite /shared /= mxE addr0 -natrD -mulrSr.
have TE a b : T a b = if a == b then 85%:R else 84%:R.
  rewrite /T !mxE /shared /= -natrD; case: eqP => _; last by rewrite mulr0n addr0.
  by rewrite mulr1n -mulrSr.
apply/eqP => /mulfI e.
have {}e := e _; move: (e ltac:(by rewrite oppr_eq0 invr_eq0 pnatr_eq0)) => /addIr /addIr el.
have := Rpower.ln_inv _ _ (elimT (RltP _ _) (pd_det pS)) (elimT (RltP _ _) (pd_det pT)) el.
rewrite !det2 !SE !TE /= => /addrI /oppr_inj /eqP.
rewrite -!natrM eqr_nat. by [].
Qed.
End Example.

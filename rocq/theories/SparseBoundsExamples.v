(* Concrete instances of C102: reordered observations, and a sparse Gaussian process that is more certain than the exact one. *)
From Coq Require Import Reals.
From mathcomp Require Import all_ssreflect all_algebra all_fingroup.
From Verif Require Import RealStruct GpModel GpSpec GpHistory GpProofs GpProofs2 GpProofs3 GpProofs4 PsdProofs LdltModel LdltSpec SparseGpModel SparseGpSpec SparseGpProofs SparseGpProofs2 SparseGpProofs3 SparseGpProofs4 SparseGpExamples SparseBoundsProofs.
Set Implicit Arguments.
Unset Strict Implicit.
Unset Printing Implicit Defensive.
Import Order.TTheory GRing.Theory Num.Theory.
Local Open Scope ring_scope.

(* two features, an inducing point (false) and one that is observed (true): 42 is shared, and the observed one has another 42 *)
Definition flag (f : feature bool) : bool := match f with Bare x => x | Measured x => x end.
Definition shared (a b : feature bool) : R := (42%:R + (if flag a && flag b then 42%:R else 0))%R.
Lemma shared_psd : psd_kernel shared.
Proof.
move=> n xs; pose g : 'cV[R]_n := const_mx 1; pose h : 'cV[R]_n := \col_i (flag (xs i))%:R.
have -> : cov_mx shared xs xs = (g^T)^T *m (42%:R)%:M *m g^T + (h^T)^T *m (42%:R)%:M *m h^T.
  apply/matrixP => i j; rewrite !trmxK !mul_mx_scalar -!scalemxAl [RHS]mxE [LHS]mxE !mxE !big_ord1 !mxE /shared.
  by rewrite mulr1 mulr1; case: (flag _); case: (flag _); rewrite ?mulr1 ?mulr0 ?mul0r ?mulr0.
by apply: psdD; apply: psd_congr; apply: psd_scalar_mx; exact: ler0n.
Qed.
Definition pt : 'I_1 -> feature bool := fun _ => Bare false.
Definition twice : 'I_2 -> feature bool := fun _ => Bare true.
Definition twice_t : marginal R_fieldType 2 := Marginal (F := R_fieldType) (const_mx 0%R) (const_mx 1%R).
Definition apart : seq (seq 'I_2) := [seq [:: i] | i <- enum 'I_2].
Lemma apart_partition : groups_partition apart.
Proof. by rewrite /groups_partition /apart flatten_seq1. Qed.
Lemma twice_var i : 0 < m_var twice_t i 0 + 0%R.
Proof. by rewrite mxE addr0 ltr01. Qed.
Lemma apart_same i j : same_group apart i j = (i == j).
Proof.
rewrite /same_group has_map; apply/hasP/eqP => [[x _ /=]|<-]; first by rewrite !inE => /andP [/eqP -> /eqP ->].
by exists i; rewrite ?mem_enum //= !inE eqxx.
Qed.

Section Overconfident.
Variable compute_ldlt : forall n, 'M[R]_n -> ldlt_state n.
Variable compute_qr : forall m n, 'M[R]_(m, n) -> qr_result m n.
Hypothesis hldlt : ldlt_contract compute_ldlt.
Hypothesis hqr : qr_contract compute_qr.
Let nu : R := (7%:R)%R.
Let nu0 : 0 < nu. Proof. by rewrite ltr0n. Qed.
Local Notation meas := (as_measurement (X := bool) \o twice).
Let sparse := sparse_predict_joint shared (fun _ => 0) (sparse_fit_impl shared compute_ldlt compute_qr 0%R nu apart pt twice twice_t) pt.
Let exact := predict_joint shared (fun _ => 0) (fit shared (fun _ => 0) twice twice_t) pt.

Lemma M49 : K_uu shared nu pt = (49%:R)%:M.
Proof. by apply/matrixP => i j; rewrite !mxE !ord1 eqxx !mulr1n /shared /= addr0 -natrD. Qed.
Lemma through36 n m (xs : 'I_n -> feature bool) (ys : 'I_m -> feature bool) i j : through shared nu pt xs ys i j = 36%:R.
Proof.
rewrite throughE M49 invmx_scalar mul_mx_scalar -scalemxAl !mxE big_ord1 !mxE /shared !andbF /= !addr0.
have e : 42%:R * 42%:R = 36%:R * 49%:R :> R by rewrite -!natrM.
by rewrite e mulrC mulfK // pnatr_eq0.
Qed.
Lemma sparse_var : exists s : R, s * 121%:R = 72%:R /\ j_cov sparse 0 0 = 42%:R - 36%:R * s.
Proof.
have H := history_fit shared compute_ldlt compute_qr nu 0%R pt twice apart_partition twice_var.
have [[W [e1 [_ e3]]] _] := history_posterior (fun _ => 0) hldlt hqr shared_psd nu0 pt H.
set T := pitc _ _ _ _ _ _ _ in e1 e3.
have {}e1 : W *m T = through shared nu pt pt meas by apply/eqP; rewrite -subr_eq0 -opprB oppr_eq0 e1.
have E : j_cov sparse = cov_mx shared pt pt - W *m (through shared nu pt pt meas)^T.
  by rewrite /sparse e3 e1 subrK.
have TE i j : T i j = if i == j then 85%:R else 36%:R.
  rewrite /T mxE apart_same; case: eqP => _; last exact: through36.
  by rewrite /shared /= mxE addr0 -natrD -mulrSr.
have h j : W 0 0 * T 0 j + W 0 1 * T 1 j = 36%:R.
  have -> : 36%:R = (W *m T) 0 j by rewrite e1 through36.
  rewrite [RHS]mxE big_ord_recl big_ord1.
  by have -> : lift ord0 ord0 = 1 :> 'I_2 by apply/val_inj.
exists (W 0 0 + W 0 1); split.
  have := h 0; have := h 1; rewrite !TE /= => h1 h2.
  have -> : 72%:R = 36%:R + 36%:R :> R by rewrite -natrD.
  have e121 : 121%:R = 85%:R + 36%:R :> R by rewrite -natrD.
  by rewrite -[X in _ = X + _]h1 -[X in _ = _ + X]h2 e121 mulrDl !mulrDr [RHS]addrACA [X in _ = X + _]addrC.
have E2 (A B : 'M[R]_1) : (A - B) 0 0 = A 0 0 - B 0 0 by rewrite !mxE.
rewrite E E2; congr (_ - _); first by rewrite mxE /shared /= addr0.
rewrite mxE big_ord_recl big_ord1 ![(_^T) _ _]mxE !through36.
have -> : lift ord0 ord0 = 1 :> 'I_2 by apply/val_inj.
by rewrite -mulrDl mulrC.
Qed.
Lemma exact_var : exists s : R, s * 169%:R = 84%:R /\ j_cov exact 0 0 = 42%:R - 42%:R * s.
Proof.
rewrite /exact predict_fit /=; set K := kmat _ _ _.
have Kp : pd K.
  rewrite /K /kmat addrC; apply: pdD; last exact: shared_psd.
  by rewrite /diag; apply: (@pd_diag _ _ (const_mx 1)) => i; rewrite mxE ltr01.
have Ku := pd_unit Kp.
have C42 : cov_mx shared twice pt = const_mx 42%:R by apply/matrixP => i j; rewrite !mxE /shared /= addr0.
pose s : R := 84%:R / 169%:R.
have s169 : s * 169%:R = 84%:R by rewrite /s divfK // pnatr_eq0.
have KW : K *m const_mx (s / 2%:R) = const_mx 42%:R :> 'cV[R]_2.
  apply/matrixP => i j; rewrite [LHS]mxE [RHS]mxE big_ord_recl big_ord1 ![(const_mx (s / 2%:R)) _ _]mxE -mulrDl.
  have -> : K i ord0 + K i (lift ord0 ord0) = 169%:R.
    have KE a b : K a b = if a == b then 85%:R else 84%:R.
      rewrite /K !mxE /shared /= -natrD; case: eqP => _; last by rewrite mulr0n addr0.
      by rewrite mulr1n -mulrSr.
    by rewrite !KE; case: i => -[|[|//]] h; rewrite /= -natrD.
  rewrite mulrA [_ * s]mulrC s169; apply: (@mulIf _ 2%:R); first by rewrite pnatr_eq0.
  by rewrite divfK ?pnatr_eq0 // -natrM.
exists s; split; first by [].
have E2 (A B : 'M[R]_1) : (A - B) 0 0 = A 0 0 - B 0 0 by rewrite !mxE.
rewrite E2; congr (_ - _); first by rewrite mxE /shared /= addr0.
rewrite C42 -mulmxA.
have -> : invmx K *m const_mx 42%:R = const_mx (s / 2%:R) :> 'cV[R]_2 by rewrite -KW mulKmx.
rewrite mxE big_ord_recl big_ord1 !mxE -mulrDr; congr (_ * _).
by rewrite -mulrDl -mulr2n -mulr_natr mulfK // pnatr_eq0.
Qed.
Lemma more_certain : j_cov sparse 0 0 < j_cov exact 0 0.
Proof.
have [s [e1 ->]] := sparse_var; have [s' [e2 ->]] := exact_var.
rewrite ltr_add2l ltr_opp2; apply: (@lt_trans _ _ 21%:R).
- rewrite -(@ltr_pmul2r _ 169%:R) ?ltr0n // -mulrA e2 -!natrM ltr_nat. by [].
- have -> : 36%:R = 3%:R * 12%:R :> R by rewrite -natrM.
  have -> : 21%:R = 3%:R * 7%:R :> R by rewrite -natrM.
  rewrite -mulrA ltr_pmul2l ?ltr0n // -(@ltr_pmul2r _ 121%:R) ?ltr0n // -mulrA e1 -!natrM ltr_nat. by [].
Qed.
End Overconfident.

(* three observations in the opposite order, with their groups *)
Definition ex_opposite : seq (seq 'I_3) := [seq [seq rev_ord i | i <- g] | g <- ex_groups].
Lemma opposite_partition : groups_partition ex_opposite.
Proof.
rewrite /groups_partition /ex_opposite -map_flatten.
apply: (perm_trans (perm_map (@rev_ord 3) ex_partition)).
apply: uniq_perm; [by rewrite (map_inj_uniq rev_ord_inj) enum_uniq | exact: enum_uniq |].
by move=> i; rewrite mem_enum inE -[i]rev_ordK (mem_map rev_ord_inj) mem_enum.
Qed.
Lemma opposite_same i j : same_group ex_opposite i j = same_group ex_groups (rev_ord i) (rev_ord j).
Proof.
rewrite /same_group has_map; apply: eq_has => g /=.
by rewrite -{1}[i]rev_ordK -{1}[j]rev_ordK !(mem_map rev_ord_inj).
Qed.
Lemma opposite_var i : 0 < m_var (marginal_subset (@rev_ord 3) ex_t) i 0 + 1.
Proof. by rewrite !mxE addr_gt0 // ltr01. Qed.

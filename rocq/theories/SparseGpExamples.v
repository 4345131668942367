(* Factorizations that satisfy the contracts of SparseGpSpec.v, so that they are not vacuous, and
   concrete instances. *)
From Coq Require Import Reals.
From mathcomp Require Import all_ssreflect all_algebra all_fingroup.
From Verif Require Import RealStruct GpModel GpSpec GpProofs PsdProofs LdltModel LdltSpec LdltProofs SparseGpModel SparseGpSpec SparseGpProofs SparseGpProofs2 SparseGpProofs3 SparseGpProofs4 MxTac.
Set Implicit Arguments.
Unset Strict Implicit.
Unset Printing Implicit Defensive.
Import Order.TTheory GRing.Theory Num.Theory.
Local Open Scope ring_scope.

(* LDLT without pivoting *)
Fixpoint ldlt_matrix n : 'M[R]_n -> 'M[R]_n :=
  match n with
  | 0 => fun A => A
  | m.+1 => fun A : 'M[R]_(1 + m) =>
      let a := A 0 0 in let b := dlsubmx A in
      block_mx a%:M 0 (a^-1 *: b) (ldlt_matrix (drsubmx A - a^-1 *: (b *m b^T)))
  end.
Definition plain_ldlt n (A : 'M[R]_n) : ldlt_state n := LdltState (ldlt_matrix A) id.

Lemma no_transpositions n (m : 'M[R]_n) : transpositions_mx (LdltState m id) = 1%:M.
Proof.
rewrite /transpositions_mx /transpositions_mul; elim: (enum 'I_n) => //= i s IH.
by rewrite /xrow tperm1 row_perm1.
Qed.

Lemma plain_matrixL m (a : R) (b : 'cV[R]_m) (C : 'M[R]_m) :
  matrixL (LdltState (block_mx a%:M 0 b C : 'M[R]_(1 + m)) id) =
  block_mx 1%:M 0 b (matrixL (LdltState C id)).
Proof.
apply/matrixP => i j; rewrite [LHS]mxE.
case: (split_ordP i) => x ->; case: (split_ordP j) => y ->;
  rewrite ?block_mxEul ?block_mxEur ?block_mxEdl ?block_mxEdr.
- by rewrite !mxE !ord1 eqxx.
- by rewrite !mxE eq_lrshift !ord1.
- by rewrite [y]ord1.
- by rewrite [in RHS]mxE (inj_eq (@rshift_inj _ _)).
Qed.
Lemma plain_vectorD m (a : R) (b : 'cV[R]_m) (C : 'M[R]_m) :
  vectorD (LdltState (block_mx a%:M 0 b C : 'M[R]_(1 + m)) id) =
  col_mx a%:M (vectorD (LdltState C id)).
Proof.
apply/matrixP => i j; rewrite [LHS]mxE !ord1.
case: (split_ordP i) => x ->; rewrite ?block_mxEul ?block_mxEdr ?col_mxEu ?col_mxEd !mxE //.
by rewrite !ord1 eqxx.
Qed.

Lemma block_step m (a : R) (b d : 'cV[R]_m) (C L : 'M[R]_m) : 0 < a -> C = L *m diag_mx d^T *m L^T ->
  block_mx a%:M b^T b (C + a^-1 *: (b *m b^T)) =
  block_mx 1%:M 0 (a^-1 *: b) L *m diag_mx (col_mx a%:M d)^T *m (block_mx 1%:M 0 (a^-1 *: b) L)^T :> 'M[R]_(1 + m).
Proof.
move=> a0 ->; rewrite tr_col_mx diag_mx_row tr_block_mx trmx1 trmx0 !mulmx_block.
rewrite !mul1mx !mul0mx !mulmx0 ?mulmx1 !addr0 ?add0r ?mul0mx ?add0r ?mulmx0 ?addr0.
have DE : diag_mx (a%:M : 'M[R]_1)^T = a%:M.
  by apply/matrixP => i j; rewrite !mxE !ord1 !eqxx mulr1n.
rewrite DE mul_mx_scalar scalerA divff ?gt_eqF // scale1r mul_scalar_mx linearZ /= scalerA divff ?gt_eqF // scale1r.
by rewrite -scalemxAr addrC.
Qed.

Lemma plain_ldlt_contract : ldlt_contract plain_ldlt.
Proof.
rewrite /ldlt_contract /factors => n A.
rewrite no_transpositions trmx1 mul1mx mulmx1.
elim: n A => [|m IH] A Ap; first by apply/matrixP => -[].
rewrite /plain_ldlt /=; set a := A 0 0; set b := dlsubmx (A : 'M[R]_(1 + m)).
set C := drsubmx (A : 'M[R]_(1 + m)) - _.
rewrite plain_matrixL plain_vectorD.
have a0 : 0 < a by exact: pd_diag_gt0.
have As : (A : 'M[R]_(1 + m))^T = A by case: Ap.
have AE : (A : 'M[R]_(1 + m)) = block_mx a%:M b^T b (drsubmx (A : 'M[R]_(1 + m))).
  have b' : ursubmx (A : 'M[R]_(1 + m)) = b^T by rewrite /b trmx_dlsub As.
  apply: (etrans (esym (@submxK _ 1 m 1 m A))); rewrite b'; congr (block_mx _ _ _ _).
  by apply/matrixP => i j; rewrite !mxE !ord1 eqxx mulr1n /a; congr (A _ _); apply/val_inj.
have Cp : pd C.
  have au : (a%:M : 'M[R]_1) \in unitmx by rewrite unitmxE det_scalar1 unitfE gt_eqF.
  have ap : pd (a%:M : 'M[R]_1) by exact: pd_scalar_mx.
  have H : @pd _ (1 + m) (block_mx a%:M b^T (b^T)^T (drsubmx (A : 'M[R]_(1 + m)))) by rewrite trmxK -AE.
  have [_ [_]] := pd_block H.
  by rewrite trmxK invmx_scalar mul_mx_scalar -scalemxAl.
rewrite AE; have := IH _ Cp; rewrite /plain_ldlt /= => CE.
rewrite [in LHS](_ : drsubmx _ = C + a^-1 *: (b *m b^T)); last by rewrite subrK.
exact: block_step.
Qed.

(* QR from the factorization of the Gram matrix *)
Definition plain_qr m n (B : 'M[R]_(m, n)) : qr_result m n :=
  let f := plain_ldlt (B^T *m B) in
  let Rm := (S_mx f)^T in
  QrResult Rm 1 n (fun y => invmx Rm *m ((B *m invmx Rm)^T *m y)).

Lemma gram_pd m n (B : 'M[R]_(m, n)) : B^T *m B \in unitmx -> pd (B^T *m B).
Proof.
move=> Bu; have -> : B^T *m B = B^T *m 1%:M *m B by rewrite mulmx1.
apply: (@pd_congr _ _ _ _ _ (invmx (B^T *m B) *m B^T)); first by rewrite -mulmxA mulVmx.
by apply: pd_scalar_mx; exact: ltr01.
Qed.
Lemma orth_of_root m n (B : 'M[R]_(m, n)) (S : 'M[R]_n) : S *m S^T = B^T *m B -> S \in unitmx ->
  (B *m invmx S^T)^T *m (B *m invmx S^T) = 1%:M.
Proof.
move=> SS Su; rewrite trmx_mul trmx_inv trmxK !mulmxA -[_ *m B^T *m B]mulmxA -SS !mulmxA mulVmx // mul1mx.
by rewrite mulmxV // unitmx_tr.
Qed.
Lemma plain_qr_contract : qr_contract plain_qr.
Proof.
move=> m n B Bu; have Gp := gram_pd Bu; have Ff := plain_ldlt_contract Gp; have Fp := factors_pd Ff Gp.
set f := plain_ldlt (B^T *m B) in Ff Fp.
have SS : S_mx f *m (S_mx f)^T = B^T *m B by apply: S_sq => // i; exact: ltW (Fp i).
have Su := S_unit Fp.
exists (B *m invmx (S_mx f)^T); rewrite perm_mx1 mulmx1; split.
  exact: orth_of_root.
split; first by rewrite -mulmxA mulVmx ?mulmx1 // unitmx_tr.
split; last by split=> // y; rewrite mul1mx.
move=> i j ij; rewrite /plain_qr /= -/f.
have SE : S_mx f = matrixL f *m diag_mx (diagonal_sqrt f)^T.
  by rewrite /S_mx (_ : transpositions_mx f = 1%:M) ?trmx1 ?mul1mx //; exact: no_transpositions.
have L0 : matrixL f j i = 0 by rewrite mxE ltnNge (ltnW ij) /= -val_eqE ltn_eqF.
by rewrite SE mxE mul_mx_diag mxE L0 mul0r.
Qed.

(* at tolerance 0 every factorization of a positive definite matrix is above the tolerance *)
Lemma above_zero_blocks (compute_ldlt : forall n, 'M[R]_n -> ldlt_state n) : ldlt_contract compute_ldlt ->
  forall sizes (A : block_diag sizes), all_pd A -> above_tolerance 0 (bd_ldlt compute_ldlt A).
Proof.
move=> hl; elim=> [|s rest IH] A //= [p1 p2]; split; last exact: IH.
by have [_] := ldlt_pd hl p1.
Qed.

(* the linear covariance function, of features that are real numbers *)
Definition value (f : feature R) : R := match f with Bare x => x | Measured x => x end.
Definition linear (a b : feature R) : R := value a * value b.
Lemma linear_psd : psd_kernel linear.
Proof.
move=> n xs; pose g : 'cV[R]_n := \col_i value (xs i).
have -> : cov_mx linear xs xs = (g^T)^T *m 1%:M *m g^T.
  by rewrite mulmx1 trmxK; apply/matrixP => i j; rewrite !mxE big_ord1 !mxE.
by apply: psd_congr; apply: psd_scalar_mx; exact: ler01.
Qed.

(* three observations in two groups *)
Definition ex_groups : seq (seq 'I_3) := [:: [:: inord 2; inord 0]; [:: inord 1]].
Lemma ex_partition : groups_partition ex_groups.
Proof.
rewrite /groups_partition /=; apply: uniq_perm; last 2 first.
- exact: enum_uniq.
- move=> i; rewrite mem_enum !inE /=; case: i => -[|[|[|//]]] h /=;
    by rewrite -!val_eqE /= !inordK.
by rewrite /= !inE -!val_eqE /= !inordK.
Qed.
Definition ex_u : 'I_1 -> feature R := fun _ => Bare 1.
Definition ex_xs : 'I_3 -> feature R := fun i => Bare (val i)%:R.
Definition ex_t : marginal R_fieldType 3 := Marginal (F := R_fieldType) (\col_i (val i).+1%:R) (const_mx 1).
Lemma ex_var i : 0 < m_var ex_t i 0 + 1.
Proof. by rewrite mxE addr_gt0 // ltr01. Qed.

(* ---- C48: the mean function ---- *)
Definition one_x : 'I_1 -> feature R := fun _ => Bare 1.
Definition one_t : marginal R_fieldType 1 := Marginal (F := R_fieldType) (const_mx 1) (const_mx 0).
Lemma one_partition : groups_partition [:: [:: 0 : 'I_1]].
Proof. by rewrite /groups_partition /= enum_ordSl enum_ord0. Qed.

Lemma mean_not_removed (compute_ldlt : forall n, 'M[R]_n -> ldlt_state n) (compute_qr : forall m n, 'M[R]_(m, n) -> qr_result m n) :
  ldlt_contract compute_ldlt -> qr_contract compute_qr ->
  let f := sparse_fit_impl linear compute_ldlt compute_qr 1 1 [:: [:: 0]] one_x one_x one_t in
  let joint := sparse_predict_joint linear (fun _ => 1) f one_x in
  ~ conditional (mean_v (fun _ => 1) one_x) (mean_v (fun _ => 1) (as_measurement (X := R) \o one_x)) (cov_mx linear one_x one_x)
      (through linear 1 one_x one_x (as_measurement (X := R) \o one_x))
      (pitc linear 1 1 one_x (same_group [:: [:: 0]]) (as_measurement (X := R) \o one_x) (m_var one_t))
      (m_mean one_t) (j_mean joint) (j_cov joint).
Proof.
move=> hl hq f joint.
have hv : forall i, 0 < m_var one_t i 0 + 1 by move=> i; rewrite mxE add0r ltr01.
have H := history_fit linear compute_ldlt compute_qr 1 0 one_x one_x one_partition hv.
have [[W [e1 [e2 _]]] [Tp _]] := history_posterior (fun _ => 1) hl hq linear_psd ltr01 one_x H.
rewrite -/f -/joint in e2.
move=> [V [d1 [d2 _]]].
have Tu := pd_unit Tp.
have VW : V = W.
  by rewrite -[V](mulmxK Tu) -[W](mulmxK Tu); congr (_ *m _); move/eqP: d1; move/eqP: e1; rewrite !subr_eq0 => /eqP <- /eqP <-.
have V0 : V *m mean_v (fun _ => 1) (as_measurement (X := R) \o one_x) = 0.
  have := e2; rewrite d2 VW subr0 mulmxBr => /addrI /eqP.
  by rewrite -subr_eq0 addrAC subrr sub0r oppr_eq0 => /eqP.
have {}V0 : V = 0.
  apply/matrixP => i j; have := congr1 (fun A : 'M[R]_1 => A 0 0) V0; rewrite !mxE big_ord1 !mxE mulr1 !ord1; exact.
move/eqP: d1; rewrite V0 mul0mx subr0 throughE.
have E1 : cov_mx linear one_x one_x = 1%:M by apply/matrixP => i j; rewrite !mxE !ord1 /linear; exact: mulr1.
have E2 : cov_mx linear one_x (as_measurement (X := R) \o one_x) = 1%:M by apply/matrixP => i j; rewrite !mxE !ord1 /linear; exact: mulr1.
rewrite E1 E2 mul1mx mulmx1 => /eqP I0.
have := mulmxV (M_unit linear_psd ltr01 one_x); rewrite I0 mulmx0 => /matrixP /(_ 0 0).
by rewrite !mxE eqxx => /esym/eqP; rewrite oner_eq0.
Qed.

Lemma one_pd : pd (cov_mx linear one_x one_x).
Proof.
have -> : cov_mx linear one_x one_x = 1%:M by apply/matrixP => i j; rewrite !mxE !ord1 /linear; exact: mulr1.
by apply: pd_scalar_mx; exact: ltr01.
Qed.
Lemma rebase_mean_twice (compute_ldlt : forall n, 'M[R]_n -> ldlt_state n) (compute_qr : forall m n, 'M[R]_(m, n) -> qr_result m n) :
  ldlt_contract compute_ldlt -> qr_contract compute_qr ->
  let f := sparse_fit_impl linear compute_ldlt compute_qr 1 1 [:: [:: 0]] one_x one_x one_t in
  let rebased := rebase_inducing_points linear (fun _ => 1) compute_ldlt compute_qr 0 1 f one_x in
  j_mean (sparse_predict_joint linear (fun _ => 1) rebased one_x) <> j_mean (sparse_predict_joint linear (fun _ => 1) f one_x).
Proof.
move=> hl hq f rebased.
have hv : forall i, 0 < m_var one_t i 0 + 1 by move=> i; rewrite mxE add0r ltr01.
have H := history_fit linear compute_ldlt compute_qr 1 0 one_x one_x one_partition hv.
have [_ [_ P]] := history_posterior (fun _ => 1) hl hq linear_psd ltr01 one_x H.
have tl : forall i, 0 < vectorD (compute_ldlt _ (cov_mx linear one_x one_x)) i 0 by have [_] := ldlt_pd hl one_pd.
rewrite /rebased /rebase_inducing_points (from_prediction_at_points (fun _ => 1) hl hq linear_psd one_pd ltr01 (lexx _) tl P).
set a := j_mean (sparse_predict_joint _ _ _ _); move=> /eqP; rewrite /= -subr_eq0 [a + _]addrC addrK => /eqP /matrixP /(_ 0 0).
by rewrite !mxE => /eqP; rewrite oner_eq0.
Qed.

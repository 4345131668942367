(* The components of a sparse fit, and what a fit or an update stores. *)
From Coq Require Import Reals.
From mathcomp Require Import all_ssreflect all_algebra all_fingroup.
From Verif Require Import RealStruct GpModel GpSpec GpProofs PsdProofs LdltModel LdltSpec LdltProofs SparseGpModel SparseGpSpec SparseGpProofs MxTac.
Set Implicit Arguments.
Unset Strict Implicit.
Unset Printing Implicit Defensive.
Import Order.TTheory GRing.Theory Num.Theory.
Local Open Scope ring_scope.

Lemma pd_scalar_mx n (c : R) : 0 < c -> pd (c%:M : 'M[R]_n).
Proof.
move=> c0; have -> : c%:M = diag_mx (const_mx c : 'cV[R]_n)^T by rewrite trmx_const diag_const_mx.
by apply: pd_diag => i; rewrite mxE.
Qed.
Lemma psd_scalar_mx n (c : R) : 0 <= c -> psd (c%:M : 'M[R]_n).
Proof.
move=> c0; have -> : c%:M = diag_mx (const_mx c : 'cV[R]_n)^T by rewrite trmx_const diag_const_mx.
by apply: psd_diag => i; rewrite mxE.
Qed.

(* ---- the order of the groups ---- *)
Section Reordered.
Variable n : nat.
Implicit Types gs : seq (seq 'I_n).

Lemma reordered_in gs i : @reordered n gs i \in flatten gs.
Proof.
elim: gs i => [|g gs IH] /= i; first by case: i.
rewrite mem_cat; case: split_ordP => a _; first by rewrite mem_tnth.
by rewrite IH orbT.
Qed.
Lemma reordered_l g gs (a : 'I_(size g)) : @reordered n (g :: gs) (lshift _ a) = tnth (in_tuple g) a.
Proof. by rewrite /= split_lshift. Qed.
Lemma reordered_r g gs (b : 'I_(sumn [seq size g | g <- gs])) : @reordered n (g :: gs) (rshift (size g) b) = reordered b.
Proof. by rewrite /= split_rshift. Qed.
Lemma reordered_inj gs : uniq (flatten gs) -> injective (@reordered n gs).
Proof.
elim: gs => [|g gs IH] /=; first by move=> _ [].
rewrite cat_uniq => /and3P [ug no ugs] i j; rewrite -/(@reordered n (g :: gs) i) -/(@reordered n (g :: gs) j).
have dis : forall a b, tnth (in_tuple g) a <> @reordered n gs b.
  move=> a b e; move/hasPn: no => /(_ _ (reordered_in b)); by rewrite /= -e mem_tnth.
case: (split_ordP i) => a ->; case: (split_ordP j) => b ->; rewrite ?reordered_l ?reordered_r.
- by move/tuple_uniqP => e; rewrite (e ug).
- by move/dis.
- by move/esym/dis.
- by move/(IH ugs) ->.
Qed.
Lemma reordered_onto gs x : x \in flatten gs -> exists i, @reordered n gs i = x.
Proof.
elim: gs => [|g gs IH] //=; rewrite mem_cat => /orP [xg|/IH [i e]]; last first.
  by exists (rshift (size g) i); rewrite -e; exact: reordered_r.
by have /tnthP [a ->] : x \in in_tuple g by []; exists (lshift _ a); exact: reordered_l.
Qed.
Lemma reordered_bij gs : groups_partition gs -> bijective (@reordered n gs).
Proof.
move=> hp; have u : uniq (flatten gs) by rewrite (perm_uniq hp) enum_uniq.
have I := reordered_inj u.
have S : forall x, exists i, @reordered n gs i == x.
  by move=> x; have [|i <-] := @reordered_onto gs x; [rewrite (perm_mem hp) mem_enum | exists i].
exists (fun x => xchoose (S x)) => i; last by have /eqP := xchooseP (S i).
by apply: I; have /eqP := xchooseP (S (reordered i)).
Qed.
Lemma sumn_sizes gs : groups_partition gs -> sumn [seq size g | g <- gs] = n.
Proof. by move=> hp; rewrite -[sumn _]size_flatten -/(shape gs) (perm_size hp) size_enum_ord. Qed.

Lemma same_cons_l g gs (a b : 'I_n) : a \in g -> b \in g -> same_group (g :: gs) a b.
Proof. by move=> ag bg; rewrite /same_group /= ag bg. Qed.
Lemma same_notin gs (a b : 'I_n) : b \notin flatten gs -> same_group gs a b = false.
Proof.
elim: gs => [|g gs IH] //=; rewrite mem_cat negb_or => /andP [bg bgs].
by rewrite /same_group /= (negbTE bg) andbF /=; exact: IH.
Qed.
Lemma same_sym gs (a b : 'I_n) : same_group gs a b = same_group gs b a.
Proof. by apply: eq_has => g; rewrite andbC. Qed.
End Reordered.

Section Components.
Variable X : Type.
Variable cov : feature X -> feature X -> R.
Variable compute_ldlt : forall n, 'M[R]_n -> ldlt_state n.
Variable compute_qr : forall m n, 'M[R]_(m, n) -> qr_result m n.
Variables measurement_nugget inducing_nugget : R.
Hypothesis hldlt : ldlt_contract compute_ldlt.
Hypothesis hqr : qr_contract compute_qr.
Hypothesis hk : psd_kernel cov.
Hypothesis hnu : 0 < inducing_nugget.
Variables (k : nat) (u : 'I_k -> feature X).

Lemma cov_sym x y : cov x y = cov y x.
Proof.
have [s _] := hk (fun i : 'I_2 => if i == ord0 then x else y).
by have := congr1 (fun A : 'M[R]_2 => A (lift ord0 ord0) ord0) s; rewrite !mxE /=.
Qed.
Lemma cov_tr n p (xs : 'I_n -> feature X) (ys : 'I_p -> feature X) : (cov_mx cov xs ys)^T = cov_mx cov ys xs.
Proof. by apply/matrixP => i j; rewrite !mxE cov_sym. Qed.

Local Notation M := (K_uu cov inducing_nugget u).
Lemma M_pd : pd M.
Proof. by rewrite /K_uu addrC; apply: pdD; [apply: pd_scalar_mx | apply: hk]. Qed.
Lemma M_unit : M \in unitmx.
Proof. exact: pd_unit M_pd. Qed.

Lemma block_psd n (xs : 'I_n -> feature X) :
  psd (block_mx M (cov_mx cov u xs) (cov_mx cov u xs)^T (cov_mx cov xs xs)).
Proof.
have -> : block_mx M (cov_mx cov u xs) (cov_mx cov u xs)^T (cov_mx cov xs xs) =
  cov_mx cov (concat_f u xs) (concat_f u xs) + block_mx inducing_nugget%:M 0 0 (0%:M).
  have -> : cov_mx cov (concat_f u xs) (concat_f u xs) =
    block_mx (cov_mx cov u u) (cov_mx cov u xs) (cov_mx cov u xs)^T (cov_mx cov xs xs).
    apply/matrixP => i j; rewrite cov_tr /concat_f.
    case: (split_ordP i) => a ->; case: (split_ordP j) => b ->;
      by rewrite ?block_mxEul ?block_mxEur ?block_mxEdl ?block_mxEdr !mxE ?split_lshift ?split_rshift.
  by rewrite add_block_mx !addr0 raddf0 addr0.
apply: psdD; first exact: hk.
have -> : block_mx (inducing_nugget%:M : 'M[R]_k) 0 0 (0%:M : 'M[R]_n) =
   diag_mx (col_mx (const_mx inducing_nugget : 'cV[R]_k) (0 : 'cV[R]_n))^T.
  rewrite tr_col_mx diag_mx_row trmx_const diag_const_mx trmx0; congr (block_mx _ _ _ _).
  by apply/matrixP => i j; rewrite !mxE mul0rn.
apply: psd_diag => i; case: (split_ordP i) => a ->; rewrite ?col_mxEu ?col_mxEd mxE //; exact: ltW.
Qed.

Lemma throughE n p (xs : 'I_n -> feature X) (ys : 'I_p -> feature X) :
  through cov inducing_nugget u xs ys = cov_mx cov xs u *m invmx M *m cov_mx cov u ys.
Proof. by []. Qed.
Lemma unexplained_psd n (xs : 'I_n -> feature X) :
  psd (cov_mx cov xs xs - through cov inducing_nugget u xs xs).
Proof. by have := psd_schur M_unit (block_psd xs); rewrite cov_tr. Qed.

(* ---- the blocks ---- *)
Section Blocks.
Variables (n : nat) (xs : 'I_n -> feature X) (t : marginal R_fieldType n).
Hypothesis hv : forall i, 0 < m_var t i 0 + measurement_nugget.

Definition A_blocks (gs : seq (seq 'I_n)) l (P : 'M[R]_(l, sumn [seq size g | g <- gs])) :=
  bd_add_diagonal measurement_nugget (bd_minus (kff_blocks cov xs t gs) (qff_blocks P)).

Lemma tnth_eq (g : seq 'I_n) (a b : 'I_(size g)) : uniq g ->
  (tnth (in_tuple g) a == tnth (in_tuple g) b) = (a == b).
Proof. by move=> ug; apply/eqP/eqP => [/tuple_uniqP ->|->]. Qed.

Lemma dense_A gs l (P : 'M[R]_(l, sumn [seq size g | g <- gs])) : uniq (flatten gs) ->
  dense (A_blocks P) = \matrix_(i, j)
     (if same_group gs (reordered i) (reordered j)
      then cov (xs (reordered i)) (xs (reordered j))
           + (if reordered i == reordered j then m_var t (reordered i) 0 + measurement_nugget else 0)
           - (P^T *m P) i j
      else 0).
Proof.
elim: gs P => [|g gs IH] P /=; first by move=> _; apply: mx0_eq.
rewrite cat_uniq => /and3P [ug no ugs].
have nin : forall a : 'I_n, a \in g -> a \notin flatten gs.
  by move=> a ag; apply: contraL ag => afs; move/hasPn: no => /(_ _ afs).
rewrite -/(A_blocks (rsubmx P)) IH //.
have PE : P^T *m P = block_mx ((lsubmx P)^T *m lsubmx P) ((lsubmx P)^T *m rsubmx P)
                       ((rsubmx P)^T *m lsubmx P) ((rsubmx P)^T *m rsubmx P).
  by rewrite -{1 2}[P]hsubmxK tr_row_mx mul_col_row.
apply/matrixP => i j.
rewrite [in RHS]mxE PE -/(@reordered n (g :: gs) i) -/(@reordered n (g :: gs) j).
case: (split_ordP i) => a ->; case: (split_ordP j) => b ->; rewrite ?reordered_l ?reordered_r.
- rewrite !block_mxEul !mem_tnth tnth_eq // !mxE /=.
  case: (a =P b) => [<-|ab]; rewrite ?mulr1n ?mulr0n ?addr0; last by [].
  by zgroup.
- by rewrite block_mxEur mxE (negbTE (contraL (nin _) (reordered_in b))) andbF same_sym same_notin // nin // mem_tnth.
- by rewrite block_mxEdl mxE (negbTE (contraL (nin _) (reordered_in a))) same_notin // nin // mem_tnth.
- by rewrite !block_mxEdr mxE (negbTE (contraL (nin _) (reordered_in a))).
Qed.
Lemma A_pd gs l (P : 'M[R]_(l, sumn [seq size g | g <- gs])) :
  psd (cov_mx cov (xs \o @reordered n gs) (xs \o @reordered n gs) - P^T *m P) -> all_pd (A_blocks P).
Proof.
elim: gs P => [|g gs IH] P //= H.
have PE : P^T *m P = block_mx ((lsubmx P)^T *m lsubmx P) ((lsubmx P)^T *m rsubmx P)
                       ((rsubmx P)^T *m lsubmx P) ((rsubmx P)^T *m rsubmx P).
  by rewrite -{1 2}[P]hsubmxK tr_row_mx mul_col_row.
split.
  set Kg := cov_mx _ _ _; set Qg := _ *m lsubmx P.
  have -> : Kg + diag (rowsub (tnth (in_tuple g)) (m_var t)) - Qg + measurement_nugget%:M =
     diag_mx (\col_i (m_var t (tnth (in_tuple g) i) 0 + measurement_nugget))^T + (Kg - Qg).
    have -> : diag_mx (\col_i (m_var t (tnth (in_tuple g) i) 0 + measurement_nugget))^T =
       diag (rowsub (tnth (in_tuple g)) (m_var t)) + measurement_nugget%:M.
      by apply/matrixP => i j; rewrite !mxE mulrnDl.
    by zgroup.
  apply: pdD; first by apply: pd_diag => i; rewrite mxE.
  have := psd_mxsub (@lshift (size g) (sumn [seq size g | g <- gs])) H.
  congr (psd _); apply/matrixP => i j; rewrite PE mxE [LHS]mxE [X in _ + X]mxE block_mxEul !mxE /=.
  by rewrite !split_lshift.
apply: IH; have := psd_mxsub (@rshift (size g) (sumn [seq size g | g <- gs])) H.
congr (psd _); apply/matrixP => i j; rewrite PE mxE [LHS]mxE [X in _ + X]mxE block_mxEdr !mxE /=.
by rewrite !split_rshift.
Qed.
End Blocks.
End Components.

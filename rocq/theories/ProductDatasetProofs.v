From Coq Require Import Reals.
From mathcomp Require Import all_ssreflect all_algebra.
From Verif Require Import RealStruct GpModel GpSpec GpProofs GpProofs2 PsdProofs DistributionModel DistributionProps
  CallerModel CallerSpec CallerProofs CallerProofs2 CallerProofs3 CallerPsd ProductDatasetModel.
Set Implicit Arguments.
Unset Strict Implicit.
Unset Printing Implicit Defensive.
Import Order.TTheory GRing.Theory Num.Theory.
Local Open Scope ring_scope.

Section Proofs.
Variable P : Type.
Notation val := (val R_fieldType P).
Variables (e : cov_expr R_fieldType P) (me : mean_expr R_fieldType P) (a : nat) (t : ty).
Hypothesis es : leaves_symmetric e.
Hypothesis free : measurement_free e.
Hypothesis dd : defined_on e a a.
Hypothesis pf : product_free me.
Hypothesis md_ : m_defined_on me a.
Variable cov : feature val -> feature val -> R_fieldType.
Variable mu : feature val -> R_fieldType.
Hypothesis cov_is : forall f g v, cov_call (build e) (to_val f) (to_val g) = Some v -> cov f g = v.
Hypothesis mu_is : forall f v, mean_call (m_build me) (to_val f) = Some v -> mu f = v.

Lemma meaning_free m (x y : nat * P) : meaning e m x y = meaning e false x y.
Proof.
move: free; clear; elim: e => [d k|l IHl r IHr|l IHl r IHr|e' IH|u s e' IH|e' IH u s] //=.
- by case/andP=> /IHl -> /IHr ->.
- by case/andP=> /IHl -> /IHr ->.
- by move=> /IH ->.
- by move=> /IH ->.
Qed.
Lemma factor_cases (f : val) : factor (TBase a) f ->
  (exists p, f = VBase _ a p) \/ exists2 terms, f = VLin (TBase a) terms & terms_ok (@atom R_fieldType P) (TBase a) terms.
Proof.
case=> [[b p|bs b p _] //= [->]|terms -> ht]; first by left; exists p.
by right; exists terms.
Qed.
Lemma cov_bare (f g : val) : factor (TBase a) f -> factor (TBase a) g -> cov (Bare f) (Bare g) = covariance e f g.
Proof.
move=> hf hg; apply: cov_is => /=.
have ov (h : val) : factor (TBase a) h -> over_class a h /\ all (eqb false) (flags h).
  by case/factor_cases => [[p ->]|[terms -> ht]]; split=> //; [exact: OverBase|exact: OverLin (atom_class ht)|exact: flags_atoms ht].
have [of_ ff] := ov _ hf; have [og fg] := ov _ hg.
rewrite (cov_call_over_class es of_ og) ?dd //; apply/orP; right; apply/allP => b /(allP ff) /eqP <-; exact: fg.
Qed.
Lemma cov_meas (f g : val) : factor (TBase a) f -> factor (TBase a) g -> tyof f = tyof g ->
  cov (Measured f) (Measured g) = covariance e f g.
Proof.
move=> hf hg; case/factor_cases: hf => [[p ->]|[xs -> hx]]; case/factor_cases: hg => [[q ->]|[ys -> hy]] //= _; apply: cov_is.
  rewrite /= (cov_call_over_class es (OverMeas _ a p) (OverMeas _ a q)) ?dd; last by rewrite /scaling_respected /same_flags /= orbT.
  by rewrite /covariance /= !big_seq1 /= meaning_free.
rewrite /= (cov_call_over_class es (OverMeasLin (atom_class hx)) (OverMeasLin (atom_class hy))) ?dd; last exact: (sr_LL e hx hy).
by congr Some.
Qed.
Lemma mu_bare (f : val) : factor (TBase a) f -> mu (Bare f) = mean_of me f.
Proof.
move=> hf; apply: mu_is => /=; case/factor_cases: hf => [[p ->]|[xs -> hx]].
  by rewrite (mean_call_over_class (OverBase _ a p)) ?pf // md_.
by rewrite (mean_call_over_class (OverLin (atom_class hx))) ?pf // md_.
Qed.
Lemma mu_meas (f : val) : factor (TBase a) f -> mu (Measured f) = mean_of me f.
Proof.
move=> hf; apply: mu_is => /=; case/factor_cases: hf => [[p ->]|[xs -> hx]].
  by rewrite (mean_call_over_class (OverMeas _ a p)) ?pf // md_; congr Some; rewrite /mean_of /= !big_seq1.
by rewrite (mean_call_over_class (OverMeasLin (atom_class hx))) ?pf // md_.
Qed.

Variables (m n k : nat) (M : 'M[R_fieldType]_(m, n)) (fs rows : seq val) (x0 : val) (zs : 'I_k -> val).
Hypothesis hfs : List.Forall (factor (TBase a)) fs.
Hypothesis sfs : size fs = n.
Hypothesis one_type : forall f, List.In f fs -> tyof f = t.
Hypothesis hzs : forall j, factor (TBase a) (zs j).
Hypothesis srows : size rows = m.
Hypothesis hrows : List.Forall (fun r => exists2 terms, r = VLin (TBase a) terms & terms_ok (@atom R_fieldType P) (TBase a) terms) rows.
Hypothesis crows : forall (i : 'I_m) y, covariance e (nth x0 rows i) y = \sum_j M i j * covariance e (nth x0 fs (j : 'I_n)) y.
Hypothesis mrows : forall i : 'I_m, mean_of me (nth x0 rows i) = \sum_j M i j * mean_of me (nth x0 fs (j : 'I_n)).
Definition at_ (l : seq val) p : 'I_p -> feature val := fun i => Bare (nth x0 l i).
Let xs := @at_ fs n. Let ys := @at_ rows m. Let qs : 'I_k -> feature val := fun j => Bare (zs j).

Lemma nth_in (l : seq val) i : (i < size l)%N -> List.In (nth x0 l i) l.
Proof. by elim: l i => [|h l IH] [|i] //= hi; [left|right; exact: IH]. Qed.
Lemma fs_in (i : 'I_n) : factor (TBase a) (nth x0 fs i) /\ tyof (nth x0 fs i) = t.
Proof.
have hi : List.In (nth x0 fs i) fs by apply: nth_in; rewrite sfs.
by split; [exact: (proj1 (List.Forall_forall _ _) hfs)|exact: one_type].
Qed.
Lemma rows_in (i : 'I_m) : factor (TBase a) (nth x0 rows i) /\ tyof (nth x0 rows i) = TLin (TBase a).
Proof.
have hi : List.In (nth x0 rows i) rows by apply: nth_in; rewrite srows.
by have [terms -> ht] := proj1 (List.Forall_forall _ _) hrows _ hi; split=> //; exact: FactorLin ht.
Qed.
Lemma kk : cov_mx cov (as_measurement (X:=val) \o ys) (as_measurement (X:=val) \o ys) =
  M *m cov_mx cov (as_measurement (X:=val) \o xs) (as_measurement (X:=val) \o xs) *m M^T.
Proof.
have [_ rt] := all_and2 rows_in; have [_ ft] := all_and2 fs_in.
apply/matrixP => i j; rewrite [LHS]mxE /= cov_meas ?rt //; try exact: (proj1 (rows_in _)).
rewrite crows mxE.
under eq_bigr do rewrite (cov_sym es) crows mulr_sumr.
rewrite exchange_big /=; apply: eq_bigr => l _; rewrite !mxE mulr_suml; apply: eq_bigr => q _.
rewrite [cov_mx _ _ _ _ _]mxE /= cov_meas ?ft //; try exact: (proj1 (fs_in _)).
by rewrite (cov_sym es) mulrA mulrAC mulrC mulrCA mulrA.
Qed.
Lemma kc : cov_mx cov ys qs = M *m cov_mx cov xs qs.
Proof.
apply/matrixP => i j; rewrite [LHS]mxE /= cov_bare //; last exact: (proj1 (rows_in _)).
rewrite crows mxE; apply: eq_bigr => l _.
by rewrite mxE /= cov_bare //; exact: (proj1 (fs_in _)).
Qed.
Lemma km : mean_v mu (as_measurement (X:=val) \o ys) = M *m mean_v mu (as_measurement (X:=val) \o xs).
Proof.
apply/colP => i; rewrite [LHS]mxE /= mu_meas //; last exact: (proj1 (rows_in _)).
rewrite mrows mxE; apply: eq_bigr => l _.
by rewrite mxE /= mu_meas //; exact: (proj1 (fs_in _)).
Qed.

(* the prediction from the product *)
Let K := cov_mx cov (as_measurement (X:=val) \o xs) (as_measurement (X:=val) \o xs).
Lemma product_prediction (y : 'cV[R_fieldType]_n) (v : 'cV[R_fieldType]_m) :
  predict_joint cov mu (fit cov mu ys (Marginal (M *m y) v)) qs =
  Joint ((cov_mx cov xs qs)^T *m M^T *m invmx (M *m K *m M^T + diag v) *m (M *m (y - mean_v mu (as_measurement (X:=val) \o xs))) + mean_v mu qs)
        (cov_mx cov qs qs - (cov_mx cov xs qs)^T *m M^T *m invmx (M *m K *m M^T + diag v) *m (M *m cov_mx cov xs qs)).
Proof.
rewrite /predict_joint /fit /make_fit /gp_joint_prediction /gp_mean_prediction /= kk kc km /ldlt trmx_mul !mulmxA mulmxBr !mulmxA.
by rewrite -!mulmxA !mulmxBr.
Qed.
Lemma plain_prediction (y v : 'cV[R_fieldType]_n) :
  predict_joint cov mu (fit cov mu xs (Marginal y v)) qs =
  Joint ((cov_mx cov xs qs)^T *m invmx (K + diag v) *m (y - mean_v mu (as_measurement (X:=val) \o xs)) + mean_v mu qs)
        (cov_mx cov qs qs - (cov_mx cov xs qs)^T *m invmx (K + diag v) *m cov_mx cov xs qs).
Proof. by rewrite /predict_joint /fit /make_fit /gp_joint_prediction /gp_mean_prediction /= /ldlt !mulmxA. Qed.
End Proofs.

(* products with invertible matrices *)
Lemma congr_inverse n (M A : 'M[R_fieldType]_n) : M \in unitmx -> A \in unitmx ->
  M^T *m invmx (M *m A *m M^T) *m M = invmx A.
Proof.
move=> Mu Au; have MTu : M^T \in unitmx by rewrite unitmx_tr.
set B := M *m A *m M^T; have Bu : B \in unitmx by rewrite !unitmx_mul Mu Au MTu.
have e1 : M^T *m invmx B *m M *m A = 1%:M.
  have -> : M^T *m invmx B *m M *m A = M^T *m invmx B *m (B *m invmx M^T) by rewrite /B mulmxK // -!mulmxA.
  by rewrite mulmxA mulmxKV // mulmxV.
by rewrite -[LHS](mulmxK Au) e1 mul1mx.
Qed.

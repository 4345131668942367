From Coq Require Import Reals.
From mathcomp Require Import all_ssreflect all_algebra.
From Verif Require Import RealStruct GpModel GpSpec GpProofs GpProofs2 PsdProofs DistributionModel DistributionProps
  CallerModel CallerSpec CallerProofs CallerProofs2 CallerProofs3 CallerPsd ProductDatasetModel ProductDatasetSpec ProductDatasetProofs.
Set Implicit Arguments.
Unset Strict Implicit.
Unset Printing Implicit Defensive.
Import Order.TTheory GRing.Theory Num.Theory.
Local Open Scope ring_scope.

Section C99.
Variable P : Type.
Notation val := (val R_fieldType P).
(* a covariance function without a measurement_only part and a mean function without products, both defined for a class *)
Variables (e : cov_expr R_fieldType P) (me : mean_expr R_fieldType P) (a : nat).
Hypothesis symmetric_leaves : leaves_symmetric e.
Hypothesis no_measurement_only : measurement_free e.
Hypothesis covariance_defined : defined_on e a a.
Hypothesis no_products : product_free me.
Hypothesis mean_defined : m_defined_on me a.
(* the covariance and mean functions of the model are the calls of these *)
Variable cov : feature val -> feature val -> R_fieldType.
Variable mu : feature val -> R_fieldType.
Hypothesis cov_is : forall f g v, cov_call (build e) (to_val f) (to_val g) = Some v -> cov f g = v.
Hypothesis mu_is : forall f v, mean_call (m_build me) (to_val f) = Some v -> mu f = v.
(* a dataset of objects of that class, or of linear combinations of them, and other features to predict *)
Variables (n k : nat) (fs : seq val) (t : md n) (x0 : val) (zs : 'I_k -> val).
Hypothesis features_ok : List.Forall (factor (TBase a)) fs.
Hypothesis as_many : size fs = n.
Hypothesis one_type : forall f g, List.In f fs -> List.In g fs -> tyof f = tyof g.
Hypothesis others_ok : forall j, factor (TBase a) (zs j).
Hypothesis variances : forall i, 0 <= m_var t i 0.
Let xs : 'I_n -> feature val := fun i => Bare (nth x0 fs i).
Let qs : 'I_k -> feature val := fun j => Bare (zs j).

Lemma some_type : exists ty_, forall f, List.In f fs -> tyof f = ty_.
Proof. by case: fs one_type => [|f l] h; [exists (TBase 0)|exists (tyof f) => g hg; apply: h => //; left]. Qed.
Lemma bare_meas : cov_mx cov (as_measurement (X:=val) \o xs) (as_measurement (X:=val) \o xs) = cov_mx cov xs xs /\
  mean_v mu (as_measurement (X:=val) \o xs) = mean_v mu xs.
Proof.
have hin (i : 'I_n) : List.In (nth x0 fs i) fs by apply: nth_in; rewrite as_many.
have hf (i : 'I_n) : factor (TBase a) (nth x0 fs i) by exact: (proj1 (List.Forall_forall _ _) features_ok).
split; [apply/matrixP => i j; rewrite !mxE /=|apply/colP => i; rewrite !mxE /=].
  rewrite (cov_meas symmetric_leaves no_measurement_only covariance_defined cov_is) //; last exact: one_type.
  by rewrite (cov_bare symmetric_leaves covariance_defined cov_is).
by rewrite (mu_meas no_products mean_defined mu_is) // (mu_bare no_products mean_defined mu_is).
Qed.

Lemma cov_symm f g : factor (TBase a) f -> factor (TBase a) g -> cov (Bare f) (Bare g) = cov (Bare g) (Bare f).
Proof. by move=> hf hg; rewrite !(cov_bare symmetric_leaves covariance_defined cov_is) // (cov_sym symmetric_leaves). Qed.
Lemma fs_factor (i : 'I_n) : factor (TBase a) (nth x0 fs i).
Proof. by apply: (proj1 (List.Forall_forall _ _) features_ok); apply: nth_in; rewrite as_many. Qed.
Lemma xs_sym : (cov_mx cov xs xs)^T = cov_mx cov xs xs.
Proof. by apply/matrixP => i j; rewrite !mxE; apply: cov_symm; exact: fs_factor. Qed.
Lemma cross_sym : cov_mx cov qs xs = (cov_mx cov xs qs)^T.
Proof. by apply/matrixP => i j; rewrite !mxE; apply: cov_symm; [|exact: fs_factor]. Qed.
Lemma learned m (M : 'M[R_fieldType]_(m, n)) rows :
  size rows = m ->
  List.Forall (fun r => exists2 terms, r = VLin (TBase a) terms & terms_ok (@atom R_fieldType P) (TBase a) terms) rows ->
  (forall (i : 'I_m) y, covariance e (nth x0 rows i) y = \sum_j M i j * covariance e (nth x0 fs (j : 'I_n)) y) ->
  (forall i : 'I_m, mean_of me (nth x0 rows i) = \sum_j M i j * mean_of me (nth x0 fs (j : 'I_n))) ->
  learned_from cov mu xs qs M t (predict_joint cov mu (fit cov mu (fun i : 'I_m => Bare (nth x0 rows i)) (MD (M *m m_mean t) (product_noise M (m_var t)))) qs).
Proof.
move=> sr hr cr mr; rewrite /learned_from; cbv zeta => Su; have [ty_ ht] := some_type; have [bm mm] := bare_meas.
have Ss : symmetric (M *m cov_mx cov xs xs *m M^T + diag (product_noise M (m_var t))).
  by rewrite /symmetric linearD /= !trmx_mul trmxK xs_sym mulmxA /diag tr_diag_mx.
have := product_prediction symmetric_leaves no_measurement_only covariance_defined no_products mean_defined cov_is mu_is
  features_ok as_many ht others_ok sr hr cr mr (m_mean t) (product_noise M (m_var t)).
rewrite -/xs -/qs bm mm => e1.
apply/(conditional_formula _ _ _ _ _ _ _ Su Ss); rewrite /MD.
rewrite [predict_joint _ _ _ _]e1 /= cross_sym; split.
  by rewrite addrC mulmxBr.
by rewrite trmx_mul !trmxK !mulmxA.
Qed.

Lemma dense_learned m (M : 'M[R_fieldType]_(m, n)) : exists rows t',
  dense_times_dataset (TBase a) M fs t = Some (rows, Some t') /\ size rows = m /\ learned_from cov mu xs qs M t (predict_joint cov mu (fit cov mu (fun i : 'I_m => Bare (nth x0 rows i)) t') qs).
Proof.
have [rows er [sr hr]] := dense_times_spec M features_ok as_many; exists rows, (MD (M *m m_mean t) (product_noise M (m_var t))).
split; [|split=> //].
  by rewrite /dense_times_dataset er /= (proj2 (proj1 (C62_transform_marginal M t) variances)).
apply: learned => // i.
  move=> y; have := dense_rows (h := fun x => covariance e x y) x0 (fun s fs' rows' x0' y0 i => @cov_rows _ _ e (TBase a) s fs' rows' y x0' y0 i) features_ok as_many er.
  by move=> /colP/(_ i); rewrite !mxE => ->; apply: eq_bigr => j _; rewrite mxE.
by have := dense_means me x0 features_ok as_many er => /colP/(_ i); rewrite !mxE => ->; apply: eq_bigr => j _; rewrite mxE.
Qed.
Lemma sparse_learned (s : sparse R_fieldType) : all (fun entry => (entry.1.2 < n)%N) (s_entries s) -> exists rows t',
  sparse_times_dataset (TBase a) s fs t = Some (rows, Some t') /\ size rows = s_rows s /\
  learned_from cov mu xs qs (to_dense (s_rows s) n s) t
    (predict_joint cov mu (fit cov mu (fun i : 'I_(s_rows s) => Bare (nth x0 rows i)) t') qs).
Proof.
rewrite -{1}as_many => hc; have [rows er [sr hr _]] := sparse_times_spec features_ok hc.
set M := to_dense (s_rows s) n s; exists rows, (MD (M *m m_mean t) (product_noise M (m_var t))).
split; [|split=> //].
  by rewrite /sparse_times_dataset er /= (proj2 (proj1 (C62_transform_marginal M t) variances)).
apply: learned => // i.
  move=> y; rewrite (cov_rows e y x0 x0 features_ok hc er (ltn_ord i)); move: (hc) => _; rewrite /M; clear - as_many.
  by rewrite -as_many; apply: eq_bigr => j _; rewrite mxE.
rewrite (mean_rows me x0 x0 features_ok hc er (ltn_ord i)) /M; clear - as_many.
by rewrite -as_many; apply: eq_bigr => j _; rewrite mxE.
Qed.

(* With an invertible matrix that leaves the noise independent nothing changes. *)
Lemma invertible_agrees (M : 'M[R_fieldType]_n) : M \in unitmx ->
  (forall i j, i != j -> (M *m diag (m_var t) *m M^T) i j = 0) ->
  cov_mx cov xs xs + diag (m_var t) \in unitmx ->
  exists rows t', dense_times_dataset (TBase a) M fs t = Some (rows, Some t') /\
    predict_joint cov mu (fit cov mu (fun i : 'I_n => Bare (nth x0 rows i)) t') qs = predict_joint cov mu (fit cov mu xs t) qs.
Proof.
move=> Mu off Au; have [rows er [sr hr]] := dense_times_spec M features_ok as_many; exists rows, (MD (M *m m_mean t) (product_noise M (m_var t))).
split; first by rewrite /dense_times_dataset er /= (proj2 (proj1 (C62_transform_marginal M t) variances)).
have [ty_ ht] := some_type; have [bm mm] := bare_meas.
have cr (i : 'I_n) y : covariance e (nth x0 rows i) y = \sum_j M i j * covariance e (nth x0 fs (j : 'I_n)) y.
  have := dense_rows (h := fun x => covariance e x y) x0 (fun s fs' rows' x0' y0 i => @cov_rows _ _ e (TBase a) s fs' rows' y x0' y0 i) features_ok as_many er.
  by move=> /colP/(_ i); rewrite !mxE => ->; apply: eq_bigr => j _; rewrite mxE.
have mr (i : 'I_n) : mean_of me (nth x0 rows i) = \sum_j M i j * mean_of me (nth x0 fs (j : 'I_n)).
  by have := dense_means me x0 features_ok as_many er => /colP/(_ i); rewrite !mxE => ->; apply: eq_bigr => j _; rewrite mxE.
have := product_prediction symmetric_leaves no_measurement_only covariance_defined no_products mean_defined cov_is mu_is
  features_ok as_many ht others_ok sr hr cr mr (m_mean t) (product_noise M (m_var t)).
rewrite -/xs -/qs bm mm => e1; rewrite [LHS]e1.
have et : t = Marginal (F := R_fieldType) (m_mean t) (m_var t) by case: (t).
rewrite [in RHS]et.
have := plain_prediction cov mu fs x0 zs (m_mean t) (m_var t); rewrite -/xs -/qs bm mm => e2; rewrite [RHS]e2.
have -> : diag (product_noise M (m_var t)) = M *m diag (m_var t) *m M^T.
  apply/matrixP => i j; rewrite [LHS]mxE mxE; case: (eqVneq i j) => [->|ne]; first by rewrite mulr1n mxE.
  by rewrite mulr0n off.
have -> : M *m cov_mx cov xs xs *m M^T + M *m diag (m_var t) *m M^T = M *m (cov_mx cov xs xs + diag (m_var t)) *m M^T.
  by rewrite -mulmxDl -mulmxDr.
have sandwich l (C : 'M[R_fieldType]_(n, k)) (Z : 'M_(n, l)) :
    C^T *m M^T *m invmx (M *m (cov_mx cov xs xs + diag (m_var t)) *m M^T) *m (M *m Z) = C^T *m invmx (cov_mx cov xs xs + diag (m_var t)) *m Z.
  by rewrite -(congr_inverse Mu Au) !mulmxA.
by rewrite !sandwich.
Qed.
End C99.

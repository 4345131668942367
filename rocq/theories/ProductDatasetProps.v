(* What a Gaussian process learns from a matrix times a dataset (C99). *)
From Coq Require Import Reals.
From mathcomp Require Import all_ssreflect all_fingroup all_algebra.
From Verif Require Import RealStruct GpModel GpSpec GpProofs GpProofs2 PsdProofs DistributionModel DistributionProps
  CallerModel CallerSpec CallerProofs CallerProofs2 CallerProofs3 CallerPsd CallerExamples ProductDatasetModel ProductDatasetSpec ProductDatasetProofs
  ProductDatasetProofs2 ProductDatasetExamples.
Set Implicit Arguments.
Unset Strict Implicit.
Unset Printing Implicit Defensive.
Import Order.TTheory GRing.Theory Num.Theory.
Local Open Scope ring_scope.

Section C99.
Variable P : Type.
Notation val := (val R_fieldType P).
(* a covariance function without a measurement_only part and a mean function without products, both defined for a class *)
Variables (e : cov_expr R_fieldType P) (me : mean_expr R_fieldType P) (a : nat).
Hypothesis symmetric_leaves : leaves_symmetric e.
Hypothesis no_measurement_only : measurement_free e.
Hypothesis covariance_defined : defined_on e a a.
Hypothesis no_products : product_free me.
Hypothesis mean_defined : m_defined_on me a.
(* the covariance and mean functions of the model are the calls of these *)
Variable cov : feature val -> feature val -> R_fieldType.
Variable mu : feature val -> R_fieldType.
Hypothesis cov_is : forall f g v, cov_call (build e) (to_val f) (to_val g) = Some v -> cov f g = v.
Hypothesis mu_is : forall f v, mean_call (m_build me) (to_val f) = Some v -> mu f = v.
(* a dataset of objects of that class, or of linear combinations of them, and other features to predict *)
Variables (n k : nat) (fs : seq val) (t : md n) (x0 : val) (zs : 'I_k -> val).
Hypothesis features_ok : List.Forall (factor (TBase a)) fs.
Hypothesis as_many : size fs = n.
Hypothesis one_type : forall f g, List.In f fs -> List.In g fs -> tyof f = tyof g.
Hypothesis others_ok : forall j, factor (TBase a) (zs j).
Hypothesis variances : forall i, 0 <= m_var t i 0.
Let xs : 'I_n -> feature val := fun i => Bare (nth x0 fs i).
Let qs : 'I_k -> feature val := fun j => Bare (zs j).

(* the product with a dense matrix exists, and the prediction from it is that from the products of the targets *)
Theorem C99_dense m (M : 'M[R_fieldType]_(m, n)) : exists rows t',
  dense_times_dataset (TBase a) M fs t = Some (rows, Some t') /\ size rows = m /\
  learned_from cov mu xs qs M t (predict_joint cov mu (fit cov mu (fun i : 'I_m => Bare (nth x0 rows i)) t') qs).
Proof. exact: (dense_learned symmetric_leaves no_measurement_only covariance_defined no_products mean_defined cov_is mu_is x0 features_ok as_many one_type others_ok variances M). Qed.
(* the product with a sparse matrix whose stored entries are in columns of the dataset *)
Theorem C99_sparse (s : sparse R_fieldType) : all (fun entry => (entry.1.2 < n)%N) (s_entries s) -> exists rows t',
  sparse_times_dataset (TBase a) s fs t = Some (rows, Some t') /\ size rows = s_rows s /\
  learned_from cov mu xs qs (to_dense (s_rows s) n s) t
    (predict_joint cov mu (fit cov mu (fun i : 'I_(s_rows s) => Bare (nth x0 rows i)) t') qs).
Proof. exact: (sparse_learned symmetric_leaves no_measurement_only covariance_defined no_products mean_defined cov_is mu_is x0 features_ok as_many one_type others_ok variances). Qed.
(* with an invertible matrix that leaves the noise independent nothing changes *)
Theorem C99_invertible (M : 'M[R_fieldType]_n) : M \in unitmx ->
  (forall i j, i != j -> (M *m diag (m_var t) *m M^T) i j = 0) ->
  cov_mx cov xs xs + diag (m_var t) \in unitmx ->
  exists rows t', dense_times_dataset (TBase a) M fs t = Some (rows, Some t') /\
    predict_joint cov mu (fit cov mu (fun i : 'I_n => Bare (nth x0 rows i)) t') qs = predict_joint cov mu (fit cov mu xs t) qs.
Proof.
move=> Mu off Au; exact: (invertible_agrees symmetric_leaves no_measurement_only covariance_defined no_products mean_defined
  cov_is mu_is features_ok as_many one_type others_ok variances Mu off Au).
Qed.
End C99.
Print Assumptions C99_dense.
Print Assumptions C99_sparse.
Print Assumptions C99_invertible.

Example C99_meets : leaves_symmetric white /\ measurement_free white /\ defined_on white 0 0 /\ product_free flat /\ m_defined_on flat 0 /\
  (forall f g v, cov_call (build white) (to_val f) (to_val g) = Some v -> cov_of white f g = v) /\
  (forall f v, mean_call (m_build flat) (to_val f) = Some v -> mu_of f = v) /\
  List.Forall (factor (TBase 0)) two /\ size two = 2%N /\ (forall f g, List.In f two -> List.In g two -> tyof f = tyof g) /\
  (forall i, 0 <= m_var t2 i 0) /\
  M2 *m cov_mx (cov_of white) xs2 xs2 *m M2^T + diag (product_noise M2 (m_var t2)) \in unitmx.
Proof.
split; first exact: white_sym.
do 4!split=> //; split; first exact: cov_of_is.
split; first exact: mu_of_is.
split; first exact: two_ok.
split=> //; split; first exact: two_type.
split; first by move=> i; rewrite mxE ler01.
by rewrite K2; exact: S2_unit.
Qed.
Example C99_sparse_meets : all (fun entry => (entry.1.2 < 2)%N) (s_entries (Sparse 1 2 [:: (0%N, 1%N, 3%:R : R_fieldType)])).
Proof. by []. Qed.
(* swapping two objects *)
Example C99_invertible_meets : let M : 'M[R_fieldType]_2 := perm_mx (tperm 0 1) in M \in unitmx /\
  (forall i j, i != j -> (M *m diag (m_var t2) *m M^T) i j = 0) /\ cov_mx (cov_of white) xs2 xs2 + diag (m_var t2) \in unitmx.
Proof.
split; first exact: unitmx_perm.
split; first by move=> i j /negPf ne; rewrite D2 mulmx1 tr_perm_mx tpermV -perm_mxM tperm2 perm_mx1 mxE ne.
by rewrite K2 D2 -raddfD /= unitmxE det_scalar unitrX // unitfE (pnatr_eq0 _ 2).
Qed.

(* finding: without the condition on the noise the prediction changes although the matrix is invertible: the products of
   independent noise are correlated and the product of a matrix and a dataset keeps only their variances *)
Theorem C99_dependent_refuted :
  exists (e : cov_expr R_fieldType nat) (me : mean_expr R_fieldType nat) (cov : feature rval -> feature rval -> R_fieldType)
    (mu : feature rval -> R_fieldType) (fs : seq rval) (t : md 2) (M : 'M[R_fieldType]_2) (x : rval) rows t',
  leaves_symmetric e /\ measurement_free e /\ defined_on e 0 0 /\ product_free me /\ m_defined_on me 0 /\
  (forall f g v, cov_call (build e) (to_val f) (to_val g) = Some v -> cov f g = v) /\
  (forall f v, mean_call (m_build me) (to_val f) = Some v -> mu f = v) /\
  fs = [:: VBase R_fieldType 0 0%N; VBase R_fieldType 0 1%N] /\ x = VBase R_fieldType 0 0%N /\
  (forall i, 0 <= m_var t i 0) /\ M \in unitmx /\
  dense_times_dataset (TBase 0) M fs t = Some (rows, Some t') /\
  predict_joint cov mu (fit cov mu (fun i : 'I_2 => Bare (nth x rows i)) t') (fun _ : 'I_1 => Bare x) <>
  predict_joint cov mu (fit cov mu (fun i : 'I_2 => Bare (nth x fs i)) t) (fun _ : 'I_1 => Bare x).
Proof.
have v2 i : 0 <= m_var t2 i 0 by rewrite mxE ler01.
have [rows [t' [er [_ hl]]]] := C99_dense (e := white) (a := 0) (me := flat) white_sym isT isT isT isT (@cov_of_is white) mu_of_is
  (robj 0) two_ok erefl two_type (fun _ : 'I_1 => robj_factor 0) v2 M2.
exists white, flat, (cov_of white), mu_of, two, t2, M2, (robj 0), rows, t'.
split; first exact: white_sym.
do 4!(split; first by []).
split; first exact: cov_of_is.
split; first exact: mu_of_is.
do 2!(split; first by []).
split; first exact: v2.
split; first exact: M2_unit.
split; first exact: er.
move=> /(congr1 (fun p => j_mean p 0 0)).
rewrite [LHS](product_mean hl) [RHS]plain_mean; apply/eqP; exact: oner_neq0.
Qed.
Print Assumptions C99_dependent_refuted.
(* finding: multiplying a dataset with the identity matrix loses the noise that a measurement_only covariance adds:
   the features become linear combinations, and of these the Measurement mark is taken off *)
Theorem C99_identity_refuted :
  exists (e : cov_expr R_fieldType nat) (me : mean_expr R_fieldType nat) (cov : feature rval -> feature rval -> R_fieldType)
    (mu : feature rval -> R_fieldType) (x : rval) (t : md 1) rows t',
  leaves_symmetric e /\ defined_on e 0 0 /\ product_free me /\ m_defined_on me 0 /\
  (forall f g v, cov_call (build e) (to_val f) (to_val g) = Some v -> cov f g = v) /\
  (forall f v, mean_call (m_build me) (to_val f) = Some v -> mu f = v) /\
  x = VBase R_fieldType 0 0%N /\ (forall i, 0 <= m_var t i 0) /\
  dense_times_dataset (TBase 0) 1%:M [:: x] t = Some (rows, Some t') /\
  predict_joint cov mu (fit cov mu (fun i : 'I_1 => Bare (nth x rows i)) t') (fun _ : 'I_1 => Bare x) <>
  predict_joint cov mu (fit cov mu (fun i : 'I_1 => Bare (nth x [:: x] i)) t) (fun _ : 'I_1 => Bare x).
Proof.
exists noisy, flat, (cov_of noisy), mu_of, (robj 0), t1, [:: row1], t1.
split; first exact: noisy_sym.
do 3!(split; first by []).
split; first exact: cov_of_is.
split; first exact: mu_of_is.
split; first by [].
split; first by move=> i; rewrite mxE ler01.
split; first exact: one_times.
move=> /(congr1 (fun p => j_mean p 0 0)).
have [r1 r2] := noisy_row; have [o1 o2] := noisy_obj; have [m1 m2] := flat_row.
rewrite [LHS](one_mean _ r1 r2 m1) // [RHS](one_mean _ o1 o2 m2) // => /invr_inj /addIr /eqP.
by rewrite (eqr_nat _ 1 2).
Qed.
Print Assumptions C99_identity_refuted.

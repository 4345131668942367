(* C106: comparison of fits of Gaussian processes, of covariance representations and of distributions. Exact real arithmetic. *)
From Coq Require Import Reals.
From mathcomp Require Import all_ssreflect all_algebra all_fingroup.
From Verif Require Import RealStruct GpModel GpSpec GpProofs PsdProofs SparseGpProofs2 LdltModel LdltSpec SparseGpSpec SparseGpProofs ShiftModel ShiftProofs SparseGpExamples EqualModel EqualSpec EqualProofs EqualAgree.
From Verif Require Base.
Set Implicit Arguments.
Unset Strict Implicit.
Unset Printing Implicit Defensive.
Import Order.TTheory GRing.Theory Num.Theory.
Local Open Scope ring_scope.

(* Representations that compare equal have the same number of rows and solve alike, and each compares equal to itself. *)
Theorem C106_solve tolerance r : supported tolerance r -> equal_solve_alike r /\ equal_to_itself r.
Proof.
elim=> {r} [|||r _ [h1 h2]]; split.
- exact: ldlt_alike.
- exact: ldlt_itself.
- exact: explained_alike.
- exact: explained_itself.
- exact: direct_alike.
- exact: direct_itself.
- exact: block_alike.
- exact: block_itself.
Qed.
Print Assumptions C106_solve.

Section Fits.
Variable X : Type.
Variable same : feature X -> feature X -> bool.
Hypothesis hsame : forall x y, same x y <-> x = y.
Variable tolerance : R.
Variable r : representation.
Hypothesis hr : supported tolerance r.
Variable cov : feature X -> feature X -> R.
Variable mean_function : feature X -> R.
Variable compute_ldlt : forall n, 'M[R]_n -> ldlt_state n.

(* Fits that compare equal predict the same: joint, marginal and mean, at all features. *)
Theorem C106_predict n n' (f : stored_fit X r n) (g : stored_fit X r n') : gp_fit_equal same f g = Base.Ok true ->
  forall p (zs : 'I_p -> feature X),
  predict_joint (F := R_fieldType) cov mean_function (as_gp_fit f) zs = predict_joint (F := R_fieldType) cov mean_function (as_gp_fit g) zs /\
  predict_marginal (F := R_fieldType) cov mean_function (as_gp_fit f) zs = predict_marginal (F := R_fieldType) cov mean_function (as_gp_fit g) zs /\
  predict_mean (F := R_fieldType) cov mean_function (as_gp_fit f) zs = predict_mean (F := R_fieldType) cov mean_function (as_gp_fit g) zs.
Proof. exact: (equal_fits_predict hsame (C106_solve hr).1). Qed.

(* They still compare equal after the same update. *)
Theorem C106_update n n' (f : stored_fit X r n) (g : stored_fit X r n') m (ys : 'I_m -> feature X) (t : marginal R_fieldType m) :
  gp_fit_equal same f g = Base.Ok true ->
  let update k (h : stored_fit X r k) := stored_update_impl tolerance cov mean_function compute_ldlt h ys t in
  gp_fit_equal same (update n f) (update n' g) = Base.Ok true.
Proof. exact: (equal_fits_update hsame (C106_solve hr).1). Qed.

(* A fit compares equal to itself, and different to one with other features, or another number of them. *)
Theorem C106_features n n' (f : stored_fit X r n) (g : stored_fit X r n') :
  gp_fit_equal same f f = Base.Ok true /\ (n <> n' -> gp_fit_equal same f g = Base.Ok false) /\
  ((exists (i : 'I_n) (j : 'I_n'), val i = val j /\ st_features f i <> st_features g j) -> gp_fit_equal same f g = Base.Ok false).
Proof.
split; first exact: (fit_itself hsame f (C106_solve hr).2).
split=> [d|[i [j [e d]]]]; apply: fit_differ; rewrite /features_equal.
  by move/eqP/negbTE: d => ->.
apply/negP => /andP [_ /forallP /(_ i) /forallP /(_ j)]; rewrite e eqxx /= => h.
by apply: d; exact: (proj1 (hsame _ _) h).
Qed.

(* finding: not so for updated fits whose observations were divided otherwise into what was fit and what was added later: when the
   features are the same, comparing them aborts on the sizes of the blocks *)
Theorem C106_division_refuted n n' m m' (f : stored_fit X (ldlt_representation tolerance) n) (g : stored_fit X (ldlt_representation tolerance) n')
    (ys : 'I_m -> feature X) (ys' : 'I_m' -> feature X) t t' :
  n <> n' -> features_equal same (concat_f (st_features f) ys) (concat_f (st_features g) ys') ->
  gp_fit_equal same (stored_update_impl tolerance cov mean_function compute_ldlt f ys t)
                    (stored_update_impl tolerance cov mean_function compute_ldlt g ys' t') = Base.Abort.
Proof.
move=> d e; rewrite /gp_fit_equal /stored_update_impl; cbn [st_features st_covariance].
rewrite e; cbn [and_also Base.bind r_equal block_representation block_of_equal ldlt_representation].
by rewrite (computed_differ _ _ d).
Qed.
End Fits.
Print Assumptions C106_predict.
Print Assumptions C106_update.
Print Assumptions C106_features.
Print Assumptions C106_division_refuted.

(* What is stored by a fit and by an update is what GpModel.v computes, when the factorizations are exact. *)
Section Agree.
Variable X : Type.
Variable cov : feature X -> feature X -> R.
Variable mean_function : feature X -> R.
Variable compute_ldlt : forall n, 'M[R]_n -> ldlt_state n.
Variable tolerance : R.
Hypothesis hldlt : ldlt_contract compute_ldlt.
Hypothesis t0 : 0 <= tolerance.
Theorem C106_fit_agrees n (xs : 'I_n -> feature X) (t : marginal R_fieldType n) :
  let A := cov_mx (F := R_fieldType) cov (as_measurement (X := X) \o xs) (as_measurement (X := X) \o xs) + diag (m_var t) in
  pd A -> (forall i, tolerance < vectorD (compute_ldlt A) i 0) ->
  as_gp_fit (stored_fit_impl tolerance cov mean_function compute_ldlt xs t) = fit (F := R_fieldType) cov mean_function xs t.
Proof. exact: fit_agrees. Qed.
Theorem C106_update_agrees r n m (f : stored_fit X r n) (ys : 'I_m -> feature X) (t : marginal R_fieldType m) :
  let S := j_cov (predict_joint (F := R_fieldType) cov mean_function (as_gp_fit f) ys) + diag (m_var t) in
  pd S -> (forall i, tolerance < vectorD (compute_ldlt S) i 0) ->
  as_gp_fit (stored_update_impl tolerance cov mean_function compute_ldlt f ys t) = update (F := R_fieldType) cov mean_function (as_gp_fit f) ys t.
Proof. exact: update_agrees. Qed.
End Agree.
Print Assumptions C106_fit_agrees.
Print Assumptions C106_update_agrees.

(* Distributions of the same size are compared by mean and covariance. *)
Theorem C106_distributions n (a b : marginal R_fieldType n) (c d : joint R_fieldType n) :
  (marginal_equal a b = Base.Ok true <-> a = b) /\ (marginal_equal a b = Base.Ok false <-> a <> b) /\
  (joint_equal c d = Base.Ok true <-> c = d) /\ (joint_equal c d = Base.Ok false <-> c <> d).
Proof.
have M := marginal_same a b.
have J : exists x, joint_equal c d = Base.Ok x /\ (x <-> c = d).
  rewrite /joint_equal !mx_equal_same; case: c d => a1 a2 [b1 b2] /=; case: eqP => [->|h] /=; last by exists false; split=> //; split=> // -[].
  by exists (a2 == b2); split=> //; split=> [/eqP -> //|[->]].
have [x [-> hx]] := M; have [y [-> hy]] := J.
by case: x hx; case: y hy => hy hx; repeat split=> //; try (by move=> _; apply/hx); try (by move=> _; apply/hy); try (by move/hx); try (by move/hy); try (by move=> h; case: h; apply/hx); try (by move=> h; case: h; apply/hy).
Qed.
Print Assumptions C106_distributions.

(* Comparing datasets never aborts, and finds them equal when features, targets and metadata are. *)
Theorem C106_datasets Y M (same : Y -> Y -> bool) (same_metadata : M -> M -> bool) n n' (a : regression_dataset Y M n) (b : regression_dataset Y M n') :
  (forall x y, same x y <-> x = y) -> (forall x y, same_metadata x y <-> x = y) ->
  exists e, dataset_equal same same_metadata a b = Base.Ok e /\
    (e <-> existT (regression_dataset Y M) n a = existT (regression_dataset Y M) n' b).
Proof. exact: datasets. Qed.
Print Assumptions C106_datasets.

(* finding: distributions of different sizes are not found to differ: comparing them aborts *)
Theorem C106_distributions_refuted n n' (a : marginal R_fieldType n) (b : marginal R_fieldType n') (c : joint R_fieldType n) (d : joint R_fieldType n') :
  n <> n' -> marginal_equal a b = Base.Abort /\ joint_equal c d = Base.Abort.
Proof. by move/eqP/negbTE => e; rewrite /marginal_equal /joint_equal /mx_equal e. Qed.
Print Assumptions C106_distributions_refuted.

(* finding: a factorization that has not been computed equals another such, but comparing it with one that has been aborts, although
   operator== means to find that they differ *)
Theorem C106_not_computed_refuted n n' (f : ldlt_state n) :
  serializable_ldlt_equal (None : option (ldlt_state n')) (None : option (ldlt_state n)) = Base.Ok true /\
  serializable_ldlt_equal (Some f) (None : option (ldlt_state n')) = Base.Abort /\
  serializable_ldlt_equal (None : option (ldlt_state n')) (Some f) = Base.Abort.
Proof. by []. Qed.
Print Assumptions C106_not_computed_refuted.

(* two observations of the number 1 and then one, or one and then two; and equal factorizations that differ above the diagonal *)
Example C106_meets :
  let same (x y : feature R) := match x, y with Bare a, Bare b => a == b | Measured a, Measured b => a == b | _, _ => false end in
  let ones n : 'I_n -> feature R := fun _ => Bare 1 in
  let t n : marginal R_fieldType n := Marginal (F := R_fieldType) (const_mx 1) (const_mx 1) in
  let fit n := stored_fit_impl 0 linear (fun _ => 0) plain_ldlt (ones n) (t n) in
  (forall x y, same x y <-> x = y) /\ (forall x y : seq nat, (x == y) <-> x = y) /\ supported 0 (block_representation 0 (ldlt_representation 0)) /\
  gp_fit_equal same (fit 2%N) (fit 2%N) = Base.Ok true /\
  features_equal same (concat_f (st_features (fit 2%N)) (ones 1%N)) (concat_f (st_features (fit 1%N)) (ones 2%N)) /\
  let a : ldlt_state 2 := LdltState 1%:M id in
  let b : ldlt_state 2 := LdltState (1%:M + delta_mx 0 1) id in
  a <> b /\ computed_equal a b = Base.Ok true.
Proof.
move=> same ones t fit.
have hsame x y : same x y <-> x = y by case: x y => a [] b /=; split=> // [/eqP ->|[->]].
split; first exact: hsame.
split; first by move=> x y; split=> /eqP.
split; first by do 2 constructor.
split; first by apply: (fit_itself hsame); exact: (C106_solve (supported_ldlt 0)).2.
split.
  rewrite /features_equal /=; apply/forallP => i; apply/forallP => j; apply/implyP => _; apply/hsame.
  by rewrite /concat_f; case: (split i) => k; case: (split j) => l.
move=> a b; split.
  by move/(congr1 (fun f => m_matrix f 0 1)); rewrite !mxE !eqxx /= => /eqP; rewrite mulr0n add0r eq_sym oner_eq0.
rewrite computed_same; congr Base.Ok; apply/andP; split; last by apply/forallP => i.
apply/forallP => i; apply/forallP => j; apply/implyP; rewrite !mxE.
by case: i => -[|[|//]] hi; case: j => -[|[|//]] hj //= _; rewrite mulr0n addr0.
Qed.

(* two observations of the number 1, then one observation added to none *)
Example C106_agrees_meets :
  let t n : marginal R_fieldType n := Marginal (F := R_fieldType) (const_mx 1) (const_mx 1) in
  let ones n : 'I_n -> feature R := fun _ => Bare 1 in
  let A := cov_mx (F := R_fieldType) linear (as_measurement (X := R) \o ones 2%N) (as_measurement (X := R) \o ones 2%N) + diag (m_var (t 2%N)) in
  let none := stored_fit_impl 0 linear (fun _ => 0) plain_ldlt (ones 0%N) (t 0%N) in
  let S := j_cov (predict_joint (F := R_fieldType) linear (fun _ => 0) (as_gp_fit none) (ones 1%N)) + diag (m_var (t 1%N)) in
  ldlt_contract plain_ldlt /\ pd A /\ (forall i, 0 < vectorD (plain_ldlt A) i 0) /\ pd S /\ (forall i, 0 < vectorD (plain_ldlt S) i 0).
Proof.
move=> t ones A none S; split; first exact: plain_ldlt_contract.
have one n : diag (const_mx 1 : 'cV[R]_n) = 1%:M by apply/matrixP => i j; rewrite !mxE.
have pI n : pd (1%:M : 'M[R]_n) by apply: pd_scalar_mx; exact: ltr01.
have Ap : pd A by rewrite /A [m_var _]/= one addrC; apply: pdD; [exact: pI | exact: linear_psd].
have Sp : pd S.
  have -> : S = cov_mx (F := R_fieldType) linear (ones 1%N) (ones 1%N) + 1%:M.
    rewrite /S [m_var _]/= one; congr (_ + _); rewrite /predict_joint /gp_joint_prediction; cbn [j_cov].
    by rewrite [X in X *m _]thinmx0 mul0mx subr0.
  by rewrite addrC; apply: pdD; [exact: pI | exact: linear_psd].
split; first exact: Ap. split; first by have [_] := ldlt_pd plain_ldlt_contract Ap.
by split; [exact: Sp | have [_] := ldlt_pd plain_ldlt_contract Sp].
Qed.

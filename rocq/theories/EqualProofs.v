(* Proofs of C106. *)
From Coq Require Import Reals FunctionalExtensionality Eqdep_dec.
From mathcomp Require Import all_ssreflect all_algebra all_fingroup.
From Verif Require Import RealStruct GpModel LdltModel ShiftModel ShiftProofs EqualModel EqualSpec.
From Verif Require Base.
Set Implicit Arguments.
Unset Strict Implicit.
Unset Printing Implicit Defensive.
Import GRing.Theory.
Local Open Scope ring_scope.

Lemma and_also_true a b : and_also a b = Base.Ok true <-> a = Base.Ok true /\ b = Base.Ok true.
Proof. by case: a => [[]|||] /=; split=> // -[]. Qed.
Lemma mx_equal_same m n (a b : 'M[R]_(m, n)) : mx_equal a b = Base.Ok (a == b).
Proof. by rewrite /mx_equal !eqxx /= conform_mx_id. Qed.
Lemma mx_equal_size m n m' n' (a : 'M[R]_(m, n)) (b : 'M[R]_(m', n')) : mx_equal a b = Base.Ok true -> m = m' /\ n = n'.
Proof. by rewrite /mx_equal; case: (m =P m') => //= em; case: (n =P n'). Qed.
Lemma mx_equal_true m n (a b : 'M[R]_(m, n)) : mx_equal a b = Base.Ok true -> a = b.
Proof. by rewrite mx_equal_same => -[] /eqP. Qed.
Lemma computed_same n (f g : ldlt_state n) : computed_equal f g = Base.Ok (ldlt_equal f g).
Proof. by rewrite /computed_equal; case: eqP => // e; rewrite (eq_axiomK e). Qed.
Lemma computed_size n n' (f : ldlt_state n) (g : ldlt_state n') : computed_equal f g = Base.Ok true -> n = n'.
Proof. by rewrite /computed_equal; case: eqP. Qed.
Lemma computed_differ n n' (f : ldlt_state n) (g : ldlt_state n') : n <> n' -> computed_equal f g = Base.Abort.
Proof. by rewrite /computed_equal; case: eqP. Qed.
Lemma computed_true n (f g : ldlt_state n) : computed_equal f g = Base.Ok true -> ldlt_equal f g.
Proof. by rewrite computed_same => -[]. Qed.
Lemma same_solver n n' (s : solver R_fieldType n) (s' : solver R_fieldType n') : existT (solver R_fieldType) n s = existT (solver R_fieldType) n' s' -> n = n'.
Proof. by move/(congr1 (@projT1 _ _)). Qed.
Lemma same_solver_fun n (s s' : solver R_fieldType n) : existT (solver R_fieldType) n s = existT (solver R_fieldType) n s' -> s = s'.
Proof. exact: (inj_pair2_eq_dec _ PeanoNat.Nat.eq_dec). Qed.
Lemma solver_ext n (s s' : solver R_fieldType n) : (forall p rhs, s p rhs = s' p rhs) -> existT (solver R_fieldType) n s = existT (solver R_fieldType) n s'.
Proof.
move=> h; congr existT; apply: functional_extensionality_dep => p; apply: functional_extensionality => rhs; exact: h.
Qed.

Lemma marginal_same n (a b : marginal R_fieldType n) : exists x, marginal_equal a b = Base.Ok x /\ (x <-> a = b).
Proof.
rewrite /marginal_equal !mx_equal_same; case: a b => a1 a2 [b1 b2] /=; case: eqP => [->|h] /=; last by exists false; split=> //; split=> // -[].
by exists (a2 == b2); split=> //; split=> [/eqP -> //|[->]].
Qed.
Lemma datasets Y M (same : Y -> Y -> bool) (same_metadata : M -> M -> bool) n n' (a : regression_dataset Y M n) (b : regression_dataset Y M n') :
  (forall x y, same x y <-> x = y) -> (forall x y, same_metadata x y <-> x = y) ->
  exists e, dataset_equal same same_metadata a b = Base.Ok e /\
    (e <-> existT (regression_dataset Y M) n a = existT (regression_dataset Y M) n' b).
Proof.
move=> h1 h2; rewrite /dataset_equal /features_equal; case: (n =P n') => [en|ne] /=; last first.
  by exists false; split=> //; split=> // /(congr1 (@projT1 _ _)).
subst n'; case: ifPn => [/forallP h|h] /=; last first.
  exists false; split=> //; split=> // e; case/negP: h.
  have -> : a = b by exact: (inj_pair2_eq_dec _ PeanoNat.Nat.eq_dec _ _ _ _ e).
  by apply/forallP => i; apply/forallP => j; apply/implyP => /eqP ij; apply/h1; congr ds_features; apply: val_inj.
have [x [-> hx]] := marginal_same (ds_targets a) (ds_targets b).
have hf : ds_features a = ds_features b.
  by apply: functional_extensionality => i; apply/h1; move: (h i) => /forallP /(_ i); rewrite eqxx.
have key : x && same_metadata (ds_metadata a) (ds_metadata b) <-> a = b.
  split=> [/andP [/hx e1 /h2 e2]|e]; last by apply/andP; split; [apply/hx; rewrite e | apply/h2; rewrite e].
  by move: hf e1 e2; clear; case: a b => [? ? ?] [? ? ?] /= -> -> ->.
exists (x && same_metadata (ds_metadata a) (ds_metadata b)); split; first by case: x {hx key}.
split=> [/key -> //|e]; apply/key; exact: (inj_pair2_eq_dec _ PeanoNat.Nat.eq_dec _ _ _ _ e).
Qed.

Section Representations.
Variable tolerance : R.
Lemma ldlt_alike : equal_solve_alike (ldlt_representation tolerance).
Proof.
move=> n n' /= f g e; have en := computed_size e; subst n'; apply: solver_ext => p rhs.
exact: (equal_solve (computed_true e)).
Qed.
Lemma explained_alike : equal_solve_alike (explained_representation tolerance).
Proof.
move=> n n' /= f g /and_also_true [e e']; have en := computed_size e; subst n'; apply: solver_ext => p rhs.
by rewrite (mx_equal_true e') !(equal_solve (computed_true e)).
Qed.
Lemma direct_alike : equal_solve_alike direct_representation.
Proof. by move=> n n' /= a b e; have [en _] := mx_equal_size e; subst n'; rewrite (mx_equal_true e). Qed.
Lemma block_alike r : equal_solve_alike r -> equal_solve_alike (block_representation tolerance r).
Proof.
move=> h l l' /= [n m A B Sf] [n' m' A' B' Sf'] /= /and_also_true [/and_also_true [eA eB] eS].
have [en em] := mx_equal_size eB; subst n' m'.
have As := same_solver_fun (h _ _ _ _ eA); apply: solver_ext => p rhs /=.
by rewrite As (mx_equal_true eB) !(equal_solve (computed_true eS)).
Qed.
Lemma ldlt_itself : equal_to_itself (ldlt_representation tolerance).
Proof. by move=> n a /=; rewrite computed_same ldlt_equal_refl. Qed.
Lemma explained_itself : equal_to_itself (explained_representation tolerance).
Proof. by move=> n a /=; rewrite computed_same ldlt_equal_refl /= mx_equal_same eqxx. Qed.
Lemma direct_itself : equal_to_itself direct_representation.
Proof. by move=> n a /=; rewrite mx_equal_same eqxx. Qed.
Lemma block_itself r : equal_to_itself r -> equal_to_itself (block_representation tolerance r).
Proof. by move=> h l [n m A B Sf] /=; rewrite h /= mx_equal_same eqxx /= computed_same ldlt_equal_refl. Qed.
End Representations.

Section Fits.
Variable X : Type.
Variable same : feature X -> feature X -> bool.
Hypothesis hsame : forall x y, same x y <-> x = y.
Lemma features_true n (xs ys : 'I_n -> feature X) : features_equal same xs ys -> xs = ys.
Proof.
case/andP => _ /forallP h; apply: functional_extensionality => i; apply/hsame.
by move: (h i) => /forallP /(_ i); rewrite eqxx.
Qed.
Lemma features_refl n (xs : 'I_n -> feature X) : features_equal same xs xs.
Proof.
rewrite /features_equal eqxx; apply/forallP => i; apply/forallP => j; apply/implyP => /eqP e.
by apply/hsame; congr xs; apply: val_inj.
Qed.
Section Rep.
Variable r : representation.
Lemma fit_parts n n' (f : stored_fit X r n) (g : stored_fit X r n') : gp_fit_equal same f g = Base.Ok true ->
  n = n' /\ features_equal same (st_features f) (st_features g) /\ r_equal (st_covariance f) (st_covariance g) = Base.Ok true /\
  mx_equal (st_information f) (st_information g) = Base.Ok true.
Proof.
by move/and_also_true => [/and_also_true [[h1] h2] h3]; split; first by case/andP: h1 => /eqP.
Qed.
Lemma fit_itself n (f : stored_fit X r n) : equal_to_itself r -> gp_fit_equal same f f = Base.Ok true.
Proof. by move=> h; rewrite /gp_fit_equal features_refl /= h /= mx_equal_same eqxx. Qed.
Lemma fit_differ n n' (f : stored_fit X r n) (g : stored_fit X r n') :
  features_equal same (st_features f) (st_features g) = false -> gp_fit_equal same f g = Base.Ok false.
Proof. by rewrite /gp_fit_equal => ->. Qed.
Hypothesis alike : equal_solve_alike r.
Lemma fit_as_gp n (f g : stored_fit X r n) : gp_fit_equal same f g = Base.Ok true -> as_gp_fit f = as_gp_fit g.
Proof.
move=> /fit_parts [_ [h1 [h2 h3]]]; rewrite /as_gp_fit (features_true h1) (mx_equal_true h3).
by rewrite (same_solver_fun (alike h2)).
Qed.
Variable cov : feature X -> feature X -> R.
Variable mean_function : feature X -> R.
Lemma equal_fits_predict n n' (f : stored_fit X r n) (g : stored_fit X r n') : gp_fit_equal same f g = Base.Ok true ->
  forall p (zs : 'I_p -> feature X),
  predict_joint (F := R_fieldType) cov mean_function (as_gp_fit f) zs = predict_joint (F := R_fieldType) cov mean_function (as_gp_fit g) zs /\
  predict_marginal (F := R_fieldType) cov mean_function (as_gp_fit f) zs = predict_marginal (F := R_fieldType) cov mean_function (as_gp_fit g) zs /\
  predict_mean (F := R_fieldType) cov mean_function (as_gp_fit f) zs = predict_mean (F := R_fieldType) cov mean_function (as_gp_fit g) zs.
Proof. by move=> e p zs; have [en _] := fit_parts e; subst n'; rewrite (fit_as_gp e). Qed.
Variable compute_ldlt : forall n, 'M[R]_n -> ldlt_state n.
Variable tolerance : R.
Lemma equal_fits_update n n' (f : stored_fit X r n) (g : stored_fit X r n') m (ys : 'I_m -> feature X) t : gp_fit_equal same f g = Base.Ok true ->
  gp_fit_equal same (stored_update_impl tolerance cov mean_function compute_ldlt f ys t) (stored_update_impl tolerance cov mean_function compute_ldlt g ys t) = Base.Ok true.
Proof.
move=> e; have [en [h1 [h2 h3]]] := fit_parts e; subst n'.
have es := same_solver_fun (alike h2).
rewrite /gp_fit_equal /stored_update_impl [st_features _]/= [st_information _]/= [st_covariance _]/= (fit_as_gp e).
rewrite (features_true h1) es (mx_equal_true h3); cbn [st_features st_information st_covariance].
apply/and_also_true; split; last by rewrite mx_equal_same eqxx.
apply/and_also_true; split; first by rewrite features_refl.
cbn [r_equal block_representation block_of_equal].
by rewrite h2 /= mx_equal_same eqxx /= computed_same ldlt_equal_refl.
Qed.
End Rep.
End Fits.

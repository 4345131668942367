(* Specification vocabulary of C104: predicting each group of observations before learning from it. *)
From Coq Require Import Reals.
From mathcomp Require Import all_ssreflect all_algebra all_fingroup.
From Verif Require Import RealStruct GpModel GpSpec GpHistory LdltModel SparseGpModel SparseGpSpec.
Set Implicit Arguments.
Unset Strict Implicit.
Unset Printing Implicit Defensive.
Import GRing.Theory.
Local Open Scope ring_scope.

(* all of m observations in one group *)
Definition one_group m : seq (seq 'I_m) := [:: enum 'I_m].
(* the groups of n observations followed by those of m others *)
Definition joined_groups n m (groups : seq (seq 'I_n)) (groups' : seq (seq 'I_m)) : seq (seq 'I_(n + m)) :=
  [seq [seq lshift m i | i <- g] | g <- groups] ++ [seq [seq rshift n i | i <- g] | g <- groups'].

Section Chain.
Variable X : Type.
Variable cov : feature X -> feature X -> R.
Variable mean_function : feature X -> R.
Variable compute_ldlt : forall n, 'M[R]_n -> ldlt_state n.
Variable compute_qr : forall m n, 'M[R]_(m, n) -> qr_result m n.
Variables tolerance measurement_nugget inducing_nugget sparse_R_nugget : R.
Variables (k : nat) (u : 'I_k -> feature X).

(* the log density of noisy targets under a prediction of the measurements *)
Definition sparse_predicted_log_density (f : sparse_fit X k) m (ys : 'I_m -> feature X) (s : marginal R_fieldType m) : R :=
  let prediction := sparse_predict_joint cov mean_function f (as_measurement (X := X) \o ys) in
  gaussian_log_density (j_cov prediction + diag (m_var s) + measurement_nugget%:M) (m_mean s - j_mean prediction).

(* observations with their groups *)
Definition grouped : Type := {n : nat & (('I_n -> feature X) * marginal R_fieldType n * seq (seq 'I_n))%type}.
(* further batches, each a group of its own *)
Fixpoint add_groups n (xs : 'I_n -> feature X) (t : marginal R_fieldType n) (groups : seq (seq 'I_n))
    (batches : seq (batch R_fieldType X)) : grouped :=
  match batches with
  | [::] => existT _ n (xs, t, groups)
  | existT m d :: later => add_groups (concat_f xs d.1) (concat_t t d.2) (joined_groups groups (one_group m)) later
  end.
(* each batch is predicted by what was learned from the observations before it, and then learned from *)
Fixpoint sparse_one_after_another (f : sparse_fit X k) (batches : seq (batch R_fieldType X)) : R :=
  match batches with
  | [::] => 0%R
  | existT m d :: later =>
      (sparse_predicted_log_density f d.1 d.2 +
       sparse_one_after_another
         (sparse_update_impl cov compute_ldlt compute_qr measurement_nugget inducing_nugget sparse_R_nugget (one_group m) f d.1 d.2)
         later)%R
  end.

(* log_likelihood of observations with their groups *)
Definition likelihood_of (data : grouped) (prior_ : R) : option R :=
  let: existT _ (xs, t, groups) := data in
  sparse_log_likelihood cov compute_ldlt compute_qr tolerance measurement_nugget inducing_nugget groups u xs t prior_.
(* the noise is positive, with the nugget *)
Definition noisy (data : grouped) : Prop :=
  let: existT _ (xs, t, groups) := data in forall i, 0 < m_var t i 0 + measurement_nugget.
(* every pivot of the factorization of the covariance given the inducing points is one that Eigen inverts *)
Definition resolved_pivots (data : grouped) : Prop :=
  let: existT _ (xs, t, groups) := data in
  above_tolerance tolerance (c_A_ldlt (compute_internal_components cov compute_ldlt measurement_nugget inducing_nugget groups u xs t)).
End Chain.

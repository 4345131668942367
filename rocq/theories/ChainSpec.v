(* Specification vocabulary of C103: predicting each batch of data before learning from it. *)
From Coq Require Import Reals.
From mathcomp Require Import all_ssreflect all_algebra.
From Verif Require Import RealStruct GpModel GpSpec GpHistory LdltModel SparseGpSpec.
Set Implicit Arguments.
Unset Strict Implicit.
Unset Printing Implicit Defensive.
Import GRing.Theory.
Local Open Scope ring_scope.

Section Chain.
Variable X : Type.
Variable cov : feature X -> feature X -> R.
Variable mu : feature X -> R.

(* the log density of noisy targets under a prediction of what they measure *)
Definition predicted_log_density n (gp : gp_fit R_fieldType X n) m (ys : 'I_m -> feature X) (t : marginal R_fieldType m) : R :=
  let prediction := predict_joint cov mu gp ys in
  gaussian_log_density (j_cov prediction + diag (m_var t)) (m_mean t - j_mean prediction).
(* each batch is predicted by what was learned from those before it, and then learned from *)
Fixpoint one_after_another n (gp : gp_fit R_fieldType X n) (batches : seq (batch R_fieldType X)) : R :=
  match batches with
  | [::] => 0%R
  | existT _ d :: later => (predicted_log_density gp d.1 d.2 + one_after_another (update cov mu gp d.1 d.2) later)%R
  end.
(* the log density of the data under the prior *)
Definition prior_log_density (data : batch R_fieldType X) : R :=
  let: existT _ d := data in gaussian_log_density (kmat cov d.1 d.2) (m_mean d.2 - \col_i mu (as_measurement (d.1 i))).
End Chain.

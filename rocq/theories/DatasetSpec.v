(* Specification vocabulary for datasets. *)
From Verif Require Import Base DatasetModel.

(* what the constructors guarantee *)
Definition wf_marginal {D} (m : marginal D) : Prop :=
  length (m_mean m) = length (m_var m).
Definition wf_dataset {X D} (d : dataset X D) : Prop :=
  wf_marginal (ds_targets d) /\ length (ds_features d) = length (m_mean (ds_targets d)).

(* a dataset seen as a list of observations (feature, (mean, variance)) *)
Definition rows {X D} (d : dataset X D) : list (X * (D * D)) :=
  combine (ds_features d) (combine (m_mean (ds_targets d)) (m_var (ds_targets d))).

(* Vocabulary for C88. *)
From Verif Require Import Base StdMapModel IndexingModel DatasetModel DatasetSpec DoubleModel RansacModel RansacGenericModel.

Section Spec.
Context {K : Type} {OK : OrdKey K} {X D : Type}.
Variable indexer : smap K (list nat).
Variable d : dataset X D.
(* the groups have positions in the data set *)
Definition indexes : Prop :=
  wf_map indexer /\ forall k l, mfind k indexer = Some l -> Forall (fun i => i < length (ds_features d)) l.
(* the observations of a group, in the order of its positions *)
Definition group_rows (k : K) : list (X * (D * D)) :=
  match mfind k indexer with
  | Some l => flat_map (fun i => match nth_error (rows d) i with Some r => [r] | None => [] end) l
  | None => []
  end.
(* a data set made of the observations of some groups, group after group *)
Definition made_of (ks : list K) (sub : dataset X D) : Prop :=
  wf_dataset sub /\ ds_metadata sub = [] /\ rows sub = flat_map group_rows ks.
End Spec.

(* callbacks that return what the functions of a strategy return, for some groups *)
Definition implements {K F} (groups : list K) (fns : ransac_functions K F)
    (fitter : list K -> F) (inlier : K -> F -> dbl) (consensus : list K -> dbl) (valid : list K -> bool) : Prop :=
  (forall ks, incl ks groups -> f_fitter fns ks = Ok (fitter ks)) /\
  (forall k f, In k groups -> f_inlier fns k f = Ok (inlier k f)) /\
  (forall ks, incl ks groups -> f_consensus fns ks = Ok (consensus ks)) /\
  (forall ks, incl ks groups -> f_valid fns ks = Ok (valid ks)).

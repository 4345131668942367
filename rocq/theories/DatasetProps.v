(* Properties C08 (datasets), C16, C17 and C18 of properties.jsonl. *)
From Verif Require Import Base StdMapModel StringKeyModel IndexingModel DatasetModel
  DatasetSpec DatasetProofs.

Definition ex_ds : dataset nat nat := DS [5; 7; 5; 9] (Marg [1; 2; 3; 4] [10; 20; 30; 40]) [].
Definition ex_ds2 : dataset nat nat := DS [9; 6; 7] (Marg [11; 12; 13] [110; 120; 130]) [].
Example ex_ds_wf : wf_dataset ex_ds /\ wf_dataset ex_ds2.
Proof. repeat split. Qed.
Example ex_ds_rows : rows ex_ds = [(5, (1, 10)); (7, (2, 20)); (5, (3, 30)); (9, (4, 40))].
Proof. reflexivity. Qed.

(* ------------------------------ C01 ------------------------------ *)

(* subset of a dataset keeps features, means and variances together *)
Theorem C01_dataset_subset : forall (X D : Type) (d : dataset X D) (inds : list nat),
  wf_dataset d ->
  (Forall (fun i => i < ds_size d) inds ->
   exists out, dataset_subset d inds = Ok out /\ wf_dataset out /\ ds_metadata out = [] /\
     subset (rows d) inds = Ok (rows out)) /\
  ((exists i, In i inds /\ ds_size d <= i) -> dataset_subset d inds = Abort).
Proof. exact @dataset_subset_rows. Qed.
Print Assumptions C01_dataset_subset.

Example C01_dataset_subset_ex :
  exists out, dataset_subset ex_ds [3; 0; 3] = Ok out /\
    rows out = [(9, (4, 40)); (5, (1, 10)); (9, (4, 40))].
Proof. eexists. split; reflexivity. Qed.

(* ------------------------------ C08 ------------------------------ *)

(* filtering a dataset keeps exactly the observations whose feature satisfies
   the predicate, in order, with their own target mean and variance *)
Theorem C08_dataset_filter : forall (X D : Type) (d : dataset X D) (p : X -> bool),
  wf_dataset d ->
  exists out, dataset_filter d p = Ok out /\ wf_dataset out /\
    rows out = filter (fun r => p (fst r)) (rows d).
Proof. exact @dataset_filter_rows. Qed.
Print Assumptions C08_dataset_filter.

Example C08_dataset_filter_ex :
  exists out, dataset_filter ex_ds (fun x => x =? 5) = Ok out /\
    rows out = [(5, (1, 10)); (5, (3, 30))].
Proof. eexists. split; reflexivity. Qed.

(* ------------------------------ C16 ------------------------------ *)

(* deduplicate keeps, in order, the last observation of every distinct feature *)
Theorem C16_deduplicate : forall (X D : Type) (eqb : X -> X -> bool) (d : dataset X D),
  (forall a b, eqb a b = true <-> a = b) -> wf_dataset d ->
  exists out inds, deduplicate eqb d = Ok out /\ wf_dataset out /\
    StronglySorted lt inds /\
    (forall i, In i inds <->
       exists x, nth_error (ds_features d) i = Some x /\
                 forall j, i < j -> nth_error (ds_features d) j <> Some x) /\
    Forall2 (fun i r => nth_error (rows d) i = Some r) inds (rows out) /\
    NoDup (ds_features out) /\
    (forall x, In x (ds_features out) <-> In x (ds_features d)).
Proof. exact @deduplicate_spec. Qed.
Print Assumptions C16_deduplicate.

Example C16_deduplicate_ex :
  exists out, deduplicate Nat.eqb ex_ds = Ok out /\
    rows out = [(7, (2, 20)); (5, (3, 30)); (9, (4, 40))].
Proof. eexists. split; reflexivity. Qed.

(* ------------------------------ C17 ------------------------------ *)

(* the two aligned datasets list all pairs of observations with equal features,
   ordered by position in x and then in y *)
Theorem C17_align_pairs : forall (X D : Type) (eqb : X -> X -> bool) (x y : dataset X D),
  wf_dataset x -> wf_dataset y ->
  exists x' y' pairs, align_datasets eqb x y = Ok (x', y') /\
    wf_dataset x' /\ wf_dataset y' /\
    StronglySorted (fun p q => fst p < fst q \/ (fst p = fst q /\ snd p < snd q)) pairs /\
    (forall i j, In (i, j) pairs <-> exists a b, nth_error (ds_features x) i = Some a /\
        nth_error (ds_features y) j = Some b /\ eqb a b = true) /\
    Forall2 (fun p r => nth_error (rows x) (fst p) = Some r) pairs (rows x') /\
    Forall2 (fun p r => nth_error (rows y) (snd p) = Some r) pairs (rows y').
Proof. exact @align_datasets_spec. Qed.
Print Assumptions C17_align_pairs.

(* afterwards the features agree row by row *)
Theorem C17_align_features : forall (X D : Type) (eqb : X -> X -> bool)
  (x y x' y' : dataset X D),
  wf_dataset x -> wf_dataset y -> align_datasets eqb x y = Ok (x', y') ->
  Forall2 (fun a b => eqb a b = true) (ds_features x') (ds_features y').
Proof. exact @align_datasets_features. Qed.
Print Assumptions C17_align_features.

(* when neither dataset repeats a feature the result is exactly the
   intersection, each side keeping its own targets *)
Theorem C17_align_unique : forall (X D : Type) (eqb : X -> X -> bool)
  (x y x' y' : dataset X D),
  (forall a b, eqb a b = true <-> a = b) ->
  wf_dataset x -> wf_dataset y -> NoDup (ds_features x) -> NoDup (ds_features y) ->
  align_datasets eqb x y = Ok (x', y') ->
  ds_features x' = ds_features y' /\
  ds_features x' = filter (fun f => existsb (eqb f) (ds_features y)) (ds_features x) /\
  rows x' = filter (fun r => existsb (eqb (fst r)) (ds_features y)) (rows x) /\
  (forall r, In r (rows y') <-> In r (rows y) /\ In (fst r) (ds_features x)).
Proof. exact @align_datasets_unique. Qed.
Print Assumptions C17_align_unique.

Example C17_align_ex :
  exists x' y', align_datasets Nat.eqb (DS [7; 5; 9] (Marg [1; 2; 3] [4; 5; 6]) []) ex_ds2 = Ok (x', y') /\
    rows x' = [(7, (1, 4)); (9, (3, 6))] /\ rows y' = [(7, (13, 130)); (9, (11, 110))].
Proof. eexists. eexists. split; [reflexivity|]. split; reflexivity. Qed.

(* finding: with repeated features the output can have more rows than either
   input, so "aligned datasets are subsets of the inputs" is false *)
Theorem C17_align_duplicates_refuted :
  exists (x y x' y' : dataset nat nat), wf_dataset x /\ wf_dataset y /\
    align_datasets Nat.eqb x y = Ok (x', y') /\
    ds_size x' > ds_size x /\ ds_size y' > ds_size y.
Proof.
  exists (DS [1; 1] (Marg [1; 2] [1; 2]) []), (DS [1; 1] (Marg [3; 4] [3; 4]) []).
  eexists. eexists. split; [repeat split|]. split; [repeat split|]. split; [reflexivity|].
  cbn. lia.
Qed.
Print Assumptions C17_align_duplicates_refuted.

(* ------------------------------ C18 ------------------------------ *)

Theorem C18_concatenate : forall (X D : Type) (x y : dataset X D),
  wf_dataset x -> wf_dataset y ->
  exists out, concatenate_datasets x y = Ok out /\ wf_dataset out /\
    rows out = rows x ++ rows y /\ ds_metadata out = [].
Proof. exact @concatenate_datasets_rows. Qed.
Print Assumptions C18_concatenate.

Example C18_concatenate_ex :
  exists out, concatenate_datasets ex_ds2 ex_ds = Ok out /\
    rows out = [(9, (11, 110)); (6, (12, 120)); (7, (13, 130));
                (5, (1, 10)); (7, (2, 20)); (5, (3, 30)); (9, (4, 40))].
Proof. eexists. split; reflexivity. Qed.

(* the pieces can be recovered with subset *)
Theorem C18_concatenate_then_subset : forall (X D : Type) (x y out : dataset X D),
  wf_dataset x -> wf_dataset y -> concatenate_datasets x y = Ok out ->
  exists x' y', dataset_subset out (seq 0 (ds_size x)) = Ok x' /\
    dataset_subset out (seq (ds_size x) (ds_size y)) = Ok y' /\
    ds_features x' = ds_features x /\ ds_targets x' = ds_targets x /\
    ds_features y' = ds_features y /\ ds_targets y' = ds_targets y.
Proof. exact @concatenate_then_subset. Qed.
Print Assumptions C18_concatenate_then_subset.

Theorem C18_concatenate_list : forall (X D : Type) (ds : list (dataset X D)),
  Forall wf_dataset ds ->
  exists out, concatenate_dataset_list ds = Ok out /\ wf_dataset out /\
    rows out = concat (map rows ds) /\ ds_metadata out = [].
Proof. exact @concatenate_dataset_list_rows. Qed.
Print Assumptions C18_concatenate_list.

Example C18_concatenate_list_ex : Forall wf_dataset [ex_ds; ex_ds2; ex_ds].
Proof. repeat constructor. Qed.

(* datasets over different feature types become a dataset over the variant *)
Theorem C18_concatenate_variant : forall (X Y D : Type) (x : dataset X D) (y : dataset Y D),
  wf_dataset x -> wf_dataset y ->
  exists out, concatenate_datasets_variant x y = Ok out /\ wf_dataset out /\
    rows out = map (fun r => (inl (fst r), snd r)) (rows x) ++
               map (fun r => (inr (fst r), snd r)) (rows y).
Proof. exact @concatenate_datasets_variant_rows. Qed.
Print Assumptions C18_concatenate_variant.

Example C18_concatenate_variant_ex :
  exists out, concatenate_datasets_variant (DS [true] (Marg [1] [2]) []) (DS [7] (Marg [3] [4]) []) = Ok out /\
    rows out = [(inl true, (1, 2)); (inr 7, (3, 4))].
Proof. eexists. split; reflexivity. Qed.

(* finding: dataset metadata never survives subset or concatenation *)
Theorem C18_metadata_refuted : exists (x y out sub : dataset nat nat),
  wf_dataset x /\ wf_dataset y /\ ds_metadata x <> [] /\ ds_metadata y <> [] /\
  concatenate_datasets x y = Ok out /\ ds_metadata out = [] /\
  dataset_subset x (seq 0 (ds_size x)) = Ok sub /\ ds_metadata sub = [].
Proof.
  exists (DS [1] (Marg [1] [1]) [(String.EmptyString, String.EmptyString)]),
         (DS [1] (Marg [1] [1]) [(String.EmptyString, String.EmptyString)]).
  eexists. eexists. repeat split; cbn; try reflexivity; discriminate.
Qed.
Print Assumptions C18_metadata_refuted.

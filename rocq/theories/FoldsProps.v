(* Properties C09 and C10 of properties.jsonl. *)
From Verif Require Import Base StdMapModel StdMapProofs StringKeyModel IndexingModel IndexingSpec
  IndexingProofs DatasetModel DatasetSpec DatasetProofs FoldsModel FoldsProofs.
From Coq Require Import Permutation.

Definition ex_d : dataset nat nat := DS [5; 7; 5; 9] (Marg [1; 2; 3; 4] [10; 20; 30; 40]) [].
Example ex_d_wf : wf_dataset ex_d /\ 0 < ds_size ex_d.
Proof. repeat split. cbn. lia. Qed.

(* ------------------------------ C09 ------------------------------ *)

(* A fold is created for every set of distinct in range indices; its test part
   is those observations and its train part all others, in order. *)
Theorem C09_create_fold : forall (X D : Type) (inds : list nat) (d : dataset X D),
  wf_dataset d -> NoDup inds -> Forall (fun i => i < ds_size d) inds ->
  exists f, create_fold inds d = Ok f /\
    f_test_indices f = inds /\ wf_dataset (f_train f) /\ wf_dataset (f_test f) /\
    subset (rows d) inds = Ok (rows (f_test f)) /\
    subset (rows d) (indices_complement inds (ds_size d)) = Ok (rows (f_train f)) /\
    Permutation (rows (f_test f) ++ rows (f_train f)) (rows d).
Proof. exact @create_fold_ok. Qed.
Print Assumptions C09_create_fold.

Example C09_create_fold_ex :
  exists f, create_fold [2; 1] ex_d = Ok f /\
    rows (f_test f) = [(5, (3, 30)); (7, (2, 20))] /\
    rows (f_train f) = [(5, (1, 10)); (9, (4, 40))].
Proof. eexists. split; [reflexivity|]. split; reflexivity. Qed.

(* repeated or out of range indices never produce a fold *)
Theorem C09_create_fold_rejects : forall (X D : Type) (inds : list nat) (d : dataset X D),
  wf_dataset d -> ~ NoDup inds \/ (exists i, In i inds /\ ds_size d <= i) ->
  create_fold inds d = Abort.
Proof. exact @create_fold_bad. Qed.
Print Assumptions C09_create_fold_rejects.

Example C09_create_fold_rejects_ex :
  create_fold [1; 1] ex_d = Abort /\ create_fold [4] ex_d = Abort.
Proof. split; reflexivity. Qed.

(* folds of a grouper: no observation of a group is in its training data, every
   observation of the other groups is *)
Theorem C09_folds_from_grouper : forall (X D K : Type) (HK : OrdKey K) (d : dataset X D) (g : X -> K),
  wf_dataset d ->
  exists folds, folds_from_grouper d g = Ok folds /\ wf_map folds /\
    (forall k, In k (mkeys folds) <-> exists x, In x (ds_features d) /\ g x = k) /\
    (forall k f, mfind k folds = Some f ->
       rows (f_test f) = filter (fun r => keqb (g (fst r)) k) (rows d) /\
       rows (f_train f) = filter (fun r => negb (keqb (g (fst r)) k)) (rows d)).
Proof. exact @folds_from_grouper_spec. Qed.
Print Assumptions C09_folds_from_grouper.

(* over all folds every observation is tested exactly once *)
Theorem C09_tests_cover_once : forall (X D K : Type) (HK : OrdKey K) (d : dataset X D) (g : X -> K) folds,
  wf_dataset d -> folds_from_grouper d g = Ok folds ->
  Permutation (concat (map (fun f => rows (f_test f)) (mvals folds))) (rows d).
Proof. exact @folds_tests_permutation. Qed.
Print Assumptions C09_tests_cover_once.

Example C09_folds_ex :
  exists folds, folds_from_grouper ex_d (fun x => x mod 4) = Ok folds /\
    map (fun kv => (fst kv, rows (f_test (snd kv)), rows (f_train (snd kv)))) folds =
    [(1, [(5, (1, 10)); (5, (3, 30)); (9, (4, 40))], [(7, (2, 20))]);
     (3, [(7, (2, 20))], [(5, (1, 10)); (5, (3, 30)); (9, (4, 40))])].
Proof. eexists. split; reflexivity. Qed.

(* any indexer of distinct in range indices *)
Theorem C09_folds_from_indexer : forall (X D K : Type) (HK : OrdKey K) (d : dataset X D) groups,
  wf_dataset d -> wf_map groups ->
  (forall k inds, mfind k groups = Some inds -> NoDup inds /\ Forall (fun i => i < ds_size d) inds) ->
  exists folds, folds_from_group_indexer d groups = Ok folds /\ wf_map folds /\
    mkeys folds = mkeys groups /\
    forall k f, mfind k folds = Some f -> exists inds, mfind k groups = Some inds /\
      f_test_indices f = inds /\ wf_dataset (f_train f) /\ wf_dataset (f_test f) /\
      subset (rows d) inds = Ok (rows (f_test f)) /\
      subset (rows d) (indices_complement inds (ds_size d)) = Ok (rows (f_train f)) /\
      Permutation (rows (f_test f) ++ rows (f_train f)) (rows d).
Proof. exact @folds_from_group_indexer_spec. Qed.
Print Assumptions C09_folds_from_indexer.

(* the indexer can be recovered from the folds *)
Theorem C09_indexer_round_trip : forall (X D K : Type) (HK : OrdKey K) (d : dataset X D) groups folds,
  wf_dataset d -> wf_map groups ->
  (forall k inds, mfind k groups = Some inds -> NoDup inds /\ Forall (fun i => i < ds_size d) inds) ->
  folds_from_group_indexer d groups = Ok folds -> group_indexer_from_folds folds = Ok groups.
Proof. exact @folds_round_trip. Qed.
Print Assumptions C09_indexer_round_trip.

Example C09_indexer_ex :
  wf_map [(1, [2; 0]); (3, [1])] /\
  (forall k inds, mfind k [(1, [2; 0]); (3, [1])] = Some inds ->
     NoDup inds /\ Forall (fun i => i < ds_size ex_d) inds).
Proof.
  split; [repeat constructor|]. intros k inds E.
  apply (mfind_In_keys k inds) in E. destruct E as [E|[E|[]]]; injection E as <- <-;
    split; repeat constructor; cbn; lia.
Qed.

(* The size of a dataset is recovered from an indexer exactly when its indices
   are 0 .. n-1, each once; otherwise the call stops at an assertion, or, without
   any index, dereferences end(). *)
Theorem C09_dataset_size : forall (K : Type) (m : smap K (list nat)),
  (forall n, dataset_size_from_indexer m = Ok n <->
     0 < n /\ Permutation (concat (mvals m)) (seq 0 n)) /\
  (concat (mvals m) = [] -> dataset_size_from_indexer m = UB) /\
  (concat (mvals m) <> [] -> (forall n, ~ Permutation (concat (mvals m)) (seq 0 n)) ->
     dataset_size_from_indexer m = Abort).
Proof. exact @dataset_size_from_indexer_spec. Qed.
Print Assumptions C09_dataset_size.

Example C09_dataset_size_ex :
  dataset_size_from_indexer [(1, [2; 0]); (3, [1])] = Ok 3 /\
  dataset_size_from_indexer [(1, [2; 0]); (3, [3])] = Abort /\
  dataset_size_from_indexer [(1, [2; 0]); (3, [0; 1])] = Abort.
Proof. repeat split. Qed.

(* ------------------------------ C10 ------------------------------ *)

(* Entry i of the concatenated cross validated mean is the prediction made for
   observation i by the model fit to the other groups. *)
Theorem C10_cv_mean : forall (X D K F : Type) (HK : OrdKey K)
  (fit : dataset X D -> F) (predict_mean : F -> list X -> list D),
  (forall f xs, length (predict_mean f xs) = length xs) ->
  forall (d : dataset X D) (indexer : smap K (list nat)),
  wf_dataset d -> 0 < ds_size d -> indexer_partitions indexer (ds_size d) ->
  exists out, cv_mean fit predict_mean d indexer = Ok (map Some out) /\ length out = ds_size d /\
    forall k l p i, mfind k indexer = Some l -> nth_error l p = Some i ->
      exists train test,
        dataset_subset d (indices_complement l (ds_size d)) = Ok train /\
        subset (ds_features d) l = Ok test /\
        nth_error out i = nth_error (predict_mean (fit train) test) p.
Proof. exact @cv_mean_spec. Qed.
Print Assumptions C10_cv_mean.

Theorem C10_cv_marginal : forall (X D K F : Type) (HK : OrdKey K)
  (fit : dataset X D -> F) (predict_marginal : F -> list X -> marginal D),
  (forall f xs, wf_marginal (predict_marginal f xs) /\
     length (m_mean (predict_marginal f xs)) = length xs) ->
  forall (d : dataset X D) (indexer : smap K (list nat)),
  wf_dataset d -> 0 < ds_size d -> indexer_partitions indexer (ds_size d) ->
  exists mu va, cv_marginal fit predict_marginal d indexer = Ok (Marg (map Some mu) (map Some va)) /\
    length mu = ds_size d /\ length va = ds_size d /\
    forall k l p i, mfind k indexer = Some l -> nth_error l p = Some i ->
      exists train test,
        dataset_subset d (indices_complement l (ds_size d)) = Ok train /\
        subset (ds_features d) l = Ok test /\
        nth_error mu i = nth_error (m_mean (predict_marginal (fit train) test)) p /\
        nth_error va i = nth_error (m_var (predict_marginal (fit train) test)) p.
Proof. exact @cv_marginal_spec. Qed.
Print Assumptions C10_cv_marginal.

(* With a grouper and a model that predicts feature by feature. *)
Theorem C10_cv_mean_pointwise : forall (X D K F : Type) (HK : OrdKey K)
  (fit : dataset X D -> F) (predict_mean : F -> list X -> list D),
  (forall f xs, length (predict_mean f xs) = length xs) ->
  forall (d : dataset X D) (g : X -> K) (pt : F -> X -> D),
  (forall f xs, predict_mean f xs = map (pt f) xs) ->
  wf_dataset d -> 0 < ds_size d ->
  exists out, cv_mean_grouper fit predict_mean d g = Ok (map Some out) /\ length out = ds_size d /\
    forall i x, nth_error (ds_features d) i = Some x ->
      exists train, rows train = filter (fun r => negb (keqb (g (fst r)) (g x))) (rows d) /\
        wf_dataset train /\ ds_metadata train = [] /\
        nth_error out i = Some (pt (fit train) x).
Proof. exact @cv_mean_pointwise. Qed.
Print Assumptions C10_cv_mean_pointwise.

(* a model predicting feature + sum of the training targets *)
Definition ex_fit (d : dataset nat nat) : nat := fold_left Nat.add (m_mean (ds_targets d)) 0.
Definition ex_predict (f : nat) (xs : list nat) : list nat := map (fun x => x + f) xs.
Example C10_cv_mean_ex :
  cv_mean_grouper ex_fit ex_predict ex_d (fun x => x mod 4) =
  Ok [Some (5 + 2); Some (7 + (1 + 3 + 4)); Some (5 + 2); Some (9 + 2)] /\
  (forall f xs, length (ex_predict f xs) = length xs) /\
  indexer_partitions (build_indexer (fun x => x mod 4) (ds_features ex_d)) (ds_size ex_d).
Proof.
  split; [reflexivity|]. split; [intros f xs; apply map_length|]. apply build_indexer_partitions.
Qed.

(* scores: one entry per group, in key order, each comparing the held out
   targets with the prediction made without them *)
Theorem C10_cv_scores : forall (X D K F : Type) (HK : OrdKey K)
  (fit : dataset X D -> F) (predict_mean : F -> list X -> list D),
  (forall f xs, length (predict_mean f xs) = length xs) ->
  forall (S : Type) (metric : list D -> marginal D -> S) (d : dataset X D) (indexer : smap K (list nat)),
  wf_dataset d -> indexer_partitions indexer (ds_size d) ->
  exists out, cv_scores fit predict_mean metric d indexer = Ok out /\
    Forall2 (fun l s => exists train test,
        dataset_subset d (indices_complement l (ds_size d)) = Ok train /\
        dataset_subset d l = Ok test /\
        s = metric (predict_mean (fit train) (ds_features test)) (ds_targets test))
      (mvals indexer) out.
Proof. exact @cv_scores_spec. Qed.
Print Assumptions C10_cv_scores.

Example C10_cv_scores_ex :
  cv_scores ex_fit ex_predict (fun p t => (p, m_mean t)) ex_d
    (build_indexer (fun x => x mod 4) (ds_features ex_d)) =
  Ok [([7; 7; 11], [1; 3; 4]); ([15], [2])].
Proof. reflexivity. Qed.

(* finding: cross validating an empty dataset dereferences the end of an empty
   set instead of returning an empty prediction *)
Theorem C10_cv_empty_refuted : forall (X D K F : Type) (HK : OrdKey K)
  (fit : dataset X D -> F) (predict_mean : F -> list X -> list D) (g : X -> K),
  cv_mean_grouper fit predict_mean empty_dataset g = UB.
Proof. reflexivity. Qed.
Print Assumptions C10_cv_empty_refuted.

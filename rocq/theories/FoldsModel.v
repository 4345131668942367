(* Model of evaluation/folds.hpp, evaluation/cross_validation_utils.hpp and the
   generic parts of evaluation/cross_validation.hpp. *)
From Verif Require Import Base StdMapModel StringKeyModel IndexingModel DatasetModel.

(* RegressionFold, evaluation/folds.hpp:18-33. *)
Record fold (X D : Type) := Fold {
  f_train : dataset X D;
  f_test : dataset X D;
  f_test_indices : list nat
}.
Arguments Fold {X D}.
Arguments f_train {X D}.
Arguments f_test {X D}.
Arguments f_test_indices {X D}.

(* create_fold, evaluation/folds.hpp:35-58. *)
Definition create_fold {X D} (test_indices : list nat) (d : dataset X D)
  : outcome (fold X D) :=
  let train_indices := indices_complement test_indices (ds_size d) in
  train_features <- subset (ds_features d) train_indices ;;
  train_targets <- marginal_subset (ds_targets d) train_indices ;;
  test_features <- subset (ds_features d) test_indices ;;
  test_targets <- marginal_subset (ds_targets d) test_indices ;;
  n_train <- marginal_size train_targets ;;
  n_test <- marginal_size test_targets ;;
  assert_then (length train_features =? n_train)
  (assert_then (length test_features =? n_test)
  (assert_then (n_test + n_train =? ds_size d)
    (train_split <- dataset_make train_features train_targets ;;
     test_split <- dataset_make test_features test_targets ;;
     Ok (Fold train_split test_split test_indices)))).

(* apply / index_apply with a function that may fail, indexing/apply.hpp:72-79
   and indexing/group_by.hpp:252-258, 533-539: entries are visited in key order
   and emplaced. *)
Definition apply_mapM {K V W} `{OrdKey K} (m : smap K V)
  (f : K -> V -> outcome W) : outcome (smap K W) :=
  foldM (fun output kv =>
           w <- f (fst kv) (snd kv) ;; Ok (memplace (fst kv) w output)) m [].

(* folds_from_group_indexer, evaluation/folds.hpp:66-76. *)
Definition folds_from_group_indexer {X D K} `{OrdKey K} (d : dataset X D)
  (groups : smap K (list nat)) : outcome (smap K (fold X D)) :=
  apply_mapM groups (fun _ test_indices => create_fold test_indices d).

(* folds_from_grouper, evaluation/folds.hpp:92-101. *)
Definition folds_from_grouper {X D K} `{OrdKey K} (d : dataset X D)
  (grouper : X -> K) : outcome (smap K (fold X D)) :=
  folds_from_group_indexer d (build_indexer grouper (ds_features d)).

(* group_indexer_from_folds, evaluation/folds.hpp:81-90. *)
Definition group_indexer_from_folds {X D K} `{OrdKey K}
  (folds : smap K (fold X D)) : outcome (smap K (list nat)) :=
  foldM (fun output kv =>
           assert_then (negb (mcontains (fst kv) output))
             (Ok (massign (fst kv) (f_test_indices (snd kv)) output))) folds [].

(* unique_indices, evaluation/folds.hpp:107-115. *)
Definition unique_indices {K} (indexer : smap K (list nat)) : list nat :=
  fold_left (fun indices kv => fold_left (fun s i => sinsert i s) (snd kv) indices)
            indexer [].

(* dataset_size_from_indexer, evaluation/folds.hpp:117-140: min_element and
   max_element of an empty set are not dereferenceable. *)
Definition dataset_size_from_indexer {K} (indexer : smap K (list nat))
  : outcome nat :=
  let unique_inds := unique_indices indexer in
  let count := fold_left (fun c kv => c + length (snd kv)) indexer 0 in
  assert_then (count =? length unique_inds)
    (match unique_inds with
     | [] => UB
     | i0 :: rest =>
         let zero := fold_left Nat.min rest i0 in
         let n := fold_left Nat.max rest i0 in
         assert_then (zero =? 0)
           (assert_then (length unique_inds =? n + 1) (Ok (n + 1)))
     end).

(* concatenate_mean_predictions, evaluation/cross_validation_utils.hpp:59-77.
   "Eigen::VectorXd pred(n)" is uninitialised: entries are [option]s here and a
   final [None] would be an indeterminate value. *)
Definition concatenate_mean_predictions {D K} `{OrdKey K}
  (indexer : smap K (list nat)) (means : smap K (list D))
  : outcome (list (option D)) :=
  assert_then (length indexer =? length means)
    (n <- dataset_size_from_indexer indexer ;;
     st <- foldM (fun '(pred, number_filled) kv =>
             m <- mat (fst kv) means ;;
             assert_then (length m =? length (snd kv))
               (pred' <- set_subset (map Some m) (snd kv) pred ;;
                Ok (pred', number_filled + length (snd kv))))
           indexer (repeat None n, 0) ;;
     assert_then (snd st =? n) (Ok (fst st))).

(* concatenate_marginal_predictions,
   evaluation/cross_validation_utils.hpp:79-100. *)
Definition concatenate_marginal_predictions {D K} `{OrdKey K}
  (indexer : smap K (list nat)) (preds : smap K (marginal D))
  : outcome (marginal (option D)) :=
  assert_then (length indexer =? length preds)
    (n <- dataset_size_from_indexer indexer ;;
     st <- foldM (fun '(mean, variance, number_filled) kv =>
             p <- mat (fst kv) preds ;;
             sz <- marginal_size p ;;
             assert_then (sz =? length (snd kv))
               (mean' <- set_subset (map Some (m_mean p)) (snd kv) mean ;;
                variance' <- set_subset (map Some (m_var p)) (snd kv) variance ;;
                Ok (mean', variance', number_filled + length (snd kv))))
           indexer (repeat None n, repeat None n, 0) ;;
     let '(mean, variance, number_filled) := st in
     assert_then (number_filled =? n) (marginal_make mean variance)).

(* A model is any fit function together with any prediction function; predict
   is lazy in the code, here it is called directly. *)
Section CrossValidation.
Context {X D K F : Type} `{OrdKey K}.
Variable fit : dataset X D -> F.
Variable predict_mean : F -> list X -> list D.
Variable predict_marginal : F -> list X -> marginal D.

(* Prediction<CrossValidation>::predictions and means (generic version),
   evaluation/cross_validation.hpp:18-22, 38-45 and 59-69. *)
Definition cv_means (d : dataset X D) (indexer : smap K (list nat))
  : outcome (smap K (list D)) :=
  apply_mapM indexer (fun _ test_indices =>
    f <- create_fold test_indices d ;;
    Ok (predict_mean (fit (f_train f)) (ds_features (f_test f)))).

(* mean(), evaluation/cross_validation.hpp:82-91. *)
Definition cv_mean (d : dataset X D) (indexer : smap K (list nat))
  : outcome (list (option D)) :=
  means <- cv_means d indexer ;; concatenate_mean_predictions indexer means.

(* marginals() (generic) and marginal(), evaluation/cross_validation.hpp:116-126
   and 141-151. *)
Definition cv_marginals (d : dataset X D) (indexer : smap K (list nat))
  : outcome (smap K (marginal D)) :=
  apply_mapM indexer (fun _ test_indices =>
    f <- create_fold test_indices d ;;
    Ok (predict_marginal (fit (f_train f)) (ds_features (f_test f)))).
Definition cv_marginal (d : dataset X D) (indexer : smap K (list nat))
  : outcome (marginal (option D)) :=
  preds <- cv_marginals d indexer ;; concatenate_marginal_predictions indexer preds.

(* predict(dataset, grouper).mean(), evaluation/cross_validation.hpp:272-278. *)
Definition cv_mean_grouper (d : dataset X D) (grouper : X -> K)
  : outcome (list (option D)) :=
  cv_mean d (build_indexer grouper (ds_features d)).
Definition cv_marginal_grouper (d : dataset X D) (grouper : X -> K)
  : outcome (marginal (option D)) :=
  cv_marginal d (build_indexer grouper (ds_features d)).

(* cross_validated_scores with a metric on means,
   evaluation/cross_validation_utils.hpp:102-117, called from scores(metric,
   dataset, indexer), evaluation/cross_validation.hpp:303-313; combine of a
   Grouped<K, double>, indexing/group_by.hpp:280-290. *)
Definition cv_scores {S : Type} (metric : list D -> marginal D -> S)
  (d : dataset X D) (indexer : smap K (list nat)) : outcome (list S) :=
  folds <- folds_from_group_indexer d indexer ;;
  preds <- cv_means d indexer ;;
  scores <- apply_mapM folds (fun key f =>
    p <- mat key preds ;;
    assert_then (ds_size (f_test f) =? length p)
      (Ok (metric p (ds_targets (f_test f))))) ;;
  Ok (combine_values scores).
End CrossValidation.

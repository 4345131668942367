(* Model of the generic strategy and of the overloads of models/ransac.hpp, composed with the loop of RansacModel. *)
From Verif Require Import Base StdMapModel IndexingModel DatasetModel DoubleModel RansacModel.

(* RansacFunctions, models/ransac.hpp:23-51, with callbacks that may fail *)
Record ransac_functions (K F : Type) := RansacFunctions {
  f_fitter : list K -> outcome F;
  f_inlier : K -> F -> outcome dbl;
  f_consensus : list K -> outcome dbl;
  f_valid : list K -> outcome bool }.
Arguments RansacFunctions {K F}.
Arguments f_fitter {K F}.
Arguments f_inlier {K F}.
Arguments f_consensus {K F}.
Arguments f_valid {K F}.

(* RansacConfig, models/ransac.hpp:133-152 *)
Record ransac_config := Config {
  inlier_threshold : dbl;
  random_sample_size : nat;
  min_consensus_size : nat;
  max_iterations : nat;
  max_failed_candidates : nat }.

Section Strategy.
Context {K : Type} {OK : OrdKey K} {X D M P : Type}.
(* model.fit, fit.predict, and the two metrics of the strategy: any functions *)
Variable model_fit : dataset X D -> M.
Variable model_predict : M -> list X -> P.
Variable inlier_metric : P -> marginal D -> dbl.
Variable consensus_metric : dataset X D -> dbl.
(* dataset.group_by(grouper).indexers(), models/ransac.hpp:351-354: build_indexer for a function, build_loo_indexer and
   build_kfold_indexer for the other groupers *)
Variable get_indexer : dataset X D -> smap K (list nat).

(* get_generic_ransac_functions, models/ransac.hpp:293-297 *)
Definition generic_fitter (d : dataset X D) (indexer : smap K (list nat)) (groups : list K) : outcome M :=
  inds <- indices_from_groups indexer groups ;;
  sub <- dataset_subset d inds ;;
  Ok (model_fit sub).
(* models/ransac.hpp:299-305 *)
Definition generic_inlier_metric (d : dataset X D) (indexer : smap K (list nat)) (group : K) (fit : M) : outcome dbl :=
  inds <- mat group indexer ;;
  features <- subset (ds_features d) inds ;;
  target <- marginal_subset (ds_targets d) inds ;;
  Ok (inlier_metric (model_predict fit features) target).
(* models/ransac.hpp:307-312 *)
Definition generic_consensus_metric (d : dataset X D) (indexer : smap K (list nat)) (groups : list K) : outcome dbl :=
  inds <- indices_from_groups indexer groups ;;
  sub <- dataset_subset d inds ;;
  Ok (consensus_metric sub).
(* models/ransac.hpp:314-315; the constructor with three callbacks accepts every candidate set, models/ransac.hpp:39-45 *)
Definition get_generic_ransac_functions (d : dataset X D) (indexer : smap K (list nat)) : ransac_functions K M :=
  RansacFunctions (generic_fitter d indexer) (generic_inlier_metric d indexer) (generic_consensus_metric d indexer)
    (fun _ => Ok true).
(* GenericRansacStrategy::operator(), models/ransac.hpp:341-349 *)
Definition strategy_functions (d : dataset X D) : ransac_functions K M :=
  get_generic_ransac_functions d (get_indexer d).
End Strategy.

Section Overloads.
Context {K : Type} {OK : OrdKey K} {F G : Type}.
Variables (fitter : list K -> F) (inlier : K -> F -> dbl) (consensus_metric : list K -> dbl) (valid : list K -> bool).
Variable uniform : Z -> Z -> G -> Z * G.
(* ransac with an indexer, models/ransac.hpp:259-268: the number of iterations is also passed as the number of
   candidates that may fail *)
Definition ransac_indexer (draw_fuel : nat) (indexer : smap K (list nat)) (threshold : dbl) (n minc maxi : nat) (g : G)
  : option (outcome (ransac_output K)) :=
  ransac fitter inlier consensus_metric valid uniform draw_fuel (mkeys indexer) threshold n minc maxi maxi g.
(* ransac with a configuration, models/ransac.hpp:270-276 *)
Definition ransac_with_config (draw_fuel : nat) (indexer : smap K (list nat)) (c : ransac_config) (g : G)
  : option (outcome (ransac_output K)) :=
  ransac fitter inlier consensus_metric valid uniform draw_fuel (mkeys indexer) (inlier_threshold c) (random_sample_size c)
    (min_consensus_size c) (max_iterations c) (max_failed_candidates c) g.
End Overloads.

(* the constructors of Ransac without a number of failed candidates, models/ransac.hpp:436-441, reached from
   ModelBase::ransac, models/ransac.hpp:507-516 *)
Definition ransac_model_config (threshold : dbl) (n minc maxi : nat) : ransac_config := Config threshold n minc maxi 0.

(* Fit<RansacFit>, models/ransac.hpp:383-422 *)
Record ransac_model_fit (K M : Type) := RansacFit { rf_model : option M; rf_output : ransac_output K }.
Arguments RansacFit {K M}.
Arguments rf_model {K M}.
Arguments rf_output {K M}.
(* has_fit_model and get_fit_model_or_assert, models/ransac.hpp:411-418 *)
Definition has_fit_model {K M} (f : ransac_model_fit K M) : bool := match rf_model f with Some _ => true | None => false end.
Definition get_fit_model_or_assert {K M} (f : ransac_model_fit K M) : outcome M := of_option Abort (rf_model f).

Section Model.
Context {K : Type} {OK : OrdKey K} {X D M G : Type}.
Variable model_fit : dataset X D -> M.
Variables (fitter : list K -> M) (inlier : K -> M -> dbl) (consensus_metric : list K -> dbl) (valid : list K -> bool).
Variable uniform : Z -> Z -> G -> Z * G.
(* Ransac::_fit_impl, models/ransac.hpp:463-488, with the callbacks of the strategy and its indexer *)
Definition ransac_model (draw_fuel : nat) (indexer : smap K (list nat)) (c : ransac_config) (features : list X)
    (targets : marginal D) (g : G) : option (outcome (ransac_model_fit K M)) :=
  match dataset_make features targets with
  | Ok d =>
      match ransac_with_config fitter inlier consensus_metric valid uniform draw_fuel indexer c g with
      | Some (Ok out) => Some (m <- ransac_fit model_fit indexer d out ;; Ok (RansacFit m out))
      | Some Abort => Some Abort
      | Some Throw => Some Throw
      | Some UB => Some UB
      | None => None
      end
  | Abort => Some Abort
  | Throw => Some Throw
  | UB => Some UB
  end.
End Model.
(* Ransac::_predict_impl, models/ransac.hpp:490-500 *)
Definition ransac_model_predict {K X M P} (model_predict : M -> list X -> P) (features : list X)
    (f : ransac_model_fit K M) : outcome P :=
  assert_then (has_fit_model f) (m <- get_fit_model_or_assert f ;; Ok (model_predict m features)).

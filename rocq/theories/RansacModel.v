(* Model of models/ransac.hpp. *)
From Verif Require Import Base StdMapModel IndexingModel DatasetModel MapUtilsModel RandomModel DoubleModel.

Inductive ransac_return_code :=
  | RANSAC_INVALID | RANSAC_SUCCESS | RANSAC_NO_CONSENSUS | RANSAC_INVALID_ARGUMENTS
  | RANSAC_EXCEEDED_MAX_FAILED_CANDIDATES | RANSAC_FAILURE.

Definition rc_eqb (a b : ransac_return_code) : bool :=
  match a, b with
  | RANSAC_INVALID, RANSAC_INVALID | RANSAC_SUCCESS, RANSAC_SUCCESS
  | RANSAC_NO_CONSENSUS, RANSAC_NO_CONSENSUS | RANSAC_INVALID_ARGUMENTS, RANSAC_INVALID_ARGUMENTS
  | RANSAC_EXCEEDED_MAX_FAILED_CANDIDATES, RANSAC_EXCEEDED_MAX_FAILED_CANDIDATES
  | RANSAC_FAILURE, RANSAC_FAILURE => true
  | _, _ => false
  end.

Section Ransac.
Context {K : Type} `{OrdKey K}.

(* RansacIteration, models/ransac.hpp:92-98 *)
Record iteration := It {
  it_candidates : list K;
  it_inliers : smap K dbl;
  it_outliers : smap K dbl;
  it_metric : dbl }.
Definition empty_iteration : iteration := It [] [] [] NaN.

(* RansacIteration::consensus, models/ransac.hpp:100-106 *)
Definition consensus (it : iteration) : list K := it_candidates it ++ mkeys (it_inliers it).

(* std::vector and std::map operator== *)
Fixpoint list_eqb {A} (eqb : A -> A -> bool) (x y : list A) : bool :=
  match x, y with
  | [], [] => true
  | a :: x', b :: y' => eqb a b && list_eqb eqb x' y'
  | _, _ => false
  end.
Definition entry_eqb (a b : K * dbl) : bool := keqb (fst a) (fst b) && deqb (snd a) (snd b).

(* RansacIteration::operator==, models/ransac.hpp:108-115 *)
Definition iteration_eqb (a b : iteration) : bool :=
  let is_same_consensus_metric :=
    (disnan (it_metric a) && disnan (it_metric b)) || deqb (it_metric a) (it_metric b) in
  list_eqb keqb (it_candidates a) (it_candidates b) &&
  list_eqb entry_eqb (it_inliers a) (it_inliers b) &&
  list_eqb entry_eqb (it_outliers a) (it_outliers b) && is_same_consensus_metric.

(* RansacOutput, models/ransac.hpp:118-131: operator== compares best with
   itself. *)
Record ransac_output := RO {
  ro_code : ransac_return_code;
  ro_best : iteration;
  ro_iterations : list iteration }.
Definition output_eqb (a b : ransac_output) : bool :=
  rc_eqb (ro_code a) (ro_code b) && iteration_eqb (ro_best a) (ro_best a) &&
  list_eqb iteration_eqb (ro_iterations a) (ro_iterations b).

Section Run.
Context {F G : Type}.
(* RansacFunctions, models/ransac.hpp:23-51: arbitrary callbacks. Callbacks that
   throw are not modelled. *)
Variable fitter : list K -> F.
Variable inlier_metric : K -> F -> dbl.
Variable consensus_metric : list K -> dbl.
Variable is_valid_candidate : list K -> bool.
Variable uniform : Z -> Z -> G -> Z * G.

(* the loop over the groups, models/ransac.hpp:221-232 *)
Definition classify_step (candidates : list K) (fit : F) (threshold : dbl)
    (acc : smap K dbl * smap K dbl) (k : K) : smap K dbl * smap K dbl :=
  if vector_contains keqb candidates k then acc
  else let metric_value := inlier_metric k fit in
       if dleb metric_value threshold then (memplace k metric_value (fst acc), snd acc)
       else (fst acc, memplace k metric_value (snd acc)).
Definition classify (groups candidates : list K) (fit : F) (threshold : dbl)
  : smap K dbl * smap K dbl :=
  fold_left (classify_step candidates fit threshold) groups ([], []).

(* The while loop, models/ransac.hpp:191-257. [fuel] bounds the trips round the
   loop and [draw_fuel] the draws of each sample; None: not finished. *)
Fixpoint ransac_loop (fuel draw_fuel : nat) (groups : list K) (inlier_threshold : dbl)
    (random_sample_size min_consensus_size max_iterations max_failed_candidates : nat)
    (i failed_candidates : nat) (best : iteration) (iterations : list iteration) (g : G)
  : option (outcome ransac_output) :=
  if i <? max_iterations then
    match fuel with
    | 0 => None
    | S fuel' =>
        match random_without_replacement uniform draw_fuel groups random_sample_size g with
        | None => None
        | Some (Ok (candidates, g')) =>
            if negb (is_valid_candidate candidates) then
              let iterations' := iterations ++ [It candidates [] [] NaN] in
              if max_failed_candidates <=? S failed_candidates then
                Some (Ok (RO RANSAC_EXCEEDED_MAX_FAILED_CANDIDATES best iterations'))
              else
                ransac_loop fuel' draw_fuel groups inlier_threshold random_sample_size
                  min_consensus_size max_iterations max_failed_candidates
                  i (S failed_candidates) best iterations' g'
            else
              let fit := fitter candidates in
              let (inliers, outliers) := classify groups candidates fit inlier_threshold in
              let it := It candidates inliers outliers NaN in
              let it' := if min_consensus_size <=? length (consensus it)
                         then It candidates inliers outliers (consensus_metric (consensus it))
                         else it in
              let best' := if min_consensus_size <=? length (consensus it)
                           then if disnan (it_metric best) || dltb (it_metric it') (it_metric best)
                                then it' else best
                           else best in
              ransac_loop fuel' draw_fuel groups inlier_threshold random_sample_size
                min_consensus_size max_iterations max_failed_candidates
                (S i) failed_candidates best' (iterations ++ [it']) g'
        | Some Abort => Some Abort
        | Some Throw => Some Throw
        | Some UB => Some UB
        end
    end
  else Some (Ok (RO (match consensus best with
                     | [] => RANSAC_NO_CONSENSUS
                     | _ => RANSAC_SUCCESS
                     end) best iterations)).

(* ransac, models/ransac.hpp:172-258. C21_terminates shows that the loop bound is
   never reached. *)
Definition ransac (draw_fuel : nat) (groups : list K) (inlier_threshold : dbl)
    (random_sample_size min_consensus_size max_iterations max_failed_candidates : nat) (g : G)
  : option (outcome ransac_output) :=
  if (length groups <=? min_consensus_size) || (min_consensus_size <? random_sample_size) ||
     (length groups <=? random_sample_size) || (random_sample_size =? 0) || (max_iterations =? 0)
  then Some (Ok (RO RANSAC_INVALID_ARGUMENTS empty_iteration []))
  else ransac_loop (max_iterations + max_failed_candidates) draw_fuel groups inlier_threshold
         random_sample_size min_consensus_size max_iterations max_failed_candidates
         0 0 empty_iteration [] g.
End Run.

(* Ransac::_fit_impl, models/ransac.hpp:463-488: the sub model is fitted to the
   consensus set, or the fit is empty. *)
Definition ransac_fit {X D M} (sub_model_fit : dataset X D -> M) (indexer : smap K (list nat))
    (d : dataset X D) (out : ransac_output) : outcome (option M) :=
  match ro_code out with
  | RANSAC_SUCCESS =>
      good_inds <- indices_from_groups indexer (consensus (ro_best out)) ;;
      consensus_set <- dataset_subset d good_inds ;;
      Ok (Some (sub_model_fit consensus_set))
  | _ => Ok None
  end.
End Ransac.
Arguments iteration : clear implicits.
Arguments ransac_output : clear implicits.

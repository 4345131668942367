(* Model of models/ransac_gp.hpp: the functions RANSAC calls for a Gaussian process, in exact arithmetic. Metrics of
   distributions are arbitrary functions to doubles, DoubleModel. The inlier metric is one of joint predictions; those
   of marginal and mean predictions see a part of the same (C42_types). *)
From Verif Require Import Base StdMapModel IndexingModel DoubleModel.
From mathcomp Require Import all_ssreflect all_algebra.
From Verif Require Import GpModel.
Set Implicit Arguments.
Unset Strict Implicit.
Unset Printing Implicit Defensive.
Import GRing.Theory.
Local Open Scope ring_scope.

Section Model.
Variable F : fieldType.
Context {K : Type} {OK : OrdKey K}.
Variable n : nat.

(* the indices as positions of a distribution of size n; an index outside is an assertion *)
Definition positions (indices : list nat) : outcome (seq 'I_n) :=
  mapM (fun i => of_option Abort (insub i : option 'I_n)) indices.
Definition at_ (s : seq 'I_n) : 'I_(size s) -> 'I_n := tnth (in_tuple s).
Definition group_positions (indexer : smap K (list nat)) (groups : list K) : outcome (seq 'I_n) :=
  bind (indices_from_groups indexer groups) positions.

(* RansacFunctions<ConditionalFit, GroupKey>, models/ransac.hpp:23-51. A ConditionalFit is given by its indices, which
   determine the rest of it *)
Record gp_functions := GpFunctions {
  g_fitter : list K -> outcome (seq 'I_n);
  g_inlier : K -> seq 'I_n -> outcome dbl;
  g_consensus : list K -> outcome dbl;
  g_valid : list K -> outcome bool }.

Section Functions.
Variable prior : joint F n.
Variable truth : marginal F n.
Variable indexer : smap K (list nat).
(* models/ransac_gp.hpp:19-28 *)
Definition gp_ransac_fitter (groups : list K) : outcome (seq 'I_n) := group_positions indexer groups.
(* models/ransac_gp.hpp:30-42 and 57-68 *)
Definition gp_ransac_metric T (metric : forall k, joint F k -> marginal F k -> T) (groups : list K) : outcome T :=
  bind (group_positions indexer groups) (fun s =>
  Ok (metric _ (joint_subset (at_ (s:=s)) prior) (marginal_subset (at_ (s:=s)) truth))).
(* models/ransac_gp.hpp:44-55 *)
Definition gp_ransac_inlier_metric (metric : forall k, joint F k -> marginal F k -> dbl) (group : K) (fit : seq 'I_n)
  : outcome dbl :=
  bind (mat group indexer) (fun indices => bind (positions indices) (fun s =>
  Ok (metric _ (conditional_joint prior truth (at_ (s:=fit)) (at_ (s:=s))) (marginal_subset (at_ (s:=s)) truth)))).
End Functions.

(* models/ransac_gp.hpp:119-147 *)
Definition get_gp_ransac_functions m (prior : joint F n) (truth : marginal F m) (indexer : smap K (list nat))
    (inlier_metric : forall k, joint F k -> marginal F k -> dbl)
    (consensus_metric : forall k, joint F k -> marginal F k -> dbl)
    (is_valid_candidate_metric : forall k, joint F k -> marginal F k -> bool) : outcome gp_functions :=
  assert_then (n == m)
  (let truth : marginal F n := Marginal (conform_mx 0 (m_mean truth)) (conform_mx 0 (m_var truth)) in
   Ok (GpFunctions (gp_ransac_fitter indexer) (gp_ransac_inlier_metric prior truth indexer inlier_metric)
     (gp_ransac_metric prior truth indexer consensus_metric)
     (gp_ransac_metric prior truth indexer is_valid_candidate_metric))).
End Model.

Section Metrics.
Variable F : fieldType.
(* FeatureCountConsensusMetric, models/ransac_gp.hpp:77-83 *)
Definition feature_count k (prior : joint F k) (truth : marginal F k) : dbl := Some (Z.opp (Z.of_nat k)).
(* AlwaysAcceptCandidateMetric, models/ransac_gp.hpp:111-116 *)
Definition always_accept k (pred : joint F k) (truth : marginal F k) : bool := true.
(* ChiSquaredIsValidCandidateMetric, models/ransac_gp.hpp:92-109 *)
Definition chi_squared_is_valid (chi_squared_cdf : forall k, joint F k -> marginal F k -> dbl) (threshold : dbl)
    k (pred : joint F k) (truth : marginal F k) : bool :=
  let probability_prior_exceeded := chi_squared_cdf k pred truth in
  dleb probability_prior_exceeded threshold.
End Metrics.

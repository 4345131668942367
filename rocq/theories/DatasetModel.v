(* Model of core/dataset.hpp and of the parts of core/distribution.hpp and
   core/concatenate.hpp it uses.  [D] stands for double: the functions below
   only move values around, so they are modelled for any value type. *)
From Verif Require Import Base StdMapModel StringKeyModel IndexingModel.

(* MarginalDistribution, core/distribution.hpp:65-153: mean and the diagonal of
   the covariance.  The metadata member of DistributionBase is never read by
   the modelled functions and left out. *)
Record marginal (D : Type) := Marg { m_mean : list D; m_var : list D }.
Arguments Marg {D}.
Arguments m_mean {D}.
Arguments m_var {D}.

(* Constructor with assert_valid, core/distribution.hpp:77-81 and 90-94. *)
Definition marginal_make {D} (mean var : list D) : outcome (marginal D) :=
  assert_then (length mean =? length var) (Ok (Marg mean var)).

(* DistributionBase::size, core/distribution.hpp:41-46: asserts validity. *)
Definition marginal_size {D} (m : marginal D) : outcome nat :=
  assert_then (length (m_mean m) =? length (m_var m)) (Ok (length (m_mean m))).

(* MarginalDistribution::subset, core/distribution.hpp:137-142. *)
Definition marginal_subset {D} (m : marginal D) (indices : list nat)
  : outcome (marginal D) :=
  mu <- subset (m_mean m) indices ;;
  va <- subset (m_var m) indices ;;
  marginal_make mu va.

(* MarginalDistribution::set_subset, core/distribution.hpp:144-150: the
   diagonal() of a DiagonalMatrix is a vector, so the vector overload runs. *)
Definition marginal_set_subset {D} (from : marginal D) (indices : list nat)
  (to : marginal D) : outcome (marginal D) :=
  mu <- set_subset (m_mean from) indices (m_mean to) ;;
  va <- set_subset (m_var from) indices (m_var to) ;;
  Ok (Marg mu va).

(* concatenate_marginals(x, y), core/distribution.hpp:256-262. *)
Definition concatenate_marginals {D} (x y : marginal D) : outcome (marginal D) :=
  marginal_make (m_mean x ++ m_mean y) (m_var x ++ m_var y).

(* concatenate_marginals(vector), core/distribution.hpp:264-285.  The block
   assignment "variance.middleRows(i, n) = diagonal" needs a diagonal of length
   n: Eigen asserts it. *)
Definition concatenate_marginal_list {D} (ds : list (marginal D))
  : outcome (marginal D) :=
  match ds with
  | [] => Ok (Marg [] [])
  | _ =>
      assert_then (forallb (fun d => length (m_mean d) =? length (m_var d)) ds)
        (marginal_make (concat (map m_mean ds)) (concat (map m_var ds)))
  end.

(* RegressionDataset, core/dataset.hpp:25-60. *)
Record dataset (X D : Type) := DS {
  ds_features : list X;
  ds_targets : marginal D;
  ds_metadata : smap string string
}.
Arguments DS {X D}.
Arguments ds_features {X D}.
Arguments ds_targets {X D}.
Arguments ds_metadata {X D}.

(* RegressionDataset(), core/dataset.hpp:32. *)
Definition empty_dataset {X D} : dataset X D := DS [] (Marg [] []) [].

(* RegressionDataset(features, targets), core/dataset.hpp:34-41; metadata is
   default constructed. *)
Definition dataset_make {X D} (features : list X) (targets : marginal D)
  : outcome (dataset X D) :=
  n <- marginal_size targets ;;
  assert_then (length features =? n) (Ok (DS features targets [])).

(* size(), core/dataset.hpp:52. *)
Definition ds_size {X D} (d : dataset X D) : nat := length (ds_features d).

(* subset(dataset, indices), core/dataset.hpp:71-84. *)
Definition dataset_subset {X D} (d : dataset X D) (indices : list nat)
  : outcome (dataset X D) :=
  fs <- subset (ds_features d) indices ;;
  ts <- marginal_subset (ds_targets d) indices ;;
  dataset_make fs ts.

(* filter(dataset, to_keep), indexing/filter.hpp:94-109. *)
Definition dataset_filter {X D} (d : dataset X D) (to_keep : X -> bool)
  : outcome (dataset X D) :=
  dataset_subset d (inds_to_keep (ds_features d) to_keep 0).

(* appears_later of deduplicate, core/dataset.hpp:89-96; [eqb] is operator== of
   the feature type.  It is only called for indices in range. *)
Definition appears_later {X} (eqb : X -> X -> bool) (features : list X)
  (index : nat) : bool :=
  match nth_error features index with
  | Some x => existsb (eqb x) (skipn (S index) features)
  | None => false
  end.

(* deduplicate, core/dataset.hpp:86-106. *)
Definition deduplicate {X D} (eqb : X -> X -> bool) (d : dataset X D)
  : outcome (dataset X D) :=
  dataset_subset d
    (filter (fun i => negb (appears_later eqb (ds_features d) i))
            (seq 0 (ds_size d))).

(* The two index vectors filled by the loops of align_datasets,
   core/dataset.hpp:111-121, as a list of pairs: the outer loop runs over x, the
   inner one over y, and "continue" is its last statement. *)
Fixpoint align_inner {X} (eqb : X -> X -> bool) (x : X) (i : nat)
         (ys : list X) (j : nat) : list (nat * nat) :=
  match ys with
  | [] => []
  | y :: ys' => if eqb x y then (i, j) :: align_inner eqb x i ys' (S j)
                else align_inner eqb x i ys' (S j)
  end.
Fixpoint align_outer {X} (eqb : X -> X -> bool) (xs : list X) (i : nat)
         (ys : list X) : list (nat * nat) :=
  match xs with
  | [] => []
  | x :: xs' => align_inner eqb x i ys 0 ++ align_outer eqb xs' (S i) ys
  end.

(* align_datasets, core/dataset.hpp:108-137. *)
Definition align_datasets {X D} (eqb : X -> X -> bool) (x y : dataset X D)
  : outcome (dataset X D * dataset X D) :=
  let pairs := align_outer eqb (ds_features x) 0 (ds_features y) in
  match pairs with
  | [] => Ok (empty_dataset, empty_dataset)
  | _ => x' <- dataset_subset x (map fst pairs) ;;
         y' <- dataset_subset y (map snd pairs) ;;
         Ok (x', y')
  end.

(* concatenate_datasets(x, y) with equal feature types,
   core/dataset.hpp:139-145; concatenate of vectors, core/concatenate.hpp:68-75. *)
Definition concatenate_datasets {X D} (x y : dataset X D)
  : outcome (dataset X D) :=
  ts <- concatenate_marginals (ds_targets x) (ds_targets y) ;;
  dataset_make (ds_features x ++ ds_features y) ts.

(* concatenate_datasets(vector), core/dataset.hpp:147-160. *)
Definition concatenate_dataset_list {X D} (ds : list (dataset X D))
  : outcome (dataset X D) :=
  ts <- concatenate_marginal_list (map ds_targets ds) ;;
  dataset_make (concat (map ds_features ds)) ts.

(* concatenate_datasets(x, y) with different non variant feature types,
   core/dataset.hpp:162-169 and core/concatenate.hpp:97-106: the result type is
   variant<X, Y>, modelled by a sum. *)
Definition concatenate_datasets_variant {X Y D} (x : dataset X D)
  (y : dataset Y D) : outcome (dataset (X + Y) D) :=
  ts <- concatenate_marginals (ds_targets x) (ds_targets y) ;;
  dataset_make (map inl (ds_features x) ++ map inr (ds_features y)) ts.

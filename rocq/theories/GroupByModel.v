(* Model of the parts of indexing/group_by.hpp that IndexingModel leaves out: groups of data sets, grouping two things
   together, the first group, and the operations on maps of numbers and truth values. *)
From Coq Require Import Reals.
From Verif Require Import Base StdMapModel IndexingModel DatasetModel.

Section GroupBy.
Context {K : Type} {OK : OrdKey K}.
(* the loop of groups and of both versions of with, indexing/group_by.hpp:465-468, 479-484 and 493-498 *)
Definition group_loop {V} (indexers : smap K (list nat)) (value : K -> list nat -> outcome V) : outcome (smap K V) :=
  foldM (fun output kv => v <- value (fst kv) (snd kv) ;; Ok (memplace (fst kv) v output)) indexers [].

(* GroupByBase::groups for a data set, indexing/group_by.hpp:463-470 *)
Definition dataset_groups {X D} (parent : dataset X D) (indexers : smap K (list nat)) : outcome (smap K (dataset X D)) :=
  group_loop indexers (fun _ inds => dataset_subset parent inds).
(* combine for data sets, indexing/group_by.hpp:266-271 *)
Definition combine_datasets {X D} (groups : smap K (dataset X D)) : outcome (dataset X D) :=
  concatenate_dataset_list (mvals groups).

(* GroupByBase::with for something that can be subset, indexing/group_by.hpp:472-486; both are vectors *)
Definition group_by_with {A B} (parent : list A) (indexers : smap K (list nat)) (other : list B)
  : outcome (smap K (list A * list B)) :=
  assert_then (length parent =? length other)
    (group_loop indexers (fun _ inds => a <- subset parent inds ;; b <- subset other inds ;; Ok (a, b))).
(* GroupByBase::with for a map, indexing/group_by.hpp:488-500 *)
Definition group_by_with_grouped {A B} (parent : list A) (indexers : smap K (list nat)) (other : smap K B)
  : outcome (smap K (list A * B)) :=
  assert_then (length other =? length indexers)
    (group_loop indexers (fun k inds => a <- subset parent inds ;; b <- mat k other ;; Ok (a, b))).
(* GroupByBase::first_group, indexing/group_by.hpp:519-523; *begin() of an empty map, line 109, is undefined *)
Definition first_group {A} (parent : list A) (indexers : smap K (list nat)) : outcome (K * list A) :=
  match indexers with
  | [] => UB
  | kv :: _ => v <- subset parent (snd kv) ;; Ok (fst kv, v)
  end.
(* GroupByBase::filter, indexing/group_by.hpp:555-557 *)
Definition filter_groups {A} (parent : list A) (indexers : smap K (list nat)) (f : K -> list A -> bool)
  : outcome (smap K (list A)) :=
  g <- groups_of parent indexers ;; Ok (filter_map g f).
(* Grouped<K, bool>::all and any, indexing/group_by.hpp:192-194; all and any of a vector, utils/vector_utils.hpp:35-68 *)
Definition grouped_all (m : smap K bool) : bool := forallb (fun b => b) (mvals m).
Definition grouped_any (m : smap K bool) : bool := existsb (fun b => b) (mvals m).
(* Grouped<K, size_t>::sum and Grouped<K, double>::sum, indexing/group_by.hpp:209-215 *)
Definition grouped_sum_nat (m : smap K nat) : nat := fold_left (fun output kv => output + snd kv) m 0.
Definition grouped_sum (m : smap K R) : R := fold_left (fun output kv => output + snd kv)%R m 0%R.
(* Grouped<K, double>::mean, indexing/group_by.hpp:217-223; exact arithmetic *)
Definition grouped_mean (m : smap K R) : R := fold_left (fun output kv => output + snd kv / INR (length m))%R m 0%R.
End GroupBy.

(* C89: grouping data sets, grouping two things together, and collapsing groups. *)
From Coq Require Import Reals Lra.
From Verif Require Import Base BaseProofs StdMapModel StdMapProofs IndexingModel IndexingSpec IndexingProofs DatasetModel
  DatasetSpec DatasetProofs GroupByModel GroupByProofs.
From Coq Require Import Permutation.

Section Props.
Context {K : Type} {OK : OrdKey K}.

(* The groups of a data set are the observations with the same key, in order, and combining them gives the
   observations back in the order of the groups. *)
Theorem C89_dataset_groups : forall {X D} (f : X -> K) (d : dataset X D), wf_dataset d ->
  exists g, dataset_groups d (build_indexer f (ds_features d)) = Ok g /\ wf_map g /\
    (forall k sub, mfind k g = Some sub -> wf_dataset sub /\ rows sub = filter (fun r => keqb (f (fst r)) k) (rows d)) /\
    (forall k, In k (mkeys g) <-> exists x, In x (ds_features d) /\ f x = k) /\
    exists all, combine_datasets g = Ok all /\ wf_dataset all /\ Permutation (rows all) (rows d).
Proof. exact (@dataset_groups_spec K OK). Qed.

(* Grouping a vector with another of the same size pairs, in every group, the elements at the same positions. *)
Theorem C89_with : forall {A B} (f : A -> K) (xs : list A) (ys : list B), length xs = length ys ->
  exists g, group_by_with xs (build_indexer f xs) ys = Ok g /\ wf_map g /\
    (forall k, In k (mkeys g) <-> exists x, In x xs /\ f x = k) /\
    forall k a b, mfind k g = Some (a, b) ->
      length a = length b /\ combine a b = filter (fun p => keqb (f (fst p)) k) (combine xs ys).
Proof. exact (@group_by_with_spec K OK). Qed.
Theorem C89_with_sizes : forall {A B} (f : A -> K) (xs : list A) (ys : list B), length xs <> length ys ->
  group_by_with xs (build_indexer f xs) ys = Abort.
Proof. intros A B f xs ys H. unfold group_by_with, assert_then. apply Nat.eqb_neq in H. rewrite H. reflexivity. Qed.

(* Grouping a vector with a map adds to each group the entry of its key. It needs exactly the same keys: another number
   of keys is an assertion, another key throws. *)
Theorem C89_with_grouped : forall {A B} (f : A -> K) (xs : list A) (m : smap K B), wf_map m ->
  (mkeys m = mkeys (build_indexer f xs) ->
   exists g, group_by_with_grouped xs (build_indexer f xs) m = Ok g /\ mkeys g = mkeys m /\
     forall k v, mfind k m = Some v -> mfind k g = Some (filter (fun x => keqb (f x) k) xs, v)) /\
  (length m <> length (build_indexer f xs) -> group_by_with_grouped xs (build_indexer f xs) m = Abort) /\
  (length m = length (build_indexer f xs) -> mkeys m <> mkeys (build_indexer f xs) ->
   group_by_with_grouped xs (build_indexer f xs) m = Throw).
Proof. exact (@group_by_with_grouped_spec K OK). Qed.

(* The first group is that of the smallest key. *)
Theorem C89_first_group : forall {A} (f : A -> K) (xs : list A), xs <> [] ->
  exists k, first_group xs (build_indexer f xs) = Ok (k, filter (fun x => keqb (f x) k) xs) /\
    (exists x, In x xs /\ f x = k) /\ forall x, In x xs -> f x = k \/ klt k (f x).
Proof. exact (@first_group_spec K OK). Qed.
(* finding: the first group of an empty vector is undefined behaviour, not an assertion *)
Theorem C89_first_group_empty_refuted : forall {A} (f : A -> K), first_group (A := A) [] (build_indexer f []) = UB.
Proof. reflexivity. Qed.

(* Filtering groups keeps those that pass, whole. *)
Theorem C89_filter : forall {A} (f : A -> K) (xs : list A) (p : K -> list A -> bool),
  exists g, filter_groups xs (build_indexer f xs) p = Ok g /\ wf_map g /\
    forall k v, mfind k g = Some v <->
      (exists x, In x xs /\ f x = k) /\ v = filter (fun x => keqb (f x) k) xs /\ p k v = true.
Proof. exact (@filter_groups_spec K OK). Qed.

(* The counts of the groups add up to the number of elements. *)
Theorem C89_counts : forall {A} (f : A -> K) (xs : list A), grouped_sum_nat (counts (build_indexer f xs)) = length xs.
Proof. exact (@counts_sum K OK). Qed.

(* The mean is the sum divided by the number of groups, and lies between the smallest and the largest value. *)
Theorem C89_mean : forall (m : smap K R), m <> [] ->
  grouped_sum m = fold_right Rplus 0%R (mvals m) /\
  (grouped_mean m * INR (length m) = grouped_sum m)%R /\
  forall lo hi, Forall (fun v => lo <= v <= hi)%R (mvals m) -> (lo <= grouped_mean m <= hi)%R.
Proof. exact grouped_mean_spec. Qed.
Theorem C89_mean_empty : grouped_sum (K := K) [] = 0%R /\ grouped_mean (K := K) [] = 0%R.
Proof. split; reflexivity. Qed.
(* all and any *)
Theorem C89_all_any : forall (m : smap K bool), wf_map m ->
  (grouped_all m = true <-> forall k b, mfind k m = Some b -> b = true) /\
  (grouped_any m = true <-> exists k, mfind k m = Some true).
Proof. exact grouped_all_any. Qed.
End Props.
Print Assumptions C89_dataset_groups.
Print Assumptions C89_with.
Print Assumptions C89_with_sizes.
Print Assumptions C89_with_grouped.
Print Assumptions C89_first_group.
Print Assumptions C89_first_group_empty_refuted.
Print Assumptions C89_filter.
Print Assumptions C89_counts.
Print Assumptions C89_mean.
Print Assumptions C89_mean_empty.
Print Assumptions C89_all_any.

Example C89_meets :
  (exists g, group_by_with [5; 3; 4; 8] (build_indexer (fun x => x mod 2) [5; 3; 4; 8]) [true; false; false; true] = Ok g /\
     g = [(0, ([4; 8], [false; true])); (1, ([5; 3], [true; false]))]) /\
  group_by_with_grouped [5; 3; 4] (build_indexer (fun x => x mod 2) [5; 3; 4]) [(0, true); (1, false)] =
    Ok [(0, ([4], true)); (1, ([5; 3], false))] /\
  group_by_with_grouped [5; 3; 4] (build_indexer (fun x => x mod 2) [5; 3; 4]) [(0, true); (2, false)] = Throw /\
  first_group [5; 3; 4] (build_indexer (fun x => x mod 2) [5; 3; 4]) = Ok (0, [4]) /\
  wf_dataset (DS [5; 3; 4] (Marg [1; 2; 3] [0; 0; 0]) []) /\
  grouped_sum_nat (counts (build_indexer (fun x => x mod 2) [5; 3; 4])) = 3.
Proof. repeat split; try reflexivity. eexists. split; reflexivity. Qed.

(* Properties C01 - C08 of properties.jsonl. *)
From Verif Require Import Base StdMapModel IndexingModel IndexingSpec IndexingProofs.
From Coq Require Import Permutation.

(* ------------------------------ C01 ------------------------------ *)

(* subset returns exactly the requested elements, in order; it returns iff all
   indices are in range. *)
Theorem C01_subset : forall (A : Type) (v : list A) (inds : list nat) (out : list A),
  subset v inds = Ok out <->
  length out = length inds /\
  (forall i k, nth_error inds i = Some k ->
     k < length v /\ nth_error out i = nth_error v k).
Proof. exact @subset_ok_iff. Qed.
Print Assumptions C01_subset.

Example C01_subset_ex : subset [10; 20; 30] [2; 0; 2] = Ok [30; 10; 30].
Proof. reflexivity. Qed.

(* any out of range index stops the call at an assertion *)
Theorem C01_subset_out_of_range : forall (A : Type) (v : list A) (inds : list nat),
  (exists k, In k inds /\ length v <= k) -> subset v inds = Abort.
Proof. exact @subset_abort. Qed.
Print Assumptions C01_subset_out_of_range.

Example C01_subset_out_of_range_ex : exists k, In k [0; 3] /\ length [10; 20; 30] <= k.
Proof. exists 3. cbn. auto. Qed.

Theorem C01_subset_in_range : forall (A : Type) (v : list A) (inds : list nat),
  Forall (fun k => k < length v) inds -> exists out, subset v inds = Ok out.
Proof. exact @subset_total. Qed.
Print Assumptions C01_subset_in_range.

Example C01_subset_in_range_ex : Forall (fun k => k < length [10; 20; 30]) [2; 0; 2].
Proof. repeat constructor. Qed.

(* signed index types: negative indices are rejected too *)
Theorem C01_subset_signed : forall (A : Type) (v : list A) (inds : list Z) (out : list A),
  subset_signed v inds = Ok out <->
  length out = length inds /\
  (forall i k, nth_error inds i = Some k ->
     (0 <= k < Z.of_nat (length v))%Z /\ nth_error out i = nth_error v (Z.to_nat k)).
Proof. exact @subset_signed_ok_iff. Qed.
Print Assumptions C01_subset_signed.

Theorem C01_subset_signed_out_of_range : forall (A : Type) (v : list A) (inds : list Z),
  (exists k, In k inds /\ ((k < 0)%Z \/ (Z.of_nat (length v) <= k)%Z)) ->
  subset_signed v inds = Abort.
Proof. exact @subset_signed_abort. Qed.
Print Assumptions C01_subset_signed_out_of_range.

Example C01_subset_signed_ex :
  subset_signed [10; 20; 30] [2; 0]%Z = Ok [30; 10] /\
  subset_signed [10; 20; 30] [2; -1]%Z = Abort.
Proof. split; reflexivity. Qed.

Theorem C01_subset_cols : forall (A : Type) (M : matrix A) (cols : list nat) out,
  wf_mat M -> subset_cols M cols = Ok out ->
  mat_cols out = length cols /\ length (mat_rows out) = length (mat_rows M) /\ wf_mat out /\
  (forall i q j, i < length (mat_rows M) -> nth_error cols q = Some j ->
     j < mat_cols M /\ mat_get out i q = mat_get M i j).
Proof. exact @subset_cols_spec. Qed.
Print Assumptions C01_subset_cols.

Theorem C01_subset_cols_outcome : forall (A : Type) (M : matrix A) (cols : list nat),
  wf_mat M ->
  (Forall (fun j => j < mat_cols M) cols -> exists out, subset_cols M cols = Ok out) /\
  ((exists j, In j cols /\ mat_cols M <= j) -> subset_cols M cols = Abort).
Proof. exact @subset_cols_outcome. Qed.
Print Assumptions C01_subset_cols_outcome.

Theorem C01_subset_rows : forall (A : Type) (M : matrix A) (rows : list nat) out,
  wf_mat M -> subset_rows M rows = Ok out ->
  mat_cols out = mat_cols M /\ length (mat_rows out) = length rows /\ wf_mat out /\
  (forall p i j, nth_error rows p = Some i ->
     i < length (mat_rows M) /\ mat_get out p j = mat_get M i j).
Proof. exact @subset_rows_spec. Qed.
Print Assumptions C01_subset_rows.

Theorem C01_subset_rows_outcome : forall (A : Type) (M : matrix A) (rows : list nat),
  (Forall (fun i => i < length (mat_rows M)) rows ->
     exists out, subset_rows M rows = Ok out) /\
  ((exists i, In i rows /\ length (mat_rows M) <= i) -> subset_rows M rows = Abort).
Proof. exact @subset_rows_outcome. Qed.
Print Assumptions C01_subset_rows_outcome.

Theorem C01_subset_matrix : forall (A : Type) (M : matrix A) (rows cols : list nat) out,
  subset_matrix M rows cols = Ok out ->
  mat_cols out = length cols /\ length (mat_rows out) = length rows /\ wf_mat out /\
  (forall p q i j, nth_error rows p = Some i -> nth_error cols q = Some j ->
     i < length (mat_rows M) /\ j < mat_cols M /\
     mat_get out p q = mat_get M i j).
Proof. exact @subset_matrix_spec. Qed.
Print Assumptions C01_subset_matrix.

Theorem C01_subset_matrix_in_range : forall (A : Type) (M : matrix A) (rows cols : list nat),
  wf_mat M ->
  Forall (fun i => i < length (mat_rows M)) rows ->
  Forall (fun j => j < mat_cols M) cols ->
  exists out, subset_matrix M rows cols = Ok out.
Proof. exact @subset_matrix_total. Qed.
Print Assumptions C01_subset_matrix_in_range.

Theorem C01_subset_matrix_out_of_range : forall (A : Type) (M : matrix A) (rows cols : list nat),
  wf_mat M ->
  (exists i j, In i rows /\ In j cols /\
      (length (mat_rows M) <= i \/ mat_cols M <= j)) ->
  subset_matrix M rows cols = Abort.
Proof. exact @subset_matrix_abort. Qed.
Print Assumptions C01_subset_matrix_out_of_range.

Example C01_matrix_ex :
  let M := Mat 3 [[1; 2; 3]; [4; 5; 6]] in
  wf_mat M /\
  subset_cols M [2; 0] = Ok (Mat 2 [[3; 1]; [6; 4]]) /\
  subset_rows M [1; 1] = Ok (Mat 3 [[4; 5; 6]; [4; 5; 6]]) /\
  subset_matrix M [1] [2; 2] = Ok (Mat 2 [[6; 6]]) /\
  subset_matrix M [1] [3] = Abort.
Proof. repeat split; repeat constructor. Qed.

(* ------------------------------ C02 ------------------------------ *)

Theorem C02_indices_complement : forall (inds : list nat) (n : nat),
  StronglySorted lt (indices_complement inds n) /\
  forall i, In i (indices_complement inds n) <-> i < n /\ ~ In i inds.
Proof. exact indices_complement_spec. Qed.
Print Assumptions C02_indices_complement.

(* a duplicate free selection and its complement together are all indices *)
Theorem C02_split : forall (inds : list nat) (n : nat),
  NoDup inds -> Forall (fun i => i < n) inds ->
  Permutation (inds ++ indices_complement inds n) (seq 0 n).
Proof. exact indices_complement_permutation. Qed.
Print Assumptions C02_split.

Example C02_ex : indices_complement [3; 1; 3; 9] 5 = [0; 2; 4].
Proof. reflexivity. Qed.
Example C02_split_ex : NoDup [3; 1] /\ Forall (fun i => i < 5) [3; 1].
Proof.
  split; [|repeat constructor].
  constructor; [intros [E|[]]; discriminate|]. constructor; [intros []|constructor].
Qed.

(* the general set difference used for it *)
Theorem C02_vector_set_difference : forall (K : Type) (OK : OrdKey K) (x y : list K),
  StronglySorted klt (vector_set_difference x y) /\
  forall k, In k (vector_set_difference x y) <-> In k x /\ ~ In k y.
Proof. exact @vector_set_difference_spec. Qed.
Print Assumptions C02_vector_set_difference.

(* indices of several groups are concatenated; an unknown group throws *)
Theorem C02_indices_from_groups :
  forall (K : Type) (OK : OrdKey K) (m : smap K (list nat)) (ks : list K),
  (forall out, indices_from_groups m ks = Ok out <->
     exists ls, Forall2 (fun k l => mfind k m = Some l) ks ls /\ out = concat ls) /\
  ((exists k, In k ks /\ mfind k m = None) -> indices_from_groups m ks = Throw).
Proof. exact @indices_from_groups_spec. Qed.
Print Assumptions C02_indices_from_groups.

Example C02_indices_from_groups_ex :
  indices_from_groups [(1, [0; 2]); (4, [1])] [4; 1] = Ok [1; 0; 2] /\
  indices_from_groups [(1, [0; 2]); (4, [1])] [4; 2] = Throw.
Proof. split; reflexivity. Qed.

(* ------------------------------ C03 ------------------------------ *)

Theorem C03_set_subset : forall (A : Type) (from : list A) (inds : list nat) (to out : list A),
  set_subset from inds to = Ok out ->
  length out = length to /\
  (forall j, ~ In j inds -> nth_error out j = nth_error to j) /\
  (forall i j, nth_error inds i = Some j ->
     (forall i', i < i' -> nth_error inds i' <> Some j) ->
     j < length to /\ nth_error out j = nth_error from i).
Proof. exact @set_subset_spec. Qed.
Print Assumptions C03_set_subset.

Theorem C03_set_subset_outcome : forall (A : Type) (from : list A) (inds : list nat) (to : list A),
  (length inds = length from -> Forall (fun i => i < length to) inds ->
   exists out, set_subset from inds to = Ok out) /\
  (length inds <> length from \/ (exists i, In i inds /\ length to <= i) ->
   set_subset from inds to = Abort).
Proof. exact @set_subset_outcome. Qed.
Print Assumptions C03_set_subset_outcome.

Theorem C03_set_then_get : forall (A : Type) (from : list A) (inds : list nat) (to out : list A),
  NoDup inds -> set_subset from inds to = Ok out -> subset out inds = Ok from.
Proof. exact @set_subset_then_subset. Qed.
Print Assumptions C03_set_then_get.

Theorem C03_get_then_set : forall (A : Type) (v : list A) (inds : list nat) (out : list A),
  subset v inds = Ok out -> set_subset out inds v = Ok v.
Proof. exact @subset_then_set_subset. Qed.
Print Assumptions C03_get_then_set.

Example C03_ex :
  set_subset [7; 8; 9] [2; 0; 2] [1; 2; 3; 4] = Ok [8; 2; 9; 4] /\
  set_subset [7; 8] [2; 0] [1; 2; 3; 4] = Ok [8; 2; 7; 4] /\
  subset [8; 2; 7; 4] [2; 0] = Ok [7; 8] /\
  set_subset [7; 8] [2; 4] [1; 2; 3; 4] = Abort.
Proof. repeat split. Qed.

(* The diagonal matrix overload behaves the same for indices in range ... *)
Theorem C03_set_subset_diagonal_in_range :
  forall (A : Type) (from : list A) (inds : list nat) (to : list A),
  Forall (fun i => i < length to) inds ->
  set_subset_diag from inds to = set_subset from inds to.
Proof. exact @set_subset_diag_agrees. Qed.
Print Assumptions C03_set_subset_diagonal_in_range.

(* ... but its assertion does not protect against indices out of range. *)
Theorem C03_set_subset_diagonal_refuted :
  exists (from : list nat) inds to,
    (exists i, In i inds /\ length to <= i) /\ set_subset_diag from inds to = UB.
Proof.
  exact (ex_intro _ [5] (ex_intro _ [2] (ex_intro _ [1; 1]
           (conj (ex_intro _ 2 (conj (or_introl eq_refl) (le_n 2))) eq_refl)))).
Qed.
Print Assumptions C03_set_subset_diagonal_refuted.

(* ------------------------------ C04 ------------------------------ *)

Theorem C04_symmetric_subset : forall (A : Type) (M : matrix A) (inds : list nat) out,
  symmetric_subset M inds = Ok out ->
  length (mat_rows M) = mat_cols M /\
  mat_cols out = length inds /\ length (mat_rows out) = length inds /\ wf_mat out /\
  (forall p q i j, nth_error inds p = Some i -> nth_error inds q = Some j ->
     i < mat_cols M /\ j < mat_cols M /\ mat_get out p q = mat_get M i j).
Proof. exact @symmetric_subset_spec. Qed.
Print Assumptions C04_symmetric_subset.

Theorem C04_symmetric_subset_outcome : forall (A : Type) (M : matrix A) (inds : list nat),
  wf_mat M ->
  (length (mat_rows M) = mat_cols M -> Forall (fun i => i < mat_cols M) inds ->
     exists out, symmetric_subset M inds = Ok out) /\
  (length (mat_rows M) <> mat_cols M \/ (exists i, In i inds /\ mat_cols M <= i) ->
     symmetric_subset M inds = Abort).
Proof. exact @symmetric_subset_outcome. Qed.
Print Assumptions C04_symmetric_subset_outcome.

Theorem C04_symmetric_subset_symmetric : forall (A : Type) (M : matrix A) (inds : list nat) out,
  (forall i j, mat_get M i j = mat_get M j i) ->
  symmetric_subset M inds = Ok out ->
  forall p q, mat_get out p q = mat_get out q p.
Proof. exact @symmetric_subset_symmetric. Qed.
Print Assumptions C04_symmetric_subset_symmetric.

Theorem C04_rows_then_cols : forall (A : Type) (M : matrix A) (rows cols : list nat) R out,
  wf_mat M -> subset_rows M rows = Ok R -> subset_cols R cols = Ok out ->
  subset_matrix M rows cols = Ok out.
Proof. exact @subset_matrix_via_rows_cols. Qed.
Print Assumptions C04_rows_then_cols.

Example C04_ex :
  symmetric_subset (Mat 3 [[1; 2; 3]; [2; 5; 6]; [3; 6; 9]]) [2; 0] =
    Ok (Mat 2 [[9; 3]; [3; 1]]) /\
  symmetric_subset (Mat 3 [[1; 2; 3]; [2; 5; 6]]) [0] = Abort /\
  (exists R, subset_rows (Mat 3 [[1; 2; 3]; [2; 5; 6]]) [1] = Ok R /\
             subset_cols R [2; 1] = Ok (Mat 2 [[6; 5]])).
Proof. repeat split. eexists. split; reflexivity. Qed.

(* ------------------------------ C05 ------------------------------ *)

Theorem C05_group_by : forall (A K : Type) (OK : OrdKey K) (f : A -> K) (xs : list A),
  wf_map (build_indexer f xs) /\
  (forall i x, nth_error xs i = Some x ->
     exists l, mfind (f x) (build_indexer f xs) = Some l /\ In i l) /\
  (forall k l i, mfind k (build_indexer f xs) = Some l -> In i l ->
     exists x, nth_error xs i = Some x /\ f x = k) /\
  (forall k l, mfind k (build_indexer f xs) = Some l ->
     l <> [] /\ StronglySorted lt l).
Proof. exact @build_indexer_spec. Qed.
Print Assumptions C05_group_by.

Theorem C05_keys : forall (A K : Type) (OK : OrdKey K) (f : A -> K) (xs : list A) (k : K),
  In k (mkeys (build_indexer f xs)) <-> exists x, In x xs /\ f x = k.
Proof. exact @build_indexer_keys. Qed.
Print Assumptions C05_keys.

(* all groups written one after the other are a permutation of all positions *)
Theorem C05_partition : forall (A K : Type) (OK : OrdKey K) (f : A -> K) (xs : list A),
  Permutation (concat (mvals (build_indexer f xs))) (seq 0 (length xs)).
Proof.
  exact (fun A K OK f xs =>
           partition_concat_permutation _ _ (build_indexer_partitions f xs)).
Qed.
Print Assumptions C05_partition.

Theorem C05_counts : forall (K : Type) (OK : OrdKey K) (m : smap K (list nat)),
  wf_map m -> counts m = map (fun kv => (fst kv, length (snd kv))) m.
Proof. exact @counts_spec. Qed.
Print Assumptions C05_counts.

Example C05_ex :
  build_indexer (fun x => x mod 3) [5; 3; 4; 8; 0] = [(0, [1; 4]); (1, [2]); (2, [0; 3])] /\
  counts (build_indexer (fun x => x mod 3) [5; 3; 4; 8; 0]) = [(0, 2); (1, 1); (2, 2)].
Proof. split; reflexivity. Qed.

(* ------------------------------ C06 ------------------------------ *)

Theorem C06_groups : forall (A K : Type) (OK : OrdKey K) (f : A -> K) (xs : list A),
  exists g, groups_of xs (build_indexer f xs) = Ok g /\ wf_map g /\
    (forall k, mfind k g =
       match filter (fun x => keqb (f x) k) xs with
       | [] => None
       | l => Some l
       end) /\
    Permutation (combine_groups g) xs.
Proof. exact @group_by_groups_spec. Qed.
Print Assumptions C06_groups.

Theorem C06_get_group : forall (A K : Type) (OK : OrdKey K) (f : A -> K) (xs : list A) (k : K),
  ((exists x, In x xs /\ f x = k) ->
     get_group xs (build_indexer f xs) k = Ok (filter (fun x => keqb (f x) k) xs)) /\
  ((forall x, In x xs -> f x <> k) -> get_group xs (build_indexer f xs) k = Throw).
Proof. exact @get_group_spec. Qed.
Print Assumptions C06_get_group.

(* For any in-range indexer: combining the groups lists the data in the order of
   the concatenated indices, so these indices put every element back. *)
Theorem C06_combine_indices :
  forall (A K : Type) (OK : OrdKey K) (parent : list A) (m : smap K (list nat)),
  wf_map m ->
  (forall k l, mfind k m = Some l -> Forall (fun i => i < length parent) l) ->
  exists g, groups_of parent m = Ok g /\ mkeys g = mkeys m /\ wf_map g /\
    (forall k l, mfind k m = Some l ->
       exists v, mfind k g = Some v /\ subset parent l = Ok v) /\
    subset parent (concat (mvals m)) = Ok (combine_groups g).
Proof. exact @groups_of_spec. Qed.
Print Assumptions C06_combine_indices.

Theorem C06_apply : forall (K V W : Type) (OK : OrdKey K) (m : smap K V) (f : K -> V -> W),
  wf_map m -> apply_map m f = map (fun kv => (fst kv, f (fst kv) (snd kv))) m.
Proof. exact @apply_map_spec. Qed.
Print Assumptions C06_apply.

Theorem C06_min : forall (K V : Type) (lt : V -> V -> bool) (m : smap K V) (kv : K * V),
  (forall a b c, lt a b = true -> lt b c = true -> lt a c = true) ->
  (forall a, lt a a = false) ->
  (forall a b c, lt a b = false -> lt b c = false -> lt a c = false) ->
  min_entry lt m = Ok kv ->
  In kv m /\ forall x, In x m -> lt (snd x) (snd kv) = false.
Proof. exact @min_entry_spec. Qed.
Print Assumptions C06_min.

Theorem C06_max : forall (K V : Type) (lt : V -> V -> bool) (m : smap K V) (kv : K * V),
  (forall a b c, lt a b = true -> lt b c = true -> lt a c = true) ->
  (forall a, lt a a = false) ->
  (forall a b c, lt a b = false -> lt b c = false -> lt a c = false) ->
  max_entry lt m = Ok kv ->
  In kv m /\ forall x, In x m -> lt (snd kv) (snd x) = false.
Proof. exact @max_entry_spec. Qed.
Print Assumptions C06_max.

Example C06_ex :
  groups_of [5; 3; 4; 8; 0] (build_indexer (fun x => x mod 3) [5; 3; 4; 8; 0])
    = Ok [(0, [3; 0]); (1, [4]); (2, [5; 8])] /\
  combine_groups [(0, [3; 0]); (1, [4]); (2, [5; 8])] = [3; 0; 4; 5; 8] /\
  min_entry Nat.ltb [(0, 2); (1, 1); (2, 1)] = Ok (1, 1) /\
  max_entry Nat.ltb [(0, 2); (1, 1); (2, 2)] = Ok (0, 2).
Proof. repeat split. Qed.

(* ------------------------------ C07 ------------------------------ *)

Theorem C07_leave_one_out : forall (A : Type) (xs : list A),
  build_loo_indexer xs = map (fun i => (i, [i])) (seq 0 (length xs)).
Proof. exact @build_loo_indexer_spec. Qed.
Print Assumptions C07_leave_one_out.

(* k-fold: the number of groups, the content of each group *)
Theorem C07_kfold : forall (A : Type) (k : nat) (xs : list A),
  0 < k ->
  exists m, build_kfold_indexer k xs = Ok m /\
    indexer_partitions m (length xs) /\
    mkeys m = seq 0 (Nat.min k (length xs)) /\
    (forall j l, mfind j m = Some l ->
       forall i, In i l <-> i < length xs /\ i mod k = j).
Proof. exact @build_kfold_spec. Qed.
Print Assumptions C07_kfold.

Theorem C07_kfold_groups : forall (A : Type) (k : nat) (xs : list A) m j l,
  0 < k -> build_kfold_indexer k xs = Ok m -> mfind j m = Some l ->
  l = filter (fun i => i mod k =? j) (seq 0 (length xs)).
Proof. exact @kfold_group_is_filter. Qed.
Print Assumptions C07_kfold_groups.

Theorem C07_kfold_balanced : forall (A : Type) (k : nat) (xs : list A) m j1 l1 j2 l2,
  0 < k -> build_kfold_indexer k xs = Ok m ->
  mfind j1 m = Some l1 -> mfind j2 m = Some l2 ->
  length l1 <= S (length l2).
Proof. exact @kfold_balanced. Qed.
Print Assumptions C07_kfold_balanced.

(* zero folds of a non empty dataset divides by zero *)
Theorem C07_kfold_zero : forall (A : Type) (xs : list A),
  build_kfold_indexer 0 xs = if length xs =? 0 then Ok [] else UB.
Proof. exact @kfold_zero. Qed.
Print Assumptions C07_kfold_zero.

Example C07_ex :
  build_loo_indexer [7; 7; 7] = [(0, [0]); (1, [1]); (2, [2])] /\
  build_kfold_indexer 2 [7; 7; 7] = Ok [(0, [0; 2]); (1, [1])].
Proof. split; reflexivity. Qed.

(* ------------------------------ C08 ------------------------------ *)

Theorem C08_filter_vector : forall (A : Type) (l : list A) (p : A -> bool),
  filter_vector l p = filter p l.
Proof. exact @filter_vector_eq. Qed.
Print Assumptions C08_filter_vector.

Theorem C08_filter_set : forall (K : Type) (OK : OrdKey K) (s : list K) (p : K -> bool),
  StronglySorted klt (filter_set s p) /\
  forall k, In k (filter_set s p) <-> In k s /\ p k = true.
Proof. exact @filter_set_spec. Qed.
Print Assumptions C08_filter_set.

Theorem C08_filter_map : forall (K V : Type) (OK : OrdKey K) (m : smap K V) (p : K -> V -> bool),
  wf_map m ->
  wf_map (filter_map m p) /\
  forall k v, mfind k (filter_map m p) = Some v <-> mfind k m = Some v /\ p k v = true.
Proof. exact @filter_map_spec. Qed.
Print Assumptions C08_filter_map.

(* the positions a dataset filter keeps select exactly the features kept *)
Theorem C08_filter_positions : forall (A : Type) (xs : list A) (p : A -> bool),
  StronglySorted lt (inds_to_keep xs p 0) /\
  (forall i, In i (inds_to_keep xs p 0) <-> exists x, nth_error xs i = Some x /\ p x = true) /\
  subset xs (inds_to_keep xs p 0) = Ok (filter p xs).
Proof. exact @inds_to_keep_zero_spec. Qed.
Print Assumptions C08_filter_positions.

Theorem C08_unique_value : forall (K : Type) (OK : OrdKey K) (l : list K) (k : K),
  unique_value l = Ok k <-> (l <> [] /\ forall x, In x l -> x = k).
Proof. exact @unique_value_spec. Qed.
Print Assumptions C08_unique_value.

Example C08_ex :
  filter_vector [5; 3; 4; 8; 0] Nat.even = [4; 8; 0] /\
  filter_set [3; 4; 8] Nat.even = [4; 8] /\
  filter_map [(1, 10); (2, 5); (3, 9)] (fun k v => k <? v - 3) = [(1, 10); (3, 9)] /\
  inds_to_keep [5; 3; 4; 8; 0] Nat.even 0 = [2; 3; 4] /\
  unique_value [3; 3; 3] = Ok 3 /\ unique_value [3; 4] = Abort.
Proof. repeat split. Qed.

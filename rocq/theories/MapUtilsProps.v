(* Property C11 of properties.jsonl. A map is characterised by wf_map (keys
   strictly increasing) and mfind; see StdMapProofs.map_ext_find. *)
From Verif Require Import Base StdMapModel StdMapProofs MapUtilsModel MapUtilsProofs.

Definition exA : smap nat nat := [(1, 10); (3, 30); (5, 50)].
Definition exB : smap nat nat := [(2, 20); (3, 33); (7, 70)].
Example ex_wf : wf_map exA /\ wf_map exB.
Proof. split; unfold wf_map; repeat constructor. Qed.

Theorem C11_map_join : forall (K : Type) (HK : OrdKey K) (V : Type) (m other : smap K V),
  wf_map m -> wf_map other ->
  wf_map (map_join m other) /\
  forall k, mfind k (map_join m other) =
    match mfind k other with Some v => Some v | None => mfind k m end.
Proof. exact @map_join_spec. Qed.
Print Assumptions C11_map_join.
Example C11_map_join_ex : map_join exA exB = [(1, 10); (2, 20); (3, 33); (5, 50); (7, 70)].
Proof. reflexivity. Qed.

(* map_join_strict: with assertions, disjoint maps are joined ... *)
Theorem C11_map_join_strict : forall (K : Type) (HK : OrdKey K) (V : Type) (m other : smap K V),
  wf_map m -> wf_map other -> (forall k, In k (mkeys m) -> ~ In k (mkeys other)) ->
  map_join_strict m other = Ok (map_join m other).
Proof. exact @map_join_strict_ok. Qed.
Print Assumptions C11_map_join_strict.
(* ... and a shared key aborts *)
Theorem C11_map_join_strict_duplicate : forall (K : Type) (HK : OrdKey K) (V : Type) (m other : smap K V),
  wf_map m -> wf_map other -> (exists k, In k (mkeys m) /\ In k (mkeys other)) ->
  map_join_strict m other = Abort.
Proof. exact @map_join_strict_dup. Qed.
Print Assumptions C11_map_join_strict_duplicate.
(* without assertions the left map wins, the opposite of map_join *)
Theorem C11_map_join_strict_release : forall (K : Type) (HK : OrdKey K) (V : Type) (m other : smap K V),
  wf_map m -> wf_map other ->
  wf_map (map_join_strict_release m other) /\
  forall k, mfind k (map_join_strict_release m other) =
    match mfind k m with Some v => Some v | None => mfind k other end.
Proof. exact @map_join_strict_release_spec. Qed.
Print Assumptions C11_map_join_strict_release.
Example C11_map_join_strict_ex :
  map_join_strict exA [(2, 20); (9, 1)] = Ok [(1, 10); (2, 20); (3, 30); (5, 50); (9, 1)] /\
  map_join_strict exA exB = Abort /\
  map_join_strict_release exA exB = [(1, 10); (2, 20); (3, 30); (5, 50); (7, 70)].
Proof. repeat split; reflexivity. Qed.

Theorem C11_map_union : forall (K : Type) (HK : OrdKey K) (V : Type) (merge : K -> V -> V -> V) (a b : smap K V),
  wf_map a -> wf_map b ->
  wf_map (map_union merge a b) /\
  forall k, mfind k (map_union merge a b) =
    match mfind k a, mfind k b with
    | Some v, None => Some v
    | None, Some v => Some v
    | Some v, Some w => Some (merge k v w)
    | None, None => None
    end.
Proof. exact @map_union_spec. Qed.
Print Assumptions C11_map_union.

(* the default merge keeps the left value *)
Theorem C11_map_union_default : forall (K : Type) (HK : OrdKey K) (V : Type) (a b : smap K V) k,
  wf_map a -> wf_map b ->
  mfind k (map_union return_left a b) =
    match mfind k a with Some v => Some v | None => mfind k b end.
Proof.
  intros K HK V a b k Wa Wb. rewrite (proj2 (map_union_spec return_left a b Wa Wb)).
  destruct (mfind k a), (mfind k b); reflexivity.
Qed.
Print Assumptions C11_map_union_default.

Theorem C11_map_intersect : forall (K : Type) (HK : OrdKey K) (V W R : Type) (merge : K -> V -> W -> R)
    (a : smap K V) (b : smap K W),
  wf_map a -> wf_map b ->
  wf_map (map_intersect merge a b) /\
  forall k, mfind k (map_intersect merge a b) =
    match mfind k a, mfind k b with
    | Some v, Some w => Some (merge k v w)
    | _, _ => None
    end.
Proof. exact @map_intersect_spec. Qed.
Print Assumptions C11_map_intersect.

Theorem C11_map_difference : forall (K : Type) (HK : OrdKey K) (V W : Type) (a : smap K V) (b : smap K W),
  wf_map a -> wf_map b ->
  wf_map (map_difference a b) /\
  forall k, mfind k (map_difference a b) =
    match mfind k b with Some _ => None | None => mfind k a end.
Proof. exact @map_difference_spec. Qed.
Print Assumptions C11_map_difference.

Theorem C11_map_symmetric_difference : forall (K : Type) (HK : OrdKey K) (V : Type) (a b : smap K V),
  wf_map a -> wf_map b ->
  wf_map (map_symmetric_difference a b) /\
  forall k, mfind k (map_symmetric_difference a b) =
    match mfind k a, mfind k b with
    | Some v, None => Some v
    | None, Some v => Some v
    | _, _ => None
    end.
Proof. exact @map_symmetric_difference_spec. Qed.
Print Assumptions C11_map_symmetric_difference.

Theorem C11_map_difference_keys : forall (K : Type) (HK : OrdKey K) (V W : Type) (a : smap K V) (b : smap K W),
  wf_map a -> wf_map b ->
  StronglySorted klt (map_difference_keys a b) /\
  forall k, In k (map_difference_keys a b) <-> In k (mkeys a) /\ ~ In k (mkeys b).
Proof. exact @map_difference_keys_spec. Qed.
Print Assumptions C11_map_difference_keys.

Theorem C11_map_intersect_keys : forall (K : Type) (HK : OrdKey K) (V W : Type) (a : smap K V) (b : smap K W),
  wf_map a -> wf_map b ->
  StronglySorted klt (map_intersect_keys a b) /\
  forall k, In k (map_intersect_keys a b) <-> In k (mkeys a) /\ In k (mkeys b).
Proof. exact @map_intersect_keys_spec. Qed.
Print Assumptions C11_map_intersect_keys.

Example C11_set_operations_ex :
  map_union return_left exA exB = [(1, 10); (2, 20); (3, 30); (5, 50); (7, 70)] /\
  map_intersect (fun _ v w => (v, w)) exA exB = [(3, (30, 33))] /\
  map_difference exA exB = [(1, 10); (5, 50)] /\
  map_symmetric_difference exA exB = [(1, 10); (2, 20); (5, 50); (7, 70)] /\
  map_difference_keys exA exB = [1; 5] /\ map_intersect_keys exA exB = [3].
Proof. repeat split; reflexivity. Qed.

(* map_subset with an ordered set of keys *)
Theorem C11_map_subset : forall (K : Type) (HK : OrdKey K) (V : Type) (m : smap K V) (keys : list K),
  wf_map m -> StronglySorted klt keys ->
  wf_map (map_subset m keys) /\
  forall k, (In k keys -> mfind k (map_subset m keys) = mfind k m) /\
            (~ In k keys -> mfind k (map_subset m keys) = None).
Proof. exact @map_subset_set_spec. Qed.
Print Assumptions C11_map_subset.

(* map_subset_sorted with any vector: repeated keys are fine, an unsorted vector
   aborts *)
Theorem C11_map_subset_sorted : forall (K : Type) (HK : OrdKey K) (V : Type) (m : smap K V) (keys : list K),
  wf_map m ->
  (StronglySorted (fun a b => ~ klt b a) keys ->
   exists out, map_subset_sorted m keys = Ok out /\ wf_map out /\
     forall k, (In k keys -> mfind k out = mfind k m) /\ (~ In k keys -> mfind k out = None)) /\
  (~ StronglySorted (fun a b => ~ klt b a) keys -> map_subset_sorted m keys = Abort).
Proof. exact @map_subset_sorted_spec. Qed.
Print Assumptions C11_map_subset_sorted.

Example C11_map_subset_ex :
  map_subset exA [0; 3; 4; 5] = [(3, 30); (5, 50)] /\
  map_subset_sorted exA [3; 3; 5; 5] = Ok [(3, 30); (5, 50)] /\
  map_subset_sorted exA [5; 3] = Abort.
Proof. repeat split; reflexivity. Qed.

Theorem C11_map_at_or : forall (K : Type) (HK : OrdKey K) (V : Type) (m : smap K V) k d,
  (forall v, mfind k m = Some v -> map_at_or m k d = v) /\
  (mfind k m = None -> map_at_or m k d = d).
Proof. exact @map_at_or_spec. Qed.
Print Assumptions C11_map_at_or.

(* map_keys and map_values line up and are in key order *)
Theorem C11_map_keys_values : forall (K : Type) (HK : OrdKey K) (V : Type) (m : smap K V),
  wf_map m ->
  StronglySorted klt (mkeys m) /\ length (mvals m) = length (mkeys m) /\
  forall k v, mfind k m = Some v <->
    exists i, nth_error (mkeys m) i = Some k /\ nth_error (mvals m) i = Some v.
Proof. exact @keys_values_spec. Qed.
Print Assumptions C11_map_keys_values.

Theorem C11_all_any : forall (K : Type) (HK : OrdKey K) (m : smap K bool), wf_map m ->
  (grouped_all m = true <-> forall k b, mfind k m = Some b -> b = true) /\
  (grouped_any m = true <-> exists k, mfind k m = Some true).
Proof. exact @grouped_all_any_spec. Qed.
Print Assumptions C11_all_any.

Theorem C11_vector_contains : forall (A : Type) (eqb : A -> A -> bool) v x,
  (forall a b, eqb a b = true <-> a = b) -> (vector_contains eqb v x = true <-> In x v).
Proof. exact @vector_contains_spec. Qed.
Print Assumptions C11_vector_contains.

Example C11_misc_ex :
  map_at_or exA 3 7 = 30 /\ map_at_or exA 4 7 = 7 /\ mkeys exA = [1; 3; 5] /\ mvals exA = [10; 30; 50] /\
  grouped_all [(1, true); (2, false)] = false /\ grouped_any [(1, true); (2, false)] = true /\
  vector_contains Nat.eqb [4; 5] 5 = true.
Proof. repeat split; reflexivity. Qed.

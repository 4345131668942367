(* Model of utils/map_utils.hpp and of all/any/vector_contains of
   utils/vector_utils.hpp. *)
From Verif Require Import Base StdMapModel.

Section MapUtils.
Context {K : Type} `{OrdKey K}.

(* map_contains, utils/map_utils.hpp:22-26, is [mcontains]. *)

(* map_at_or, utils/map_utils.hpp:33-44. *)
Definition map_at_or {V} (m : smap K V) (k : K) (value_if_missing : V) : V :=
  match mfind k m with Some v => v | None => value_if_missing end.

(* map_keys and map_values, utils/map_utils.hpp:49-72, are [mkeys] and
   [mvals]. *)

(* map_join, utils/map_utils.hpp:74-84: join starts as a copy of other and
   insert keeps existing entries. *)
Definition map_join {V} (m other : smap K V) : smap K V :=
  fold_left (fun join kv => memplace (fst kv) (snd kv) join) m other.

(* map_join_strict, utils/map_utils.hpp:86-102, assertions enabled. *)
Definition map_join_strict {V} (m other : smap K V) : outcome (smap K V) :=
  foldM (fun join kv =>
           assert_then (negb (mcontains (fst kv) join))
             (Ok (massign (fst kv) (snd kv) join))) m other.

(* map_join_strict, utils/map_utils.hpp:86-102, with NDEBUG the assertion does
   nothing (details/error_handling.hpp:37-41). *)
Definition map_join_strict_release {V} (m other : smap K V) : smap K V :=
  fold_left (fun join kv => massign (fst kv) (snd kv) join) m other.

(* The calls made by detail::map_merge, in order, utils/map_utils.hpp:113-141.
   "comp(ak, bk)" is kcmp ak bk = Lt and "comp(bk, ak)" is Gt. *)
Inductive merge_call (V W : Type) : Type :=
| OnlyA (k : K) (v : V)
| OnlyB (k : K) (w : W)
| Both (k : K) (v : V) (w : W).
Arguments OnlyA {V W}.
Arguments OnlyB {V W}.
Arguments Both {V W}.

Fixpoint map_merge {V W} (a : smap K V) : smap K W -> list (merge_call V W) :=
  fix go (b : smap K W) : list (merge_call V W) :=
    match a, b with
    | [], _ => map (fun kw => OnlyB (fst kw) (snd kw)) b
    | _ :: _, [] => map (fun kv => OnlyA (fst kv) (snd kv)) a
    | (ak, av) :: a', (bk, bv) :: b' =>
        match kcmp ak bk with
        | Lt => OnlyA ak av :: map_merge a' b
        | Gt => OnlyB bk bv :: go b'
        | Eq => Both ak av bv :: map_merge a' b'
        end
    end.

(* detail::map_subset_sequence, utils/map_utils.hpp:143-161: the entries merge
   is called on. *)
Fixpoint map_subset_sequence {V} (a : smap K V) : list K -> list (K * V) :=
  fix go (b : list K) : list (K * V) :=
    match a, b with
    | [], _ => []
    | _ :: _, [] => []
    | (ak, av) :: a', bk :: b' =>
        match kcmp ak bk with
        | Lt => map_subset_sequence a' b
        | Gt => go b'
        | Eq => (ak, av) :: map_subset_sequence a' b'
        end
    end.

(* map_difference, utils/map_utils.hpp:168-171 and 283-292: emplace_hint behaves
   like emplace. *)
Definition map_difference {V W} (a : smap K V) (b : smap K W) : smap K V :=
  fold_left (fun diff c => match c with
                           | OnlyA k v => memplace k v diff
                           | _ => diff
                           end) (map_merge a b) [].

(* map_symmetric_difference, utils/map_utils.hpp:173-176 and 316-331. *)
Definition map_symmetric_difference {V} (a b : smap K V) : smap K V :=
  fold_left (fun diff c => match c with
                           | OnlyA k v => memplace k v diff
                           | OnlyB k v => memplace k v diff
                           | Both _ _ _ => diff
                           end) (map_merge a b) [].

(* map_union, utils/map_utils.hpp:408-434; the default merge is ReturnLeft. *)
Definition map_union {V} (merge : K -> V -> V -> V) (a b : smap K V)
  : smap K V :=
  fold_left (fun result c => match c with
                             | OnlyA k v => memplace k v result
                             | OnlyB k v => memplace k v result
                             | Both k v w => memplace k (merge k v w) result
                             end) (map_merge a b) [].
Definition return_left {V} (_ : K) (v _ : V) : V := v.

(* map_intersect, utils/map_utils.hpp:483-506; the default merge is MakePair. *)
Definition map_intersect {V W R} (merge : K -> V -> W -> R) (a : smap K V)
  (b : smap K W) : smap K R :=
  fold_left (fun result c => match c with
                             | Both k v w => memplace k (merge k v w) result
                             | _ => result
                             end) (map_merge a b) [].

(* map_difference_keys, utils/map_utils.hpp:535-545. *)
Definition map_difference_keys {V W} (a : smap K V) (b : smap K W) : list K :=
  fold_left (fun diff c => match c with
                           | OnlyA k _ => diff ++ [k]
                           | _ => diff
                           end) (map_merge a b) [].

(* map_intersect_keys, utils/map_utils.hpp:562-573. *)
Definition map_intersect_keys {V W} (a : smap K V) (b : smap K W) : list K :=
  fold_left (fun diff c => match c with
                           | Both k _ _ => diff ++ [k]
                           | _ => diff
                           end) (map_merge a b) [].

(* map_subset, utils/map_utils.hpp:597-607, keys is an ordered set. *)
Definition map_subset {V} (m : smap K V) (keys : list K) : smap K V :=
  fold_left (fun results kv => memplace (fst kv) (snd kv) results)
            (map_subset_sequence m keys) [].

(* std::is_sorted with the comparator of the map. *)
Fixpoint is_sorted (ks : list K) : bool :=
  match ks with
  | k1 :: ((k2 :: _) as tl) => negb (kltb k2 k1) && is_sorted tl
  | _ => true
  end.

(* map_subset_sorted, utils/map_utils.hpp:632-644. *)
Definition map_subset_sorted {V} (m : smap K V) (keys : list K)
  : outcome (smap K V) :=
  assert_then (is_sorted keys) (Ok (map_subset m keys)).
End MapUtils.
Arguments merge_call : clear implicits.
Arguments OnlyA {K V W}.
Arguments OnlyB {K V W}.
Arguments Both {K V W}.

(* all, any and vector_contains, utils/vector_utils.hpp:35-70. *)
Fixpoint all_of (xs : list bool) : bool :=
  match xs with [] => true | x :: xs' => if negb x then false else all_of xs' end.
Fixpoint any_of (xs : list bool) : bool :=
  match xs with [] => false | x :: xs' => if x then true else any_of xs' end.
Fixpoint vector_contains {A} (eqb : A -> A -> bool) (v : list A) (x : A) : bool :=
  match v with [] => false | y :: v' => if eqb y x then true else vector_contains eqb v' x end.

(* Grouped<K, bool>::all / any, indexing/group_by.hpp:184-195:
   all_of / any_of over map_values. *)
Definition grouped_all {K} (m : smap K bool) : bool := all_of (mvals m).
Definition grouped_any {K} (m : smap K bool) : bool := any_of (mvals m).

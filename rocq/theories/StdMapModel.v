(* Model of std::map: a strictly sorted association list.  albatross uses
   std::map for Grouped objects (indexing/group_by.hpp:67-173), parameter
   stores (core/parameters.hpp:103) and the helpers of utils/map_utils.hpp.

   Simplification: key equivalence under operator< is taken to be equality,
   i.e. the key type has a total order ([OrdKey]). *)
From Verif Require Import Base.
From Coq Require Export Sorting.Sorted.

Class OrdKey (K : Type) := {
  kcmp : K -> K -> comparison;
  kcmp_eq : forall a b, kcmp a b = Eq <-> a = b;
  kcmp_antisym : forall a b, kcmp b a = CompOpp (kcmp a b);
  kcmp_trans : forall a b c, kcmp a b = Lt -> kcmp b c = Lt -> kcmp a c = Lt
}.

Definition klt {K} `{OrdKey K} (a b : K) : Prop := kcmp a b = Lt.
Definition keqb {K} `{OrdKey K} (a b : K) : bool :=
  match kcmp a b with Eq => true | _ => false end.
Definition kltb {K} `{OrdKey K} (a b : K) : bool :=
  match kcmp a b with Lt => true | _ => false end.

Section StdMap.
Context {K : Type} `{OrdKey K}.

(* std::map<K,V> in iteration order *)
Definition smap (V : Type) := list (K * V).

(* the class invariant of std::map *)
Definition wf_map {V} (m : smap V) : Prop := StronglySorted klt (map fst m).

Definition mkeys {V} (m : smap V) : list K := map fst m.
Definition mvals {V} (m : smap V) : list V := map snd m.

(* std::map::find / count / at *)
Fixpoint mfind {V} (k : K) (m : smap V) : option V :=
  match m with
  | [] => None
  | (k', v) :: m' =>
      match kcmp k k' with
      | Eq => Some v
      | Lt => None
      | Gt => mfind k m'
      end
  end.

Definition mcontains {V} (k : K) (m : smap V) : bool :=
  match mfind k m with Some _ => true | None => false end.

(* std::map::at: throws std::out_of_range *)
Definition mat {V} (k : K) (m : smap V) : outcome V :=
  match mfind k m with Some v => Ok v | None => Throw end.

(* m[k] = v, insert_or_assign *)
Fixpoint massign {V} (k : K) (v : V) (m : smap V) : smap V :=
  match m with
  | [] => [(k, v)]
  | (k', v') :: m' =>
      match kcmp k k' with
      | Eq => (k, v) :: m'
      | Lt => (k, v) :: (k', v') :: m'
      | Gt => (k', v') :: massign k v m'
      end
  end.

(* insert / emplace: an existing entry is kept *)
Definition memplace {V} (k : K) (v : V) (m : smap V) : smap V :=
  match mfind k m with Some _ => m | None => massign k v m end.

(* erase(key) *)
Fixpoint merase {V} (k : K) (m : smap V) : smap V :=
  match m with
  | [] => []
  | (k', v') :: m' =>
      match kcmp k k' with
      | Eq => m'
      | Lt => (k', v') :: m'
      | Gt => (k', v') :: merase k m'
      end
  end.

(* Build a map by inserting from left to right, later assignments winning. *)
Definition massign_all {V} (kvs : list (K * V)) (m : smap V) : smap V :=
  fold_left (fun acc kv => massign (fst kv) (snd kv) acc) kvs m.

(* std::set<K>: sorted duplicate free list of keys *)
Fixpoint sinsert (k : K) (s : list K) : list K :=
  match s with
  | [] => [k]
  | k' :: s' =>
      match kcmp k k' with
      | Eq => k' :: s'
      | Lt => k :: k' :: s'
      | Gt => k' :: sinsert k s'
      end
  end.
Definition sof_list (ks : list K) : list K :=
  fold_left (fun s k => sinsert k s) ks [].
Definition smem (k : K) (s : list K) : bool := existsb (keqb k) s.
End StdMap.
Arguments smap K V : clear implicits.

(* std::size_t keys *)
Global Instance OrdKey_nat : OrdKey nat.
Proof.
  refine {| kcmp := Nat.compare |}.
  - intros a b. apply Nat.compare_eq_iff.
  - intros a b. apply Nat.compare_antisym.
  - intros a b c H1 H2. rewrite Nat.compare_lt_iff in *. lia.
Defined.

(* int / double-as-integer keys *)
Global Instance OrdKey_Z : OrdKey Z.
Proof.
  refine {| kcmp := Z.compare |}.
  - intros a b. apply Z.compare_eq_iff.
  - intros a b. apply Z.compare_antisym.
  - intros a b c H1 H2. rewrite Z.compare_lt_iff in *. lia.
Defined.

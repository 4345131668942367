(* Model of core/concatenate.hpp and utils/variant_utils.hpp. A type that is not a variant is a number; [V] holds the values of all
   of them. A vector comes with its static type. None: the call does not compile. *)
From Verif Require Import Base IndexingModel DatasetModel.

(* a feature type: not a variant, or variant<Ts...> *)
Inductive ftype := Plain (t : nat) | Variant (ts : list nat).
(* a value of it: for a variant, which alternative it holds (mapbox::util::variant numbers them differently, which does not matter
   here) *)
Inductive value (V : Type) := VPlain (v : V) | VAlt (which : nat) (v : V).
Arguments VPlain {V}.
Arguments VAlt {V}.

(* is_in_variant, details/traits.hpp:241-251; is_sub_variant 294-303 *)
Definition is_in_variant (x : nat) (ts : list nat) : bool := existsb (Nat.eqb x) ts.
Definition is_sub_variant (xs ts : list nat) : bool := forallb (fun x => is_in_variant x ts) xs.

(* internal::concatenation_type, core/concatenate.hpp:20-61; the primary template for two variants names a variant of variants, and
   no overload of concatenate uses it *)
Definition concatenation_type (x y : ftype) : option ftype :=
  match x, y with
  | Plain a, Plain b => Some (if Nat.eqb a b then Plain a else Variant [a; b])
  | Plain a, Variant ts => Some (if is_in_variant a ts then Variant ts else Variant (a :: ts))
  | Variant ts, Plain b => Some (if is_in_variant b ts then Variant ts else Variant (ts ++ [b]))
  | Variant ts, Variant us => if list_eq_dec Nat.eq_dec ts us then Some (Variant ts) else None
  end.

(* construction and assignment of a variant from a value of type t: the alternative of that very type *)
Fixpoint alternative (t : nat) (ts : list nat) (i : nat) : option nat :=
  match ts with
  | [] => None
  | u :: ts => if Nat.eqb t u then Some i else alternative t ts (S i)
  end.
Definition make_variant {V} (t : nat) (v : V) (ts : list nat) : option (value V) :=
  option_map (fun i => VAlt i v) (alternative t ts 0).
(* x.match(f) of a value of variant<Ts...>: the type and the value it holds *)
Definition match_value {V} (ts : list nat) (x : value V) : option (nat * V) :=
  match x with
  | VPlain _ => None
  | VAlt i v => option_map (fun t => (t, v)) (nth_error ts i)
  end.

(* a loop over a vector, each value converted *)
Fixpoint convert_all {A B} (f : A -> option B) (xs : list A) : option (list B) :=
  match xs with
  | [] => Some []
  | x :: xs => match f x, convert_all f xs with Some y, Some ys => Some (y :: ys) | _, _ => None end
  end.
(* OutputType(x) of a plain value, y.match([](const auto &yy) { return OutputType(yy); }) of a variant *)
Definition plain_to {V} (t : nat) (out : ftype) (x : value V) : option (value V) :=
  match x, out with
  | VPlain v, Plain u => if Nat.eqb t u then Some (VPlain v) else None
  | VPlain v, Variant ts => make_variant t v ts
  | VAlt _ _, _ => None
  end.
Definition variant_to {V} (us : list nat) (out : ftype) (x : value V) : option (value V) :=
  match match_value us x, out with
  | Some (t, v), Variant ts => make_variant t v ts
  | _, _ => None
  end.
Definition value_to {V} (from out : ftype) (x : value V) : option (value V) :=
  match from with Plain t => plain_to t out x | Variant us => variant_to us out x end.

(* concatenate, core/concatenate.hpp:66-139: the overloads for the same type (66-75) and for one or no variant (92-139) *)
Definition concatenate {V} (x : ftype) (xs : list (value V)) (y : ftype) (ys : list (value V)) : option (ftype * list (value V)) :=
  match x, y with
  | Variant ts, Variant us => if list_eq_dec Nat.eq_dec ts us then Some (x, xs ++ ys) else None
  | Plain a, Plain b =>
      if Nat.eqb a b then Some (x, xs ++ ys)
      else match concatenation_type x y with
           | Some out =>
               match convert_all (value_to x out) xs, convert_all (value_to y out) ys with
               | Some l, Some r => Some (out, l ++ r)
               | _, _ => None
               end
           | None => None
           end
  | _, _ =>
      match concatenation_type x y with
      | Some out =>
          match convert_all (value_to x out) xs, convert_all (value_to y out) ys with
          | Some l, Some r => Some (out, l ++ r)
          | _, _ => None
          end
      | None => None
      end
  end.
(* concatenate of a vector of vectors, core/concatenate.hpp:77-84 *)
Definition concatenate_list {V} (all_xs : list (list V)) : list V :=
  fold_left (fun features one => features ++ one) all_xs [].

(* to_variant_vector and set_variants, utils/variant_utils.hpp:25-77; set_variant of something else than a sub variant or a type of
   the variant does not compile *)
Definition to_variant_vector {V} (ts : list nat) (x : ftype) (xs : list (value V)) : option (list (value V)) :=
  match x with
  | Plain t => if is_in_variant t ts then convert_all (value_to x (Variant ts)) xs else None
  | Variant us => if is_sub_variant us ts then convert_all (value_to x (Variant ts)) xs else None
  end.

(* extract_from_variants, utils/variant_utils.hpp:79-92 *)
Fixpoint extract_loop {V} (t : nat) (ts : list nat) (xs : list (value V)) : option (list V) :=
  match xs with
  | [] => Some []
  | x :: xs =>
      match match_value ts x, extract_loop t ts xs with
      | Some (u, v), Some output => Some (if Nat.eqb t u then v :: output else output)
      | _, _ => None
      end
  end.
Definition extract_from_variants {V} (t : nat) (ts : list nat) (xs : list (value V)) : option (list V) :=
  if is_in_variant t ts then extract_loop t ts xs else None.

(* extract_from_variants of a dataset, utils/variant_utils.hpp:94-115 *)
Fixpoint extract_indices {V} (t : nat) (ts : list nat) (xs : list (value V)) (i : nat) : option (list nat) :=
  match xs with
  | [] => Some []
  | x :: xs =>
      match match_value ts x, extract_indices t ts xs (S i) with
      | Some (u, _), Some indices => Some (if Nat.eqb t u then i :: indices else indices)
      | _, _ => None
      end
  end.
Definition extract_dataset {V D} (t : nat) (ts : list nat) (d : dataset (value V) D) : option (outcome (dataset V D)) :=
  match extract_from_variants t ts (ds_features d), extract_indices t ts (ds_features d) 0 with
  | Some features, Some indices =>
      Some (targets <- marginal_subset (ds_targets d) indices ;; dataset_make features targets)
  | _, _ => None
  end.

(* concatenate_datasets of two types, core/dataset.hpp:162-169 *)
Definition concatenate_typed {V D} (x : ftype) (xs : dataset (value V) D) (y : ftype) (ys : dataset (value V) D)
  : option (ftype * outcome (dataset (value V) D)) :=
  match concatenate x (ds_features xs) y (ds_features ys) with
  | Some (out, features) =>
      Some (out, targets <- concatenate_marginals (ds_targets xs) (ds_targets ys) ;; dataset_make features targets)
  | None => None
  end.

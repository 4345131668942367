(* Words for the statements about variants. *)
From Verif Require Import Base VariantModel DatasetModel.

(* the types a value of x may have *)
Definition types_of (x : ftype) : list nat := match x with Plain t => [t] | Variant ts => ts end.
(* a variant lists every type once *)
Definition proper (x : ftype) : Prop := NoDup (types_of x).
(* a value of static type x *)
Definition typed {V} (x : ftype) (v : value V) : Prop :=
  match x, v with
  | Plain _, VPlain _ => True
  | Variant ts, VAlt i _ => i < length ts
  | _, _ => False
  end.
(* what a value is, whatever its static type: its own type and the value *)
Definition content {V} (x : ftype) (v : value V) : option (nat * V) :=
  match x, v with
  | Plain t, VPlain v => Some (t, v)
  | Variant ts, VAlt i v => match nth_error ts i with Some t => Some (t, v) | None => None end
  | _, _ => None
  end.
Definition contents {V} (x : ftype) (vs : list (value V)) : list (option (nat * V)) := map (content x) vs.
(* those of one type, in order *)
Definition of_type {V} (t : nat) (cs : list (option (nat * V))) : list V :=
  flat_map (fun c => match c with Some (u, v) => if Nat.eqb u t then [v] else [] | None => [] end) cs.
(* the entries of ws at the places where cs has type t *)
Definition at_type {V W} (t : nat) (cs : list (option (nat * V))) (ws : list W) : list W :=
  flat_map (fun cw => match fst cw with Some (u, _) => if Nat.eqb u t then [snd cw] else [] | None => [] end) (combine cs ws).
(* the value without its type *)
Definition value_of {V} (x : value V) : V := match x with VPlain v => v | VAlt _ v => v end.

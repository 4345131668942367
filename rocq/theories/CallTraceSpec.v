(* Vocabulary of C82. *)
From Coq Require Import Reals String Ascii.
From Verif Require Import Base CallTraceModel.
Open Scope string_scope.
Open Scope nat_scope.
Open Scope list_scope.

(* a call: its depth, the operator that its parent applies, its name and its value *)
Record entry := Entry { depth : nat; parent : option ascii; e_name : string; e_value : string }.
Section Spec.
Variables to_string show : R -> string.
Definition printed (f : R -> string) (v : option R) : string := match v with Some x => f x | None => "UNDEFINED" end.
(* the calls, each before those that it makes, the left one first *)
Fixpoint calls (d : nat) (p : option ascii) (c : cov) : list entry :=
  match c with
  | Leaf n _ v => [Entry d p n (printed to_string v)]
  | Sum l r => Entry d p (default_name c) (printed show (call c)) :: calls (S d) (Some "+"%char) l ++ calls (S d) (Some "+"%char) r
  | Product l r => Entry d p (default_name c) (printed show (call c)) :: calls (S d) (Some "*"%char) l ++ calls (S d) (Some "*"%char) r
  end.
End Spec.
(* one bar per level, the last of them with the operator *)
Fixpoint bars (n : nat) : string := match n with O => "" | S n' => " |  " ++ bars n' end.
Definition indented (e : entry) (s : string) : string :=
  match parent e with
  | Some op => bars (depth e - 1) ++ " |" ++ String op (String " " s)
  | None => s
  end.
Definition line (e : entry) : string * string := (indented e (e_name e), indented e (e_value e)).

(* the structure of an expression, with the names of its parts *)
Inductive shape := SLeaf (name : string) | SSum (l r : shape) | SProduct (l r : shape).
Fixpoint shape_of (c : cov) : shape :=
  match c with
  | Leaf n _ _ => SLeaf n
  | Sum l r => SSum (shape_of l) (shape_of r)
  | Product l r => SProduct (shape_of l) (shape_of r)
  end.
(* the names of the parts do not begin with a blank *)
Definition no_blank (s : string) : bool := match s with String " " _ => false | _ => true end.
Fixpoint plain (c : cov) : bool :=
  match c with Leaf n _ _ => no_blank n | Sum l r | Product l r => plain l && plain r end.
(* names do not depend on the state of the parts *)
Fixpoint stateless (c : cov) : Prop :=
  match c with Leaf n d _ => n = d | Sum l r | Product l r => stateless l /\ stateless r end.

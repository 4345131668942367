(* Outcomes of a C++ call.  Nothing in this file models albatross itself: it
   fixes how failures are represented in the models. *)
From Coq Require Export List Arith ZArith Lia Bool.
Export ListNotations.
Global Arguments Nat.ltb : simpl never.
Global Arguments Nat.eqb : simpl never.
Global Arguments Nat.leb : simpl never.

(* [Ok a]   the call returns [a];
   [Abort]  an ALBATROSS_ASSERT (or plain assert) fails, see
            details/error_handling.hpp:37-45 (debug build);
   [Throw]  a C++ exception leaves the call;
   [UB]     undefined behaviour (out of bounds access, dereference of an empty
            container, division by zero of integers, ...). *)
Inductive outcome (A : Type) : Type :=
| Ok (a : A)
| Abort
| Throw
| UB.
Arguments Ok {A} a.
Arguments Abort {A}.
Arguments Throw {A}.
Arguments UB {A}.

Definition bind {A B} (x : outcome A) (k : A -> outcome B) : outcome B :=
  match x with
  | Ok a => k a
  | Abort => Abort
  | Throw => Throw
  | UB => UB
  end.

Notation "x <- e ;; k" := (bind e (fun x => k))
  (at level 61, e at next level, right associativity).

(* ALBATROSS_ASSERT(b); rest *)
Definition assert_then {A} (b : bool) (k : outcome A) : outcome A :=
  if b then k else Abort.

(* Run a sequence of calls from left to right, stopping at the first failure. *)
Fixpoint mapM {A B} (f : A -> outcome B) (xs : list A) : outcome (list B) :=
  match xs with
  | [] => Ok []
  | x :: xs' => y <- f x ;; ys <- mapM f xs' ;; Ok (y :: ys)
  end.

(* Left fold over calls that may fail. *)
Fixpoint foldM {A S} (f : S -> A -> outcome S) (xs : list A) (s : S)
  : outcome S :=
  match xs with
  | [] => Ok s
  | x :: xs' => s' <- f s x ;; foldM f xs' s'
  end.

Definition is_ok {A} (x : outcome A) : bool :=
  match x with Ok _ => true | _ => false end.

(* Conversion of a lookup into an outcome. *)
Definition of_option {A} (err : outcome A) (o : option A) : outcome A :=
  match o with Some a => Ok a | None => err end.

(* Replace position [i] of a list; outside the list nothing happens, so users
   guard it. *)
Fixpoint set_nth {A} (l : list A) (i : nat) (a : A) : list A :=
  match l, i with
  | [], _ => []
  | _ :: l', 0 => a :: l'
  | x :: l', S i' => x :: set_nth l' i' a
  end.

(* Doubles where only comparisons matter: None is NaN, and the other values
   (including the infinities) are integers, by any order embedding. Signed zeros
   are identified. *)
From Verif Require Import Base.

Definition dbl := option Z.
Definition NaN : dbl := None.
Definition disnan (x : dbl) : bool := match x with None => true | _ => false end.
Definition dleb (x y : dbl) : bool := match x, y with Some a, Some b => (a <=? b)%Z | _, _ => false end.
Definition dltb (x y : dbl) : bool := match x, y with Some a, Some b => (a <? b)%Z | _, _ => false end.
Definition deqb (x y : dbl) : bool := match x, y with Some a, Some b => (a =? b)%Z | _, _ => false end.

(* double as an exact extended real: the arithmetic of IEEE 754 without rounding
   and overflow and without the sign of zero; infinities and NaN are kept. *)
From Coq Require Import Reals Bool.
Local Open Scope R_scope.

Inductive xr := XNeg | XFin (x : R) | XPos | XNaN.

Definition Rltb (x y : R) : bool := if Rlt_dec x y then true else false.
Definition Rleb (x y : R) : bool := if Rle_dec x y then true else false.
Definition Reqb (x y : R) : bool := if Req_EM_T x y then true else false.

(* comparisons: false as soon as one side is NaN *)
Definition xltb (a b : xr) : bool :=
  match a, b with
  | XNaN, _ | _, XNaN => false
  | XNeg, XNeg => false
  | XNeg, _ => true
  | XFin x, XFin y => Rltb x y
  | XFin _, XPos => true
  | XFin _, XNeg => false
  | XPos, _ => false
  end.
Definition xleb (a b : xr) : bool :=
  match a, b with
  | XNaN, _ | _, XNaN => false
  | XNeg, _ => true
  | XFin x, XFin y => Rleb x y
  | XFin _, XPos => true
  | XFin _, XNeg => false
  | XPos, XPos => true
  | XPos, _ => false
  end.
Definition xisnan (a : xr) : bool := match a with XNaN => true | _ => false end.
Definition xisfinite (a : xr) : bool := match a with XFin _ => true | _ => false end.

(* std::log and std::exp *)
Definition xlog (a : xr) : xr :=
  match a with
  | XFin x => if Rltb 0 x then XFin (ln x) else if Reqb x 0 then XNeg else XNaN
  | XPos => XPos
  | XNeg | XNaN => XNaN
  end.
Definition xexp (a : xr) : xr :=
  match a with
  | XFin x => XFin (exp x)
  | XPos => XPos
  | XNeg => XFin 0
  | XNaN => XNaN
  end.

Definition xopp (a : xr) : xr :=
  match a with XNeg => XPos | XFin x => XFin (- x) | XPos => XNeg | XNaN => XNaN end.
Definition xadd (a b : xr) : xr :=
  match a, b with
  | XNaN, _ | _, XNaN => XNaN
  | XFin x, XFin y => XFin (x + y)
  | XNeg, XPos | XPos, XNeg => XNaN
  | XNeg, _ | _, XNeg => XNeg
  | XPos, _ | _, XPos => XPos
  end.
Definition xsub (a b : xr) : xr := xadd a (xopp b).
Definition xscale (c : R) (a : xr) : xr :=   (* c finite *)
  match a with
  | XFin x => XFin (c * x)
  | XNaN => XNaN
  | XNeg => if Rltb 0 c then XNeg else if Rltb c 0 then XPos else XNaN
  | XPos => if Rltb 0 c then XPos else if Rltb c 0 then XNeg else XNaN
  end.
Definition xmul (a b : xr) : xr :=
  match a, b with
  | XNaN, _ | _, XNaN => XNaN
  | XFin x, _ => xscale x b
  | _, XFin y => xscale y a
  | XNeg, XNeg | XPos, XPos => XPos
  | _, _ => XNeg
  end.

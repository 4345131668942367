(* Model of stats/gaussian.hpp. *)
From Coq Require Import Reals.
From Verif Require Import ExtRealModel DistanceModel RadialModel.
Local Open Scope R_scope.

(* stats/gaussian.hpp:19-23 *)
Definition gaussian_log_pdf (deviation variance : xr) : xr :=
  let ll := xdiv (xmul (xopp deviation) deviation) (xmul (XFin 2) variance) in
  xsub ll (xscale (1 / 2) (xlog (xmul (XFin (2 * PI)) variance))).
(* stats/gaussian.hpp:25-28 *)
Definition gaussian_pdf (deviation variance : xr) : xr :=
  xdiv (xexp (xdiv (xopp (xmul deviation deviation)) (xmul (XFin 2) variance)))
       (xsqrt (xmul (XFin (2 * PI)) variance)).

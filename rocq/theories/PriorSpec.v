(* Specification vocabulary of C57: the probability densities the priors are named after. *)
From Coq Require Import Reals.
From Verif Require Import ExtRealModel.
Local Open Scope R_scope.

Definition uniform_density (lower upper x : R) : R :=
  if Rle_dec lower x then if Rle_dec x upper then / (upper - lower) else 0 else 0.
(* the density of exp(u) for u uniform on [log lower, log upper] *)
Definition log_uniform_density (lower upper x : R) : R :=
  if Rle_dec lower x then if Rle_dec x upper then / (x * ln (upper / lower)) else 0 else 0.
Definition normal_density (mu sigma x : R) : R :=
  exp (- ((x - mu) / sigma) ^ 2 / 2) / (sigma * sqrt (2 * PI)).
(* the normal distribution with mean 0 folded onto the positive numbers *)
Definition half_normal_density (sigma x : R) : R :=
  if Rle_dec 0 x then 2 * normal_density 0 sigma x else 0.
Definition log_normal_density (mu sigma x : R) : R :=
  if Rlt_dec 0 x then normal_density mu sigma (ln x) / x else 0.

(* the logarithm of a density, minus infinity where it vanishes *)
Definition log_of (d : R) : xr := if Req_EM_T d 0 then XNeg else XFin (ln d).

Definition within (lower upper x : xr) : Prop := xleb lower x = true /\ xleb x upper = true.

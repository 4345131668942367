(* Model of covariance_functions/noise.hpp, nugget.hpp and polynomials.hpp in exact arithmetic: parameters and numbers
   are elements of a ring. The values of the parameters are arguments; parameter handling is ParamsModel.v. *)
From mathcomp Require Import all_ssreflect all_algebra.
Set Implicit Arguments.
Unset Strict Implicit.
Unset Printing Implicit Defensive.
Import GRing.Theory.
Local Open Scope ring_scope.

Section Model.
Variable F : ringType.

(* IndependentNoise::_call_impl, covariance_functions/noise.hpp:36-42; same is operator== of the feature type *)
Definition independent_noise X (same : X -> X -> bool) (sigma_independent_noise : F) (x y : X) : F :=
  if same x y then sigma_independent_noise * sigma_independent_noise else 0.
(* Nugget::_call_impl, covariance_functions/nugget.hpp:40-48 *)
Definition nugget X (same : X -> X -> bool) (nugget_sigma : F) (x y : X) : F :=
  if same x y then nugget_sigma * nugget_sigma else 0.
(* Constant::_call_impl, covariance_functions/polynomials.hpp:56-60 *)
Definition constant X Y (sigma_constant : F) (x : X) (y : Y) : F := sigma_constant * sigma_constant.
(* Constant::get_state_space_representation, covariance_functions/polynomials.hpp:43-48: one ConstantTerm *)
Definition constant_state_space X (features : seq X) : seq unit := [:: tt].
(* Polynomial<order>::_call_impl, covariance_functions/polynomials.hpp:77-85; pow(x, 0.) is 1 also at 0 *)
Definition polynomial (order : nat) (sigma : nat -> F) (x y : F) : F :=
  foldl (fun cov i => cov + sigma i * sigma i * x ^+ i * y ^+ i) 0 (iota 0 order.+1).
(* LinearMean::_call_impl, covariance_functions/polynomials.hpp:102-104 *)
Definition linear_mean (slope offset x : F) : F := slope * x + offset.
End Model.

(* Model in double precision of the distances and radial covariance functions whose real number versions are in
   DistanceModel and RadialModel. *)
From Coq Require Import ZArith.
From Verif Require Import Base.
From Flocq Require Import IEEE754.BinarySingleNaN.
From Verif Require Import FloatModel.

(* EuclideanDistance of doubles, covariance_functions/distance_metrics.hpp:36-38 *)
Definition euclidean (x y : b64) : b64 := fabs (fsub x y).

(* EPSILON, covariance_functions/distance_metrics.hpp:18: the double closest to 1e-16, which is the rounded quotient of
   the doubles 1 and 1e16 *)
Definition EPSILON : b64 := fdiv fone (fval 10000000000000000 0).
(* M_PI of math.h, 0x1.921fb54442d18p+1 *)
Definition M_PI : b64 := fval 884279719003555 (-48).

Section Norm.
(* Eigen adds the entries of a vector in an order of its own: any function of the entries *)
Variable redux : list b64 -> b64.
(* norm: the root of the sum of the squares *)
Definition fnorm (v : list b64) : b64 := fsqrt (redux (map (fun a => fmul a a) v)).
Definition fdot (x y : list b64) : b64 := redux (map (fun ab => fmul (fst ab) (snd ab)) (combine x y)).
(* EuclideanDistance of vectors, covariance_functions/distance_metrics.hpp:40-44; Eigen asserts equal sizes *)
Definition euclidean_vector (x y : list b64) : outcome b64 :=
  assert_then (length x =? length y) (Ok (fnorm (map (fun ab => fsub (fst ab) (snd ab)) (combine x y)))).
(* radial_distance, covariance_functions/distance_metrics.hpp:47-51 *)
Definition radial_distance (x y : list b64) : b64 := fabs (fsub (fnorm x) (fnorm y)).
(* acos of the C library *)
Variable acos_ : b64 -> b64.
(* angular_distance, covariance_functions/distance_metrics.hpp:64-78; Eigen asserts equal sizes *)
Definition angular_distance (x y : list b64) : outcome b64 :=
  assert_then (length x =? length y)
    (let dot_product := fdiv (fdot x y) (fmul (fnorm x) (fnorm y)) in
     Ok (if flt (fsub fone EPSILON) dot_product then fzero
         else if flt dot_product (fadd (fneg fone) EPSILON) then M_PI else acos_ dot_product)).
End Norm.

Section Radial.
(* exp and x -> pow(x, 2) of the C library *)
Variables (exp_ pow2 : b64 -> b64).
(* squared_exponential_covariance, covariance_functions/radial.hpp:25-33 *)
Definition squared_exponential (distance length_scale sigma : b64) : outcome b64 :=
  if fle length_scale fzero then Ok fzero
  else assert_then (fle fzero distance)
    (Ok (fmul (fmul sigma sigma) (exp_ (fneg (pow2 (fdiv distance length_scale)))))).
(* exponential_covariance, covariance_functions/radial.hpp:191-198 *)
Definition exponential (distance length_scale sigma : b64) : outcome b64 :=
  if fle length_scale fzero then Ok fzero
  else assert_then (fle fzero distance)
    (Ok (fmul (fmul sigma sigma) (exp_ (fneg (fabs (fdiv distance length_scale)))))).
(* matern_32_covariance, covariance_functions/radial.hpp:289-297 *)
Definition matern_32 (distance length_scale sigma : b64) : outcome b64 :=
  if fle length_scale fzero then Ok fzero
  else assert_then (fle fzero distance)
    (let sqrt_3_d := fdiv (fmul (fsqrt (fval 3 0)) distance) length_scale in
     Ok (fmul (fmul (fmul sigma sigma) (fadd fone sqrt_3_d)) (exp_ (fneg sqrt_3_d)))).
(* matern_52_covariance, covariance_functions/radial.hpp:461-470 *)
Definition matern_52 (distance length_scale sigma : b64) : outcome b64 :=
  if fle length_scale fzero then Ok fzero
  else assert_then (fle fzero distance)
    (let s := fdiv (fmul (fsqrt (fval 5 0)) distance) length_scale in
     Ok (fmul (fmul (fmul sigma sigma) (fadd (fadd fone s) (fdiv (fmul s s) (fval 3 0)))) (exp_ (fneg s)))).
End Radial.

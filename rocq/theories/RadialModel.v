(* Model of covariance_functions/radial.hpp: doubles are exact extended reals (ExtRealModel.v). Failed
   assertions are Abort. *)
From Coq Require Import Reals.
From Verif Require Import Base ExtRealModel DistanceModel.
Local Open Scope R_scope.

(* std::sqrt, fabs, std::min and std::max *)
Definition xsqrt (a : xr) : xr :=
  match a with
  | XFin x => if Rltb x 0 then XNaN else XFin (sqrt x)
  | XPos => XPos
  | XNeg | XNaN => XNaN
  end.
Definition xabs (a : xr) : xr :=
  match a with XFin x => XFin (Rabs x) | XNeg | XPos => XPos | XNaN => XNaN end.
Definition std_min (a b : xr) : xr := if xltb b a then b else a.
Definition std_max (a b : xr) : xr := if xltb a b then b else a.
Definition xgtb (a b : xr) : bool := xltb b a.
Definition xgeb (a b : xr) : bool := xleb b a.
(* pow(x, 2) and pow(x, 3) *)
Definition xpow2 (a : xr) : xr := xmul a a.
Definition xpow3 (a : xr) : xr := xmul a (xmul a a).
(* a literal *)
Definition lit (x : R) : xr := XFin x.

(* radial.hpp:21-23 *)
Definition MAX_NEWTON_ITERATIONS : nat := 50.
Definition MAX_LENGTH_SCALE_RATIO : R := 10 ^ 7.
Definition MIN_LENGTH_SCALE_RATIO : R := / 10 ^ 7.

(* squared_exponential_covariance, radial.hpp:25-33 *)
Definition squared_exponential_covariance (distance length_scale sigma : xr) : outcome xr :=
  if xleb length_scale (lit 0) then Ok (lit 0)
  else assert_then (xgeb distance (lit 0))
         (Ok (xmul (xmul sigma sigma) (xexp (xopp (xpow2 (xdiv distance length_scale)))))).
(* exponential_covariance, radial.hpp:191-198 *)
Definition exponential_covariance (distance length_scale sigma : xr) : outcome xr :=
  if xleb length_scale (lit 0) then Ok (lit 0)
  else assert_then (xgeb distance (lit 0))
         (Ok (xmul (xmul sigma sigma) (xexp (xopp (xabs (xdiv distance length_scale)))))).
(* matern_32_covariance, radial.hpp:289-297 *)
Definition matern_32_covariance (distance length_scale sigma : xr) : outcome xr :=
  if xleb length_scale (lit 0) then Ok (lit 0)
  else assert_then (xgeb distance (lit 0))
         (let sqrt_3_d := xdiv (xmul (xsqrt (lit 3)) distance) length_scale in
          Ok (xmul (xmul (xmul sigma sigma) (xadd (lit 1) sqrt_3_d)) (xexp (xopp sqrt_3_d)))).
(* matern_52_covariance, radial.hpp:461-470 *)
Definition matern_52_covariance (distance length_scale sigma : xr) : outcome xr :=
  if xleb length_scale (lit 0) then Ok (lit 0)
  else assert_then (xgeb distance (lit 0))
         (let sqrt_5_d := xdiv (xmul (xsqrt (lit 5)) distance) length_scale in
          Ok (xmul (xmul (xmul sigma sigma)
                         (xadd (xadd (lit 1) sqrt_5_d) (xdiv (xmul sqrt_5_d sqrt_5_d) (lit 3))))
                   (xexp (xopp sqrt_5_d)))).

(* SquaredExponential, Exponential, Matern32 and Matern52::_call_impl, radial.hpp:177-186, 276-284,
   448-456 and 518-526: the function of the distance *)
Section Call.
Context {X : Type}.
Variable distance_metric : X -> X -> outcome xr.
Variable covariance : xr -> xr -> xr -> outcome xr.
Definition radial_call (length_scale sigma : xr) (x y : X) : outcome xr :=
  distance <- distance_metric x y ;;
  covariance distance length_scale sigma.
End Call.

(* process_noise_equivalent, radial.hpp:35-49 *)
Definition process_noise_equivalent (func : xr -> outcome xr) (distance : xr) : outcome xr :=
  k0 <- func (lit 0) ;;
  kd <- func distance ;;
  Ok (xsqrt (xsub k0 (xdiv (xmul kd kd) k0))).

(* detail::valid_args_for_derive_length_scale, radial.hpp:53-59 *)
Definition valid_args_for_derive_length_scale (reference_distance prior_sigma std_dev_increase : xr)
  : outcome bool :=
  assert_then (xgtb reference_distance (lit 0))
    (Ok (xgtb std_dev_increase (lit 0) && xgtb prior_sigma (lit 0) && xltb std_dev_increase prior_sigma)).
(* detail::fallback_length_scale_for_invalid_args, radial.hpp:61-88 *)
Definition fallback_length_scale_for_invalid_args (reference_distance prior_sigma std_dev_increase : xr)
  : outcome xr :=
  if xleb std_dev_increase (lit 0) then Ok (xmul (lit MAX_LENGTH_SCALE_RATIO) reference_distance)
  else if xleb prior_sigma (lit 0) then Ok (xmul (lit MAX_LENGTH_SCALE_RATIO) reference_distance)
  else
    let ratio := xdiv std_dev_increase prior_sigma in
    assert_then (xgtb ratio (lit 0))
      (if xgeb ratio (lit 1) then Ok (xmul (lit MIN_LENGTH_SCALE_RATIO) reference_distance)
       else if xleb ratio (lit 0) then Ok (xmul (lit MAX_LENGTH_SCALE_RATIO) reference_distance)
       else Abort).

(* derive_squared_exponential_length_scale, radial.hpp:91-125 *)
Definition derive_squared_exponential_length_scale (reference_distance prior_sigma std_dev_increase : xr)
  : outcome xr :=
  valid <- valid_args_for_derive_length_scale reference_distance prior_sigma std_dev_increase ;;
  if negb valid then fallback_length_scale_for_invalid_args reference_distance prior_sigma std_dev_increase
  else
    let ratio := xdiv std_dev_increase prior_sigma in
    assert_then (xgtb ratio (lit 0)) (assert_then (xltb ratio (lit 1))
      (Ok (xdiv (xmul (xsqrt (lit 2)) reference_distance)
                (xsqrt (xopp (xlog (xsub (lit 1) (xmul ratio ratio)))))))).
(* derive_exponential_length_scale, radial.hpp:200-233 *)
Definition derive_exponential_length_scale (reference_distance prior_sigma std_dev_increase : xr)
  : outcome xr :=
  valid <- valid_args_for_derive_length_scale reference_distance prior_sigma std_dev_increase ;;
  if negb valid then fallback_length_scale_for_invalid_args reference_distance prior_sigma std_dev_increase
  else
    let ratio := xdiv std_dev_increase prior_sigma in
    assert_then (xgtb ratio (lit 0)) (assert_then (xltb ratio (lit 1))
      (Ok (xdiv (xmul (lit (-2)) reference_distance) (xlog (xsub (lit 1) (xmul ratio ratio)))))).

(* detail::newton_solve, radial.hpp:301-330: [iterations] are left *)
Section Newton.
Variables (target : xr) (func grad : xr -> outcome xr) (lower_bound upper_bound tolerance : xr).
Fixpoint newton_loop (iterations : nat) (guess : xr) : outcome xr :=
  match iterations with
  | O => Ok guess
  | S iterations' =>
      f_i <- func guess ;;
      let error := xsub target f_i in
      if negb (xisfinite error) then Ok guess
      else
        g_i <- grad guess ;;
        let delta := xdiv error g_i in
        if xltb (xabs error) tolerance then Ok guess
        else
          let next := if xleb (xsub guess delta) lower_bound then xmul (lit (1 / 2)) (xadd guess lower_bound)
                      else if xgeb (xsub guess delta) upper_bound then xmul (lit (1 / 2)) (xadd guess upper_bound)
                      else xsub guess delta in
          newton_loop iterations' (std_min upper_bound (std_max lower_bound next))
  end.
Definition newton_solve (guess : xr) : outcome xr := newton_loop MAX_NEWTON_ITERATIONS guess.
End Newton.

(* detail::derive_length_scale, radial.hpp:332-399 *)
Definition log_f_eval (func : xr -> outcome xr) (prior_sigma ratio : xr) : outcome xr :=
  cov <- func ratio ;;
  if xgeb (xmul cov cov) (lit 1) then Ok (xlog (lit (/ 10 ^ 16)))
  else Ok (xadd (xlog prior_sigma) (xmul (lit (1 / 2)) (xlog (xsub (lit 1) (xmul cov cov))))).
Definition log_g_eval (func grad : xr -> outcome xr) (ratio : xr) : outcome xr :=
  cov <- func ratio ;;
  let denom := xsub (lit 1) (xmul cov cov) in
  assert_then (xgtb denom (lit 0)) (g <- grad ratio ;; Ok (xdiv (xmul g cov) denom)).
Definition interpolated_guess (max_increase min_increase log_target : xr) : xr :=
  let alpha := xdiv (xsub max_increase log_target) (xsub max_increase min_increase) in
  xexp (xadd (xlog (lit MIN_LENGTH_SCALE_RATIO))
             (xmul alpha (xsub (xlog (lit MAX_LENGTH_SCALE_RATIO)) (xlog (lit MIN_LENGTH_SCALE_RATIO))))).
Definition derive_length_scale (func grad : xr -> outcome xr)
    (reference_distance prior_sigma std_dev_increase : xr) : outcome xr :=
  valid <- valid_args_for_derive_length_scale reference_distance prior_sigma std_dev_increase ;;
  if negb valid then fallback_length_scale_for_invalid_args reference_distance prior_sigma std_dev_increase
  else
    let log_target := xlog std_dev_increase in
    max_increase <- log_f_eval func prior_sigma (lit MIN_LENGTH_SCALE_RATIO) ;;
    if xleb max_increase log_target then Ok (xmul (lit MIN_LENGTH_SCALE_RATIO) reference_distance)
    else
      min_increase <- log_f_eval func prior_sigma (lit MAX_LENGTH_SCALE_RATIO) ;;
      if xgeb min_increase log_target then Ok (xmul (lit MAX_LENGTH_SCALE_RATIO) reference_distance)
      else
        solution <- newton_solve log_target (log_f_eval func prior_sigma) (log_g_eval func grad)
                      (lit MIN_LENGTH_SCALE_RATIO) (lit MAX_LENGTH_SCALE_RATIO) (lit (/ 10 ^ 12))
                      (interpolated_guess max_increase min_increase log_target) ;;
        Ok (xmul solution reference_distance).

(* derive_matern_32_length_scale, radial.hpp:403-419 *)
Definition matern_32_func (ratio : xr) : outcome xr := matern_32_covariance (lit 1) ratio (lit 1).
Definition matern_32_grad (ratio : xr) : outcome xr :=
  let sqrt_3 := xsqrt (lit 3) in
  let e := xexp (xdiv (xopp sqrt_3) ratio) in
  Ok (xsub (xdiv (xmul (xmul sqrt_3 (xadd (lit 1) (xdiv sqrt_3 ratio))) e) (xpow2 ratio))
           (xdiv (xmul sqrt_3 e) (xpow2 ratio))).
Definition derive_matern_32_length_scale : xr -> xr -> xr -> outcome xr :=
  derive_length_scale matern_32_func matern_32_grad.
(* derive_matern_52_length_scale, radial.hpp:472-489 *)
Definition matern_52_func (ratio : xr) : outcome xr := matern_52_covariance (lit 1) ratio (lit 1).
Definition matern_52_grad (ratio : xr) : outcome xr :=
  let sqrt_5 := xsqrt (lit 5) in
  let e := xexp (xdiv (xopp sqrt_5) ratio) in
  Ok (xadd (xmul (xsub (xdiv (xopp sqrt_5) (xpow2 ratio)) (xdiv (xdiv (lit 10) (lit 3)) (xpow3 ratio))) e)
           (xdiv (xmul (xmul sqrt_5 (xadd (xadd (lit 1) (xdiv sqrt_5 ratio))
                                          (xdiv (xdiv (lit 10) (lit 6)) (xpow2 ratio)))) e)
                 (xpow2 ratio))).
Definition derive_matern_52_length_scale : xr -> xr -> xr -> outcome xr :=
  derive_length_scale matern_52_func matern_52_grad.

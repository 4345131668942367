(* Model of linspace (utils/vector_utils.hpp), of the inducing point strategies of models/sparse_gp.hpp and of the state space
   representations of covariance_functions/radial.hpp and covariance_function.hpp. A double is an extended real
   (ExtRealModel.v); what std::min_element and std::max_element do with NaN is as here, with std::less. *)
From Coq Require Import Reals List ZArith.
From Verif Require Import Base ExtRealModel DistanceModel RadialModel RandomModel.
Import ListNotations.
Local Open Scope R_scope.

(* utils/vector_utils.hpp:18-22. The conversion truncates; of a value below 0 after truncation it is undefined *)
Definition safe_cast_to_size_t (x : xr) : outcome nat :=
  assert_then (xltb x (XFin (2 ^ 64)))
    (match x with
     | XFin v => if Rltb (-1) v then Ok (Z.to_nat (Int_part v)) else UB
     | _ => UB
     end).

(* the loop of utils/vector_utils.hpp:27-31 *)
Fixpoint linspace_loop (val step : xr) (n : nat) : list xr :=
  match n with
  | O => []
  | S n => val :: linspace_loop (xadd val step) step n
  end.
(* cast::to_double of a size_t, details/typecast.hpp:34-42 *)
Definition to_double (input : Z) : outcome xr := assert_then (input <=? 2 ^ 53)%Z (Ok (XFin (IZR input))).
(* utils/vector_utils.hpp:24-33; n - 1 of a size_t *)
Definition linspace (a b : xr) (n : nat) : outcome (list xr) :=
  intervals <- to_double (wrap64 (Z.of_nat n - 1)) ;;
  let step := xdiv (xsub b a) intervals in
  Ok (linspace_loop a step n).

(* *std::min_element(xs.begin(), xs.end()) and *std::max_element *)
Definition min_element (xs : list xr) : outcome xr :=
  match xs with
  | [] => UB
  | x :: rest => Ok (fold_left (fun smallest y => if xltb y smallest then y else smallest) rest x)
  end.
Definition max_element (xs : list xr) : outcome xr :=
  match xs with
  | [] => UB
  | x :: rest => Ok (fold_left (fun largest y => if xltb largest y then y else largest) rest x)
  end.

(* UniformlySpacedInducingPoints::operator(), models/sparse_gp.hpp:34-47 *)
Definition uniformly_spaced (num_points : nat) (features : list xr) : outcome (list xr) :=
  min <- min_element features ;;
  max <- max_element features ;;
  linspace min max num_points.

(* std::ceil *)
Definition xceil (x : xr) : xr :=
  match x with XFin v => XFin (- IZR (Int_part (- v))) | _ => x end.

(* SquaredExponential::_ssr_impl, covariance_functions/radial.hpp:158-168 *)
Definition squared_exponential_ssr (squared_exponential_length_scale : xr) (xs : list xr) : outcome (list xr) :=
  min <- min_element xs ;;
  max <- max_element xs ;;
  let range := xsub max min in
  let n := xceil (xdiv (xmul (XFin 10) range) squared_exponential_length_scale) in
  let n := std_max n (XFin 3) in
  n <- safe_cast_to_size_t n ;;
  linspace min max n.
(* Exponential::_ssr_impl, covariance_functions/radial.hpp:257-267 *)
Definition exponential_ssr (exponential_length_scale : xr) (xs : list xr) : outcome (list xr) :=
  min <- min_element xs ;;
  max <- max_element xs ;;
  let range := xsub max min in
  let n := xceil (xdiv (xmul (XFin 20) range) exponential_length_scale) in
  let n := std_max n (XFin 3) in
  n <- safe_cast_to_size_t n ;;
  linspace min max n.

(* state_space_representation of a covariance function, covariance_functions/covariance_function.hpp:170-175: None when it has
   no _ssr_impl, which does not compile *)
Definition representation := option (list xr -> outcome (list xr)).
(* Sum and product, covariance_functions/covariance_function.hpp:296-319 and 391-414, for representations of the same type *)
Definition both_ssr (lhs rhs : representation) : representation :=
  match lhs, rhs with
  | Some l, Some r => Some (fun xs => a <- l xs ;; b <- r xs ;; Ok (a ++ b))
  | Some l, None => Some l
  | None, Some r => Some r
  | None, None => None
  end.
(* StateSpaceInducingPointStrategy::operator(), models/sparse_gp.hpp:49-71 *)
Definition state_space_strategy (cov : representation) (features : list xr) : option (outcome (list xr)) :=
  option_map (fun ssr => ssr features) cov.

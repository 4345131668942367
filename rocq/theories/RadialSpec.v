(* Specification vocabulary of C51, C52 and C53. *)
From Coq Require Import Reals.
From Verif Require Import Base ExtRealModel RadialModel.
Local Open Scope R_scope.

(* the stationary covariance functions, with variance 1 and length scale 1, at distance r *)
Inductive shape := SquaredExponential | Exponential | Matern32 | Matern52.
Definition rho (s : shape) (r : R) : R :=
  match s with
  | SquaredExponential => exp (- r ^ 2)
  | Exponential => exp (- r)
  | Matern32 => (1 + sqrt 3 * r) * exp (- (sqrt 3 * r))
  | Matern52 => (1 + sqrt 5 * r + 5 * r ^ 2 / 3) * exp (- (sqrt 5 * r))
  end.
(* the functions of the code they belong to *)
Definition covariance_of (s : shape) : xr -> xr -> xr -> outcome xr :=
  match s with
  | SquaredExponential => squared_exponential_covariance
  | Exponential => exponential_covariance
  | Matern32 => matern_32_covariance
  | Matern52 => matern_52_covariance
  end.
Definition derive_of (s : shape) : xr -> xr -> xr -> outcome xr :=
  match s with
  | SquaredExponential => derive_squared_exponential_length_scale
  | Exponential => derive_exponential_length_scale
  | Matern32 => derive_matern_32_length_scale
  | Matern52 => derive_matern_52_length_scale
  end.

(* (f_0, f_d) Gaussian with variances k0 and covariance kd: the standard deviation of f_d given f_0 *)
Definition conditional_std (k0 kd : R) : R := sqrt (k0 - kd * kd / k0).
(* ... when the standard deviation is sigma and the length scale is length_scale *)
Definition noise_after (s : shape) (distance length_scale sigma : R) : R :=
  conditional_std (sigma ^ 2) (sigma ^ 2 * rho s (distance / length_scale)).

(* a value between two bounds; false for NaN *)
Definition in_bounds (lower upper : R) (v : xr) : Prop :=
  exists x, v = XFin x /\ lower <= x <= upper.

(* the safeguarded Newton iteration for f(x) = target, where slope is minus the derivative of f: a step that
   leaves the open interval goes half way to the bound *)
Definition safeguarded_step (target : R) (f slope : R -> R) (lower upper g : R) : R :=
  let z := g - (target - f g) / slope g in
  if Rle_dec z lower then (g + lower) / 2 else if Rle_dec upper z then (g + upper) / 2 else z.
Fixpoint safeguarded_iterate (target : R) (f slope : R -> R) (lower upper g : R) (k : nat) : R :=
  match k with
  | O => g
  | S k' => safeguarded_step target f slope lower upper (safeguarded_iterate target f slope lower upper g k')
  end.
(* r is the first of the iterates 0, ..., limit whose error is below the tolerance, or the last one *)
Definition newton_result (target : R) (f slope : R -> R) (lower upper tolerance g : R) (limit : nat) (r : R) : Prop :=
  let x := safeguarded_iterate target f slope lower upper g in
  exists k, (k <= limit)%nat /\ r = x k /\
    (forall i, (i < k)%nat -> tolerance <= Rabs (target - f (x i))) /\
    (k = limit \/ Rabs (target - f (x k)) < tolerance).

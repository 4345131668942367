(* Specification vocabulary: the error function, normal distributions and improper integrals. *)
From Coq Require Import Reals.
Local Open Scope R_scope.

(* f t tends to l as t tends to minus infinity, plus infinity *)
Definition limit_low (f : R -> R) (l : R) : Prop := forall eps, 0 < eps -> exists m, forall t, t < m -> Rabs (f t - l) < eps.
Definition limit_high (f : R -> R) (l : R) : Prop := forall eps, 0 < eps -> exists m, forall t, m < t -> Rabs (f t - l) < eps.

(* the contract of std::erf *)
Definition is_erf (erf : R -> R) : Prop :=
  erf 0 = 0 /\
  (forall x, derivable_pt_lim erf x (2 / sqrt PI * exp (- (x * x)))) /\
  limit_high erf 1.

(* the integrals of f over (-inf, b] and [a, +inf): the increment of an antiderivative *)
Definition integral_to (f : R -> R) (b v : R) : Prop :=
  exists G l, (forall t, derivable_pt_lim G t (f t)) /\ limit_low G l /\ v = G b - l.
Definition integral_from (f : R -> R) (a v : R) : Prop :=
  exists G l, (forall t, derivable_pt_lim G t (f t)) /\ limit_high G l /\ v = l - G a.

(* density and distribution function of N(mu, sigma^2) *)
Definition normal_pdf (mu sigma t : R) : R := exp (- ((t - mu) / sigma) ^ 2 / 2) / (sigma * sqrt (2 * PI)).
Definition normal_cdf (erf : R -> R) (mu sigma t : R) : R := (1 + erf ((t - mu) / (sigma * sqrt 2))) / 2.

(* the mean of |X| for X ~ N(mu, sigma^2) in closed form *)
Definition mean_abs_normal (erf : R -> R) (mu sigma : R) : R :=
  sigma * sqrt (2 / PI) * exp (- (mu * mu) / (2 * (sigma * sigma))) + Rabs mu * erf (Rabs mu / (sigma * sqrt 2)).

(* Polynomials for the quadrature rule. *)
From Coq Require Import Reals List.
From Coquelicot Require Series.
From Verif Require Import ExtRealModel.
Import ListNotations.
Local Open Scope R_scope.

(* c0 + c1 t + c2 t^2 + ... *)
Fixpoint poly (c : list R) (t : R) : R := match c with [] => 0 | x :: c => x + t * poly c t end.
(* |c0| + |c1| + ... *)
Fixpoint abs_sum (c : list R) : R := match c with [] => 0 | x :: c => Rabs x + abs_sum c end.
(* the coordinate which is -1 at lb and 1 at ub *)
Definition normalised (lb ub x : R) : R := (2 * x - (ub + lb)) / (ub - lb).

(* the incomplete gamma function, https://dlmf.nist.gov/8.7.E1: the integral of t^(a-1) exp(-t) over [0, z] is
   z^a exp(-z) (1/a + z/(a(a+1)) + z^2/(a(a+1)(a+2)) + ...) *)
Fixpoint rising (a : R) (n : nat) : R := match n with O => 1 | S n => rising a n * (a + INR n) end.
Definition lower_gamma_series (a z : R) : R := Series.Series (fun k => / rising a (S k) * z ^ k).
Definition lower_gamma (a z : R) : R := exp (a * ln z - z) * lower_gamma_series a z.
(* g is the gamma function at a: the least upper bound of the integrals *)
Definition is_gamma (a g : R) : Prop := is_lub (fun y => exists z, 0 < z /\ y = lower_gamma a z) g.
(* the contract of std::tgamma and std::lgamma on positive arguments, in exact arithmetic *)
Definition gamma_contract (tgamma lgamma : xr -> xr) : Prop :=
  forall a, 0 < a -> exists g, is_gamma a g /\ tgamma (XFin a) = XFin g /\ lgamma (XFin a) = XFin (ln g).
(* the density of the gamma distribution with shape a, where g is the gamma function at a *)
Definition gamma_density (a g x : R) : R := exp ((a - 1) * ln x - x) / g.
(* the integral of t^(a-1) exp(-t) up to z, for every z *)
Definition gamma_mass (a z : R) : R := if Rlt_dec 0 z then lower_gamma a z else 0.
(* the interval around a used for large a *)
Definition window_lower (a z : R) : R := Rmax 0 (Rmin z a - 12 * sqrt a).
Definition window_upper (a z : R) : R := Rmin z (a + 13 * sqrt (a + 1)).

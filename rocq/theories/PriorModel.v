(* Model of core/priors.hpp. Parameters of the Gaussian priors are finite. *)
From Coq Require Import Reals.
From Coq Require Import String.
From Verif Require Import ExtRealModel.
Local Open Scope R_scope.

(* PossiblePriors, core/priors.hpp:196-199, and PriorContainer 201-253, which
   forwards to the alternative it holds. *)
Inductive prior :=
| UninformativePrior | FixedPrior | NonNegativePrior | PositivePrior
| UniformPrior (lower upper : xr) | LogScaleUniformPrior (lower upper : xr)
| GaussianPrior (mu sigma : R) | LogNormalPrior (mu sigma : R) | PositiveGaussianPrior (mu sigma : R).

(* std::numeric_limits<double>::epsilon() *)
Definition double_epsilon : R := / 2 ^ 52.
Definition LOG_2_ : R := ln 2.         (* core/priors.hpp:18, a rounded constant there *)
Definition LOG_2PI_ : R := ln (2 * PI). (* core/priors.hpp:19, likewise *)

(* lower_bound, core/priors.hpp:34, 62-64, 72, 89, 153 *)
Definition lower_bound (p : prior) : xr :=
  match p with
  | PositivePrior => XFin double_epsilon
  | NonNegativePrior | PositiveGaussianPrior _ _ => XFin 0
  | UniformPrior lower _ | LogScaleUniformPrior lower _ => lower
  | UninformativePrior | FixedPrior | GaussianPrior _ _ | LogNormalPrior _ _ => XNeg
  end.

(* upper_bound, core/priors.hpp:35, 65, 73, 90, 155 *)
Definition upper_bound (p : prior) : xr :=
  match p with
  | UniformPrior _ upper | LogScaleUniformPrior _ upper => upper
  | PositiveGaussianPrior _ sigma => XFin (10 * sigma)
  | _ => XPos
  end.

(* is_log_scale, core/priors.hpp:36 and 118; is_fixed, 37 and 55 *)
Definition is_log_scale (p : prior) : bool :=
  match p with LogScaleUniformPrior _ _ => true | _ => false end.
Definition is_fixed (p : prior) : bool :=
  match p with FixedPrior => true | _ => false end.

(* log_pdf, core/priors.hpp:47, 53, 60, 70, 92-98, 135-138, 163-166, 186-189 *)
Definition log_pdf (p : prior) (x : xr) : xr :=
  match p with
  | UninformativePrior | FixedPrior => XFin 0
  | PositivePrior => if xltb (XFin 0) x then XFin 0 else XNeg
  | NonNegativePrior => if xleb (XFin 0) x then XFin 0 else XNeg
  | UniformPrior lower upper | LogScaleUniformPrior lower upper =>
      if (xleb lower x && xleb x upper)%bool then xopp (xlog (xsub upper lower)) else XNeg
  | GaussianPrior mu sigma =>
      let deviation := xscale (/ sigma) (xsub x (XFin mu)) in
      xscale (-1 / 2) (xadd (XFin (LOG_2PI_ * 2 * ln sigma)) (xmul deviation deviation))
  | PositiveGaussianPrior mu sigma =>
      let deviation := xscale (/ sigma) (xsub x (XFin mu)) in
      xadd (xscale (-1 / 2) (xadd (XFin (LOG_2PI_ * 2 * ln sigma)) (xmul deviation deviation))) (XFin LOG_2_)
  | LogNormalPrior mu sigma =>
      let deviation := xscale (/ sigma) (xsub (xlog x) (XFin mu)) in
      xsub (xsub (XFin (-1 / 2 * LOG_2PI_ - ln sigma)) (xlog x)) (xmul deviation deviation)
  end.
(* The order of the additions does not matter in exact arithmetic. sigma > 0 is
   assumed by the theorems, so that dividing is multiplying by the inverse and log
   is ln. *)

(* what the constructors assert, core/priors.hpp:78-81, 106-110 *)
Definition prior_constructible (p : prior) : Prop :=
  match p with
  | UniformPrior lower upper => xltb lower upper = true
  | LogScaleUniformPrior lower upper =>
      xltb lower upper = true /\ xltb (XFin 0) upper = true /\ xltb (XFin 0) lower = true
  | _ => True
  end.

Section Equality.
(* oss << x for a double, with the default precision of six significant digits *)
Variable print : xr -> string.
(* get_name, core/priors.hpp:46, 52, 61, 71, 83-87, 112-116, 129-133, 157-161, 180-184 *)
Definition prior_name (p : prior) : string :=
  let bounds name (a b : xr) := (name ++ "[" ++ print a ++ "," ++ print b ++ "]")%string in
  match p with
  | UninformativePrior => "uninformative"
  | FixedPrior => "fixed"
  | NonNegativePrior => "non_negative"
  | PositivePrior => "positive"
  | UniformPrior lower upper => bounds "uniform"%string lower upper
  | LogScaleUniformPrior lower upper => bounds "log_scale_uniform"%string lower upper
  | GaussianPrior mu sigma => bounds "gaussian"%string (XFin mu) (XFin sigma)
  | LogNormalPrior mu sigma => bounds "log_normal"%string (XFin mu) (XFin sigma)
  | PositiveGaussianPrior mu sigma => bounds "positive_gaussian"%string (XFin mu) (XFin sigma)
  end.
(* PriorContainer::operator==, core/priors.hpp:244-246: equality of the variants, which is the operator== of the
   alternative both of them hold (125-127, 149-151, 176-178) or else that of Prior (38-40) *)
Definition prior_equal (p q : prior) : bool :=
  match p, q with
  | GaussianPrior mu sigma, GaussianPrior mu' sigma'
  | LogNormalPrior mu sigma, LogNormalPrior mu' sigma'
  | PositiveGaussianPrior mu sigma, PositiveGaussianPrior mu' sigma' => (Reqb mu' mu && Reqb sigma' sigma)%bool
  | UninformativePrior, UninformativePrior | FixedPrior, FixedPrior
  | NonNegativePrior, NonNegativePrior | PositivePrior, PositivePrior
  | UniformPrior _ _, UniformPrior _ _ | LogScaleUniformPrior _ _, LogScaleUniformPrior _ _ =>
      String.eqb (prior_name p) (prior_name q)
  | _, _ => false
  end.
End Equality.

(* Vocabulary for C30, C31 and C65. *)
From Coq Require Import Reals String.
From Verif Require Import Base StdMapModel StringKeyModel ExtRealModel PriorModel ParamsModel ParamsSpec TuningModel.

(* the same parameters and priors; the fixed ones with the same value *)
Definition same_shape (a b : store) : Prop :=
  Forall2 (fun x y => fst x = fst y /\ p_prior (snd x) = p_prior (snd y) /\
                      (param_fixed (snd x) = true -> snd y = snd x)) a b.

(* what get_tunable_parameters needs, and bounds that are in order *)
Definition store_ok (s : store) : Prop :=
  wf_map s /\ Forall (fun kp => prior_constructible (p_prior (snd kp))) s /\
  Forall (fun kp => not_outside (snd kp)) (tunables s) /\
  Forall (fun kp => xleb (lb (snd kp)) (ub (snd kp)) = true) (tunables s).

(* the store with one parameter moved to a value, seen by optimizers, clamped *)
Definition moved_to (k : string) (p : parameter) (v : xr) (s : store) : store :=
  massign k (Param (clamp p (unseen p v)) (p_prior p)) s.

(* the step of the finite differences *)
Definition fd_step (p : parameter) : R :=
  match xsub (seen p (ub p)) (seen p (lb p)) with
  | XFin range => (/ 100000000 * range)%R
  | _ => (/ 1000000)%R
  end.

(* one entry of the gradient *)
Definition fd_raw (f : store -> xr) (s : store) (f_val : xr) (kp : string * parameter) : xr :=
  let (k, p) := kp in
  xdivr (xsub (f (moved_to k p (xadd (seen p (p_value p)) (XFin (fd_step p))) s)) f_val) false (fd_step p).
Definition fd_entry (f : store -> xr) (s : store) (f_val : xr) (kp : string * parameter) : xr :=
  let p := snd kp in
  let g := fd_raw f s f_val kp in
  if xleb (seen p (ub p)) (seen p (p_value p)) && xltb g (XFin 0) then XFin 0
  else if xleb (seen p (p_value p)) (seen p (lb p)) && xltb (XFin 0) g then XFin 0
  else g.

(* best is the best of what has been evaluated; it is the initial one if nothing
   evaluated is below +infinity *)
Definition picked (f : store -> xr) (params : store) (st : greedy) : Prop :=
  (best_params st = params /\ best_value st = XPos /\ forall e, In e (evaluated st) -> xltb (f e) XPos = false) \/
  (In (best_params st) (evaluated st) /\ best_value st = f (best_params st) /\ xltb (f (best_params st)) XPos = true /\
   forall e, In e (evaluated st) -> f e = XNaN \/ xleb (f (best_params st)) (f e) = true).

(* what a step of greedy_tune tries for a parameter *)
Definition step_values (n : nat) (it : nat * nat) (p : parameter) : list xr :=
  let v := seen p (p_value p) in
  let qs := get_queries v (seen p (lb p)) (seen p (ub p)) n in
  if (fst it =? 0) && (snd it =? 0) then qs ++ [v] else qs.

(* a vector as optimizers see it, within their bounds *)
Definition in_bounds (s : store) (x : list xr) : Prop :=
  Forall2 (fun kp v => xleb (seen (snd kp) (lb (snd kp))) v = true /\ xleb v (seen (snd kp) (ub (snd kp))) = true) (tunables s) x.

(* an objective that is affine in one parameter *)
Definition affine_in (f : store -> xr) (k : string) (p : parameter) (s : store) (c a : R) : Prop :=
  forall y, f (massign k (Param (XFin y) (p_prior p)) s) = XFin (c + a * y).

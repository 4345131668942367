(* Vocabulary for C23-C25. *)
From Coq Require Import Reals String.
From Verif Require Import Base StdMapModel StringKeyModel ExtRealModel PriorModel ParamsModel.

(* the tunable parameters of a store, in key order *)
Definition tunables (s : store) : list (string * parameter) :=
  filter (fun kp => negb (param_fixed (snd kp))) s.

(* optimizers see log scale parameters through their logarithm *)
Definition seen (p : parameter) (v : xr) : xr := if is_log_scale (p_prior p) then xlog v else v.
Definition unseen (p : parameter) (v : xr) : xr := if is_log_scale (p_prior p) then xexp v else v.

Definition lb (p : parameter) : xr := lower_bound (p_prior p).
Definition ub (p : parameter) : xr := upper_bound (p_prior p).

(* not outside the bounds (NaN is not) *)
Definition not_outside (p : parameter) : Prop := xltb (p_value p) (lb p) = false /\ xltb (ub p) (p_value p) = false.

(* the closest value in [lb, ub] *)
Definition clamp (p : parameter) (v : xr) : xr :=
  if xltb v (lb p) then lb p else if xltb (ub p) v then ub p else v.

(* the keys of the parts of a handler are disjoint, everywhere in it, and not empty *)
Definition disjoint (a b : store) : Prop := forall k, In k (mkeys a) -> In k (mkeys b) -> False.
Fixpoint separate (h : handler) : Prop :=
  match h with
  | Leaf params => wf_map params /\ ~ In ""%string (mkeys params)
  | Wrap h' => separate h'
  | Compose lhs rhs => separate lhs /\ separate rhs /\ disjoint (get_params lhs) (get_params rhs)
  | GPModel params mean cov =>
      wf_map params /\ ~ In ""%string (mkeys params) /\ separate mean /\ separate cov /\
      disjoint params (get_params mean) /\ disjoint params (get_params cov) /\
      disjoint (get_params mean) (get_params cov)
  | SparseGP _ _ mean cov =>
      separate mean /\ separate cov /\ disjoint (get_params mean) (get_params cov) /\
      ~ In measurement_nugget_name (mkeys (get_params mean)) /\
      ~ In measurement_nugget_name (mkeys (get_params cov)) /\
      ~ In inducing_nugget_name (mkeys (get_params mean)) /\
      ~ In inducing_nugget_name (mkeys (get_params cov))
  end.

(* the parameter called k, after the parameters of input or the given values have been set *)
Definition override (input : store) (k : string) (p : parameter) : parameter :=
  match find (fun kp => keqb (fst kp) k) input with Some (_, q) => q | None => p end.
Definition override_values (values : smap string xr) (k : string) (p : parameter) : parameter :=
  match find (fun kv => keqb (fst kv) k) values with
  | Some (_, v) => Param v (p_prior p)
  | None => p
  end.

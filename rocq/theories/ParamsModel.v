(* Model of core/parameters.hpp and core/parameter_handling_mixin.hpp. *)
From Coq Require Import Reals String.
From Verif Require Import Base StdMapModel StringKeyModel MapUtilsModel ExtRealModel PriorModel.

(* Parameter, core/parameters.hpp:29-63 *)
Record parameter := Param { p_value : xr; p_prior : prior }.

Definition within_bounds (p : parameter) : bool :=
  xleb (lower_bound (p_prior p)) (p_value p) && xleb (p_value p) (upper_bound (p_prior p)).
Definition is_valid := within_bounds.
Definition param_fixed (p : parameter) : bool := is_fixed (p_prior p).

(* ParameterStore is std::map<std::string, Parameter> *)
Definition store := smap string parameter.

(* TunableParameters, core/parameters.hpp:22-27 *)
Record tunable_parameters := TP {
  tp_names : list string; tp_values : list xr; tp_lower : list xr; tp_upper : list xr }.

(* get_tunable_parameters, core/parameters.hpp:117-154; comparisons with NaN are
   false, so a NaN value passes the checks *)
Definition get_tunable_step (output : tunable_parameters) (kp : string * parameter)
  : outcome tunable_parameters :=
  let p := snd kp in
  if param_fixed p then Ok output
  else
    let v := p_value p in
    let lb := lower_bound (p_prior p) in
    let ub := upper_bound (p_prior p) in
    assert_then (negb (xltb v lb))
      (assert_then (negb (xltb ub v))
        (let use_log_scale := is_log_scale (p_prior p) in
         let lb' := if use_log_scale then xlog lb else lb in
         let ub' := if use_log_scale then xlog ub else ub in
         let v' := if use_log_scale then xlog v else v in
         Ok (TP (tp_names output ++ [fst kp]) (tp_values output ++ [v'])
                (tp_lower output ++ [lb']) (tp_upper output ++ [ub'])))).
Definition get_tunable_parameters (params : store) : outcome tunable_parameters :=
  foldM get_tunable_step params (TP [] [] [] []).

(* ensure_value_within_bounds, core/parameters.hpp:156-169 *)
Definition ensure_value_within_bounds (param : parameter) (value : xr) : xr :=
  let lb := lower_bound (p_prior param) in
  if xltb value lb then lb
  else let ub := upper_bound (p_prior param) in
       if xltb ub value then ub else value.

(* set_tunable_params_values, core/parameters.hpp:171-195; x[i] is not checked,
   output[name] creates a default parameter if it is missing *)
Definition set_tunable_step (x : list xr) (force_bounds : bool) (st : store * nat)
  (kp : string * parameter) : outcome (store * nat) :=
  let (output, i) := st in
  let p := snd kp in
  if param_fixed p then Ok (output, i)
  else
    v <- of_option UB (nth_error x i) ;;
    let v1 := if is_log_scale (p_prior p) then xexp v else v in
    let v2 := if force_bounds then ensure_value_within_bounds p v1 else v1 in
    let old := match mfind (fst kp) output with
               | Some q => q
               | None => Param (XFin 0) UninformativePrior
               end in
    Ok (massign (fst kp) (Param v2 (p_prior old)) output, S i).
Definition set_tunable_params_values (params : store) (x : list xr) (force_bounds : bool)
  : outcome store :=
  r <- foldM (set_tunable_step x force_bounds) params (params, 0) ;;
  assert_then (length x =? snd r) (Ok (fst r)).

(* params_are_valid, core/parameters.hpp:197-204 *)
Fixpoint params_are_valid (params : store) : bool :=
  match params with
  | [] => true
  | kp :: params' => if negb (is_valid (snd kp)) then false else params_are_valid params'
  end.

(* modify_param with assert_exists, core/parameters.hpp:206-220 *)
Definition modify_param (name : string) (operation : parameter -> parameter) (params : store)
  : outcome store :=
  match mfind name params with
  | Some p => Ok (massign name (operation p) params)
  | None => Abort
  end.
(* ... and without: the flag tells whether it was found *)
Definition modify_param_if_exists (name : string) (operation : parameter -> parameter) (params : store)
  : bool * store :=
  match mfind name params with
  | Some p => (true, massign name (operation p) params)
  | None => (false, params)
  end.

(* set_param, set_param_value, set_param_prior, core/parameters.hpp:222-240 *)
Definition set_param (name : string) (param : parameter) := modify_param name (fun _ => param).
Definition set_param_value (name : string) (value : xr) :=
  modify_param name (fun p => Param value (p_prior p)).
Definition set_param_prior (name : string) (pr : prior) :=
  modify_param name (fun p => Param (p_value p) pr).

(* set_params, set_param_values, core/parameters.hpp:242-255 *)
Definition set_params (input_params : store) (params : store) : outcome store :=
  foldM (fun params kp => set_param (fst kp) (snd kp) params) input_params params.
Definition set_param_values (values : smap string xr) (params : store) : outcome store :=
  foldM (fun params kv => set_param_value (fst kv) (snd kv) params) values params.

(* set_param_if_exists, set_param_value_if_exists, set_param_prior_if_exists,
   core/parameters.hpp:260-279 *)
Definition set_param_if_exists (name : string) (param : parameter) :=
  modify_param_if_exists name (fun _ => param).
Definition set_param_value_if_exists (name : string) (value : xr) :=
  modify_param_if_exists name (fun p => Param value (p_prior p)).
Definition set_param_prior_if_exists (name : string) (pr : prior) :=
  modify_param_if_exists name (fun p => Param (p_value p) pr).

(* set_params_if_exists, set_param_values_if_exists, core/parameters.hpp:281-297:
   the flag starts as size() > 0 *)
Definition set_params_if_exists (input_params : store) (params : store) : bool * store :=
  fold_left (fun st kp => let (b, params') := set_param_if_exists (fst kp) (snd kp) (snd st) in
                          (fst st && b, params')) input_params (0 <? length input_params, params).
Definition set_param_values_if_exists (values : smap string xr) (params : store) : bool * store :=
  fold_left (fun st kv => let (b, params') := set_param_value_if_exists (fst kv) (snd kv) (snd st) in
                          (fst st && b, params')) values (0 <? length values, params).

(* parameter_prior_log_likelihood, core/parameters.hpp:299-305 *)
Definition parameter_prior_log_likelihood (params : store) : xr :=
  fold_left (fun sum kp => xadd sum (log_pdf (p_prior (snd kp)) (p_value (snd kp)))) params (XFin 0%R).

(* ---- parameter handlers ----
   Leaf: a class using ALBATROSS_DECLARE_PARAMS (core/parameter_macros.hpp:40-160)
     or ParameterHandlingMixin's own params_ (parameter_handling_mixin.hpp:283-295);
   Wrap: ScalingTerm (scaling_function.hpp:67-73), MeasurementOnly (measurement.hpp:81-85),
     Ransac (models/ransac.hpp:457-461);
   Compose: sums and products (covariance_function.hpp:235-242, 344-351,
     mean_function.hpp:156-163, 221-228, scaling_function.hpp:132-139, 192-199);
   GPModel: GaussianProcessBase (models/gp.hpp:255-268): params_, mean, covariance;
   SparseGP: SparseGaussianProcessRegression (models/sparse_gp.hpp:289-308): the two nuggets, mean,
     covariance. *)
Inductive handler :=
| Leaf (params : store)
| Wrap (h : handler)
| Compose (lhs rhs : handler)
| GPModel (params : store) (mean cov : handler)
| SparseGP (measurement_nugget inducing_nugget : parameter) (mean cov : handler).

Definition measurement_nugget_name : string := "measurement_nugget".  (* models/sparse_gp.hpp:22 *)
Definition inducing_nugget_name : string := "inducing_nugget".        (* models/sparse_gp.hpp:24 *)

Fixpoint get_params (h : handler) : store :=
  match h with
  | Leaf params => params
  | Wrap h' => get_params h'
  | Compose lhs rhs => map_join (get_params lhs) (get_params rhs)
  | GPModel params mean cov => map_join params (map_join (get_params mean) (get_params cov))
  | SparseGP mn ind mean cov =>
      massign inducing_nugget_name ind
        (massign measurement_nugget_name mn (map_join (get_params mean) (get_params cov)))
  end.

(* set_param of the class. The branches spell out set_param_if_exists(name, param,
   &part), parameter_handling_mixin.hpp:122-133: look for the name in the
   parameters of the part, and if it is there call unchecked_set_param (42-64),
   which asserts that the name is not empty, with what is in the updated copy (the
   new parameter); set_param_if_exists_in_any (173-197) stops at the first part
   that has the name. *)
Fixpoint h_set_param (name : string) (param : parameter) (h : handler) : outcome handler :=
  match h with
  | Leaf params => params' <- set_param name param params ;; Ok (Leaf params')
  | Wrap h' => h'' <- h_set_param name param h' ;; Ok (Wrap h'')
  | Compose lhs rhs =>
      if mcontains name (get_params lhs) then
        assert_then (negb (String.eqb name ""))
          (lhs' <- h_set_param name param lhs ;; Ok (Compose lhs' rhs))
      else if mcontains name (get_params rhs) then
        assert_then (negb (String.eqb name ""))
          (rhs' <- h_set_param name param rhs ;; Ok (Compose lhs rhs'))
      else Abort
  | GPModel params mean cov =>
      if mcontains name params then
        params' <- set_param name param params ;; Ok (GPModel params' mean cov)
      else if mcontains name (get_params cov) then
        assert_then (negb (String.eqb name ""))
          (cov' <- h_set_param name param cov ;; Ok (GPModel params mean cov'))
      else if mcontains name (get_params mean) then
        assert_then (negb (String.eqb name ""))
          (mean' <- h_set_param name param mean ;; Ok (GPModel params mean' cov))
      else Abort
  | SparseGP mn ind mean cov =>
      if String.eqb name measurement_nugget_name then Ok (SparseGP param ind mean cov)
      else if String.eqb name inducing_nugget_name then Ok (SparseGP mn param mean cov)
      else if mcontains name (get_params cov) then
        assert_then (negb (String.eqb name ""))
          (cov' <- h_set_param name param cov ;; Ok (SparseGP mn ind mean cov'))
      else if mcontains name (get_params mean) then
        assert_then (negb (String.eqb name ""))
          (mean' <- h_set_param name param mean ;; Ok (SparseGP mn ind mean' cov))
      else Abort
  end.

(* unchecked_set_param(s), parameter_handling_mixin.hpp:42-74 *)
Definition unchecked_set_param (name : string) (param : parameter) (h : handler) : outcome handler :=
  assert_then (negb (String.eqb name "")) (h_set_param name param h).
Definition unchecked_set_params (params : store) (h : handler) : outcome handler :=
  foldM (fun h kp => unchecked_set_param (fst kp) (snd kp) h) params h.

(* set_param_value, set_param_prior, parameter_handling_mixin.hpp:81-101 *)
Definition h_set_param_value (name : string) (value : xr) (h : handler) : outcome handler :=
  params <- set_param_value name value (get_params h) ;;
  p <- mat name params ;; unchecked_set_param name p h.
Definition h_set_param_prior (name : string) (pr : prior) (h : handler) : outcome handler :=
  params <- set_param_prior name pr (get_params h) ;;
  p <- mat name params ;; unchecked_set_param name p h.

(* set_params, set_param_values, parameter_handling_mixin.hpp:103-120 *)
Definition h_set_params (input_params : store) (h : handler) : outcome handler :=
  params <- set_params input_params (get_params h) ;; unchecked_set_params params h.
Definition h_set_param_values (values : smap string xr) (h : handler) : outcome handler :=
  params <- set_param_values values (get_params h) ;; unchecked_set_params params h.

(* set_param_if_exists, set_param_value_if_exists, parameter_handling_mixin.hpp:122-146 *)
Definition h_set_param_if_exists (name : string) (param : parameter) (h : handler)
  : outcome (bool * handler) :=
  let (found, params) := set_param_if_exists name param (get_params h) in
  if negb found then Ok (false, h)
  else p <- mat name params ;; h' <- unchecked_set_param name p h ;; Ok (true, h').
Definition h_set_param_value_if_exists (name : string) (value : xr) (h : handler)
  : outcome (bool * handler) :=
  let (found, params) := set_param_value_if_exists name value (get_params h) in
  if negb found then Ok (false, h)
  else p <- mat name params ;; h' <- unchecked_set_param name p h ;; Ok (true, h').

(* set_params_if_exists, set_param_values_if_exists, parameter_handling_mixin.hpp:148-171 *)
Definition h_set_params_if_exists (input_params : store) (h : handler) : outcome (bool * handler) :=
  let (all_exist, params) := set_params_if_exists input_params (get_params h) in
  h' <- unchecked_set_params params h ;; Ok (all_exist, h').
Definition h_set_param_values_if_exists (values : smap string xr) (h : handler)
  : outcome (bool * handler) :=
  let (all_exist, params) := set_param_values_if_exists values (get_params h) in
  h' <- unchecked_set_params params h ;; Ok (all_exist, h').

(* ParameterHandlingMixin::get_tunable_parameters, set_tunable_params_values and
   get_param_value, parameter_handling_mixin.hpp:262-275 *)
Definition h_get_tunable_parameters (h : handler) : outcome tunable_parameters :=
  get_tunable_parameters (get_params h).
Definition h_set_tunable_params_values (x : list xr) (force_bounds : bool) (h : handler)
  : outcome handler :=
  modified_params <- set_tunable_params_values (get_params h) x force_bounds ;;
  h_set_params modified_params h.
Definition h_get_param_value (name : string) (h : handler) : outcome xr :=
  p <- mat name (get_params h) ;; Ok (p_value p).

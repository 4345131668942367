(* Model of tune/greedy_tuner.hpp, tune/finite_difference.hpp, tune/tune.hpp and
   tune/tuning_metrics.hpp. Objectives are pure functions that do not throw; what
   is printed is not modelled; apply with threads is that without (C12). *)
From Coq Require Import Reals.
From Verif Require Import Base StdMapModel StringKeyModel ExtRealModel PriorModel ParamsModel.

Definition xisinf (x : xr) : bool := match x with XPos | XNeg => true | _ => false end.
Definition xeqb (x y : xr) : bool :=
  match x, y with
  | XFin a, XFin b => Reqb a b
  | XPos, XPos | XNeg, XNeg => true
  | _, _ => false
  end.

(* ---- tune/greedy_tuner.hpp ---- *)

(* query_ratios, 37-51 *)
Definition log_min : R := (-5)%R.
Definition log_max : R := (- (1 / 10))%R.
Definition query_ratios (n : nat) : list R :=
  if n =? 1 then [log_min]
  else let step := ((log_max - log_min) / (INR n - 1))%R in
       map (fun i => Rpower 10 (log_min + INR i * step)) (seq 0 n).

(* get_queries, 53-92 *)
Definition get_queries (value low high : xr) (n : nat) : list xr :=
  let high := if xisinf high then XFin 100000000 else high in
  let low := if xisinf low then XFin (-100000000) else low in
  let low_range := xsub value low in
  let high_range := xsub high value in
  let above r := xadd value (xscale r high_range) in
  let below r := xsub value (xscale r low_range) in
  if xeqb value low then map above (query_ratios (2 * n))
  else if xeqb value high then map below (rev (query_ratios (2 * n)))
  else map below (rev (query_ratios n)) ++ map above (query_ratios n).

(* set_tunable_param, 94-99 *)
Definition set_tunable_param (params : store) (i : nat) (val : xr) : outcome store :=
  perturbed <- get_tunable_parameters params ;;
  if i <? length (tp_values perturbed)
  then set_tunable_params_values params (set_nth (tp_values perturbed) i val) true
  else UB.

(* the state of the loops of greedy_tune; [evaluated] is what evaluate_function has
   been called with, for the theorems only *)
Record greedy := Greedy { best_value : xr; best_params : store; evaluated : list store }.

(* lines 172-186 *)
Definition greedy_pick (f : store -> xr) (st : greedy) (p : store) : greedy :=
  if xltb (f p) (best_value st) then Greedy (f p) p (evaluated st ++ [p])
  else Greedy (best_value st) (best_params st) (evaluated st ++ [p]).

(* body of the loops, lines 142-194; values[i] of a vector as long as the names *)
Definition greedy_step (f : store -> xr) (n : nat) (st : greedy) (it : nat * nat) : outcome greedy :=
  let (iter, i) := it in
  tunable <- get_tunable_parameters (best_params st) ;;
  v <- of_option UB (nth_error (tp_values tunable) i) ;;
  lo <- of_option UB (nth_error (tp_lower tunable) i) ;;
  hi <- of_option UB (nth_error (tp_upper tunable) i) ;;
  let values := get_queries v lo hi n in
  let values := if (iter =? 0) && (i =? 0) then values ++ [v] else values in
  proposed_params <- mapM (set_tunable_param (best_params st) i) values ;;
  Ok (fold_left (greedy_pick f) proposed_params st).

(* greedy_tune, 102-197. The number of names does not change. *)
Definition greedy_tune (f : store -> xr) (params : store) (n_queries_each_direction n_iterations : nat)
  : outcome greedy :=
  tunable <- get_tunable_parameters params ;;
  foldM (greedy_step f n_queries_each_direction)
        (list_prod (seq 0 n_iterations) (seq 0 (length (tp_names tunable))))
        (Greedy XPos params []).

(* ---- tune/finite_difference.hpp ---- *)

(* x / c for a finite c; [neg] is the sign of c when it is zero *)
Definition xdivr (x : xr) (neg : bool) (c : R) : xr :=
  if Reqb c 0 then
    match x with
    | XNaN => XNaN
    | XFin r => if Reqb r 0 then XNaN else if xorb (Rltb r 0) neg then XNeg else XPos
    | XPos => if neg then XNeg else XPos
    | XNeg => if neg then XPos else XNeg
    end
  else xscale (/ c) x.

(* compute_gradient on a vector, 17-32 *)
Definition compute_gradient_vector (f : list xr -> xr) (params : list xr) (f_val : xr) : list xr :=
  map (fun ind => match nth_error params ind with
                  | Some v => xdivr (xsub (f (set_nth params ind (xadd v (XFin (/ 1000000))))) f_val) false (/ 1000000)
                  | None => XNaN   (* not reached *)
                  end) (seq 0 (length params)).

(* compute_gradient on a ParameterStore, 34-81 *)
Definition get_perturbed (params : store) (tunable_params : tunable_parameters) (i : nat) (epsilon : R) : outcome store :=
  v <- of_option UB (nth_error (tp_values tunable_params) i) ;;
  set_tunable_params_values params (set_nth (tp_values tunable_params) i (xadd v (XFin epsilon))) true.
Definition single_sub_gradient (f : store -> xr) (params : store) (f_val : xr)
  (tunable_params : tunable_parameters) (i : nat) : outcome xr :=
  v <- of_option UB (nth_error (tp_values tunable_params) i) ;;
  lo <- of_option UB (nth_error (tp_lower tunable_params) i) ;;
  hi <- of_option UB (nth_error (tp_upper tunable_params) i) ;;
  let epsilon := match xsub hi lo with XFin range => (/ 100000000 * range)%R | _ => (/ 1000000)%R end in
  perturbed_params <- get_perturbed params tunable_params i epsilon ;;
  eps_perturbed <- (if negb (params_are_valid perturbed_params)
                    then p <- get_perturbed params tunable_params i (- epsilon) ;; Ok (true, (- epsilon)%R, p)
                    else Ok (false, epsilon, perturbed_params)) ;;
  let '(neg, eps, p) := eps_perturbed in
  let grad_i := xdivr (xsub (f p) f_val) neg eps in
  let grad_i := if xleb hi v && xltb grad_i (XFin 0) then XFin 0 else grad_i in
  let grad_i := if xleb v lo && xltb (XFin 0) grad_i then XFin 0 else grad_i in
  Ok grad_i.
Definition compute_gradient (f : store -> xr) (params : store) (f_val : xr) : outcome (list xr) :=
  tunable_params <- get_tunable_parameters params ;;
  mapM (single_sub_gradient f params f_val tunable_params) (seq 0 (length (tp_values tunable_params))).

(* ---- tune/tune.hpp ---- *)

(* uninformative_params, 83-89; std::to_string(i) is [name i] *)
Definition uninformative_params (name : nat -> String.string) (values : list xr) : store :=
  massign_all (map (fun i => (name i, Param (nth i values XNaN) UninformativePrior)) (seq 0 (length values))) [].

(* param_wrapped_objective of GenericTuner::tune, 138-174: the value and, if asked
   for, the gradient *)
Definition param_wrapped_objective (objective : store -> xr) (initial_params : store) (with_gradient : bool)
  (x : list xr) : outcome (xr * list xr) :=
  params <- set_tunable_params_values initial_params x true ;;
  assert_then (params_are_valid params)
    (let metric := objective params in
     grad <- (if with_gradient then compute_gradient objective params metric else Ok []) ;;
     Ok (if xisnan metric then XPos else metric, grad)).

(* run_optimizer, 91-110: optimize is the library's; it fails (Throw) or returns a
   vector of the dimension it was created with (default_optimizer, 46-62) *)
Definition run_optimizer (optimize : list xr -> outcome (list xr)) (dimension : nat) (params : store)
  : outcome store :=
  tp <- get_tunable_parameters params ;;
  assert_then (dimension =? length (tp_values tp))
    (x <- optimize (tp_values tp) ;; set_tunable_params_values params x true).

(* mean_aggregator, tune/tuning_metrics.hpp:23-30: 0/0 if there are none *)
Definition mean_aggregator (metrics : list xr) : xr :=
  xdivr (fold_left xadd metrics (XFin 0)) false (INR (length metrics)).

(* the objective of ModelTuner::tune, 273-283 *)
Definition model_tuner_objective {M D} (set_params : store -> M -> outcome M) (metric : D -> M -> xr)
  (aggregator : list xr -> xr) (model : M) (datasets : list D) (params : store) : outcome xr :=
  m <- set_params params model ;; Ok (aggregator (map (fun d => metric d m) datasets)).

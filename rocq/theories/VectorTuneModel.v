(* Model of the part of tune/tune.hpp that tunes functions of a vector and models: GenericTuner constructed from a
   vector, its tune for an objective of a vector, and ModelTuner. The optimizer is the library's: a function that is
   given an objective (with gradient, if it asks for one) and a start, and fails or returns a vector. *)
From Coq Require Import Reals.
From Coq Require DecimalString Decimal.
From Verif Require Import Base StdMapModel StringKeyModel ExtRealModel PriorModel ParamsModel TuningModel.

(* std::to_string of a std::size_t: the decimal digits, tune/tune.hpp:86 *)
Definition to_string (i : nat) : String.string := DecimalString.NilEmpty.string_of_uint (Nat.to_uint i).

(* GenericTuner(std::vector<double>), tune/tune.hpp:125-127 and 83-89 *)
Definition vector_params (values : list xr) : store := uninformative_params to_string values.

(* grad_free_objective, tune/tune.hpp:189-214: the value and, if asked for, the gradient *)
Definition vector_objective (objective : list xr -> xr) (with_gradient : bool) (x : list xr) : xr * list xr :=
  let metric := objective x in
  (if xisnan metric then XPos else metric, if with_gradient then compute_gradient_vector objective x metric else []).

(* the library's optimizer: an objective, a start, the best vector *)
Definition optimizer := (list xr -> xr * list xr) -> list xr -> outcome (list xr).

(* GenericTuner(values).tune(objective) for an objective of a vector, tune/tune.hpp:179-219; the optimizer is the one
   the constructor makes, or one of the same dimension (116-123) *)
Definition tune_vector (opt : optimizer) (with_gradient : bool) (objective : list xr -> xr) (values : list xr)
  : outcome (list xr) :=
  let initial_params := vector_params values in
  params <- run_optimizer (opt (vector_objective objective with_gradient)) (length values) initial_params ;;
  tunable <- get_tunable_parameters params ;;
  Ok (tp_values tunable).

(* ... and for an objective of an Eigen vector, 221-243: &vector_output[0] of an empty vector is undefined *)
Definition tune_eigen (opt : optimizer) (with_gradient : bool) (objective : list xr -> xr) (values : list xr)
  : outcome (list xr) :=
  out <- tune_vector opt with_gradient objective values ;;
  match out with [] => UB | _ => Ok out end.

(* ModelTuner::tune, 270-288, for a model whose parameters are those of a handler. set_params asserts that the names
   exist, so the objective is partial; [objective] gives its values where it has them. *)
Definition model_objective {D} (metric : D -> handler -> xr) (aggregator : list xr -> xr) (model : handler)
  (datasets : list D) (params : store) : outcome xr :=
  model_tuner_objective h_set_params metric aggregator model datasets params.
Definition tune_model (optimize : list xr -> outcome (list xr)) (model : handler) : outcome store :=
  tp <- get_tunable_parameters (get_params model) ;;
  run_optimizer optimize (length (tp_values tp)) (get_params model).

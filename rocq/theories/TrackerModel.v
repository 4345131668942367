(* Model of MaximumLikelihoodTrackingCallback, samplers/callbacks.hpp. What it writes is modelled as a list of records; its layout and
   pretty_params are not. *)
From Verif Require Import Base ExtRealModel StdMapModel ParamsModel CsvModel.

(* max_ll, param_store, and what was written to the stream *)
Record tracker := Tracker { max_ll : xr; tracked : store; written : list (nat * xr * store) }.
(* samplers/callbacks.hpp:52-60, 76: the initial state *)
Definition new_tracker (param_store : store) : tracker := Tracker XNeg param_store [].
(* samplers/callbacks.hpp:64-73, the loop body *)
Definition track_state (iteration : nat) (t : tracker) (state : sampler_state) : outcome tracker :=
  if xltb (max_ll t) (ss_log_prob state) then
    param_store <- set_tunable_params_values (tracked t) (ss_params state) true ;;
    Ok (Tracker (ss_log_prob state) param_store (written t ++ [(iteration, ss_log_prob state, param_store)]))
  else Ok t.
(* samplers/callbacks.hpp:62-74 *)
Definition track (t : tracker) (iteration : nat) (ensembles : list sampler_state) : outcome tracker :=
  foldM (track_state iteration) ensembles t.
(* the callback called with iterations 0, 1, ... as ensemble_sampler does (samplers/ensemble.hpp:139-152) *)
Definition track_history (param_store : store) (history : list (list sampler_state)) : outcome tracker :=
  foldM (fun t ie => track t (fst ie) (snd ie)) (combine (seq 0 (length history)) history) (new_tracker param_store).

(* Model of samplers/ensemble.hpp and samplers/initialization.hpp:99-163.
   (The CSV part of samplers/ is in CsvModel.v.) *)
From Coq Require Import Reals.
From Verif Require Import Base StdMapModel StringKeyModel IndexingModel RandomModel ExtRealModel
  ParamsModel CsvModel.

(* Computations drawing from a random engine with state G; None: a loop has not
   finished within its fuel. *)
Definition rnd (G A : Type) := G -> option (outcome (A * G)).
Definition rret {G A} (a : A) : rnd G A := fun g => Some (Ok (a, g)).
Definition rbind {G A B} (m : rnd G A) (k : A -> rnd G B) : rnd G B :=
  fun g => match m g with
           | Some (Ok (a, g')) => k a g'
           | Some Abort => Some Abort
           | Some Throw => Some Throw
           | Some UB => Some UB
           | None => None
           end.
Definition rlift {G A} (o : outcome A) : rnd G A := fun g => Some (a <- o ;; Ok (a, g)).
Definition rassert {G A} (b : bool) (k : rnd G A) : rnd G A := if b then k else fun _ => Some Abort.
Notation "x <~ e ;; k" := (rbind e (fun x => k)) (at level 61, e at next level, right associativity).
Fixpoint rfold {G A B} (f : B -> A -> rnd G B) (xs : list A) (b : B) : rnd G B :=
  match xs with
  | [] => rret b
  | x :: xs' => b' <~ f b x ;; rfold f xs' b'
  end.
Fixpoint rmap {G A B} (f : A -> rnd G B) (xs : list A) : rnd G (list B) :=
  match xs with
  | [] => rret []
  | x :: xs' => y <~ f x ;; ys <~ rmap f xs' ;; rret (y :: ys)
  end.

(* x == 0. *)
Definition xiszero (x : xr) : bool := match x with XFin r => Reqb r 0 | _ => false end.

Section Samplers.
Context {G : Type}.
Variable uniform : Z -> Z -> G -> Z * G.         (* std::uniform_int_distribution(low, high) *)
Variable uniform_real : G -> R * G.              (* std::uniform_real_distribution(0, 1) *)
Variable jitter : G -> xr * G.                   (* the jitter distribution *)
Variable compute_log_prob : list xr -> xr.       (* a user function; it does not throw *)

(* std::uniform_int_distribution<size_t>(0, n - 1): n - 1 wraps around *)
Definition draw_index (n : nat) : rnd G nat :=
  fun g => let (v, g') := uniform 0 (wrap64 (Z.of_nat n - 1)) g in Some (Ok (Z.to_nat v, g')).
Definition draw_real : rnd G R := fun g => Some (Ok (uniform_real g)).
Definition draw_jitter : rnd G xr := fun g => Some (Ok (jitter g)).

(* split_indices, samplers/ensemble.hpp:18-22 *)
Definition split_indices (n k : nat) : outcome (list (list nat)) :=
  m <- build_kfold_indexer k (seq 0 n) ;; Ok (mvals m).

(* random_complement, samplers/ensemble.hpp:24-36 *)
Fixpoint random_complement_loop (fuel n i : nat) : rnd G nat :=
  match fuel with
  | 0 => fun _ => None
  | S fuel' => output <~ draw_index n ;;
               if output =? i then random_complement_loop fuel' n i else rret output
  end.
Definition random_complement (fuel n i : nat) : rnd G nat :=
  rassert (1 <? n) (random_complement_loop fuel n i).

(* assert_valid_states, samplers/ensemble.hpp:38-42 *)
Definition valid_states (ensembles : list sampler_state) : bool :=
  forallb (fun s => xisfinite (ss_log_prob s)) ensembles.

(* choosing x_j, samplers/ensemble.hpp:78-85; operator[] is not checked *)
Fixpoint pick_partner (fuel : nat) (complement : list nat) (next_ensembles : list sampler_state) : rnd G nat :=
  match fuel with
  | 0 => fun _ => None
  | S fuel' =>
      idx <~ draw_index (length complement) ;;
      j <~ rlift (of_option UB (nth_error complement idx)) ;;
      s <~ rlift (of_option UB (nth_error next_ensembles j)) ;;
      if xisfinite (ss_log_prob s) then rret j else pick_partner fuel' complement next_ensembles
  end.

(* the proposal, samplers/ensemble.hpp:92-104 *)
Definition propose_coordinate (z : R) (v_j v : xr) : xr :=
  let delta := xsub v v_j in
  let delta := if xiszero delta then XFin (/ 1000000) else delta in
  xadd v_j (xscale z delta).
Definition propose (n_dim : nat) (z : R) (current partner : list xr) : outcome (list xr) :=
  moved <- mapM (fun i => v_j <- of_option UB (nth_error partner i) ;;
                          v <- of_option UB (nth_error current i) ;;
                          Ok (propose_coordinate z v_j v)) (seq 0 n_dim) ;;
  Ok (moved ++ skipn n_dim current).

(* samplers/ensemble.hpp:87-90: a is finite, p in [0, 1) *)
Definition stretch (a p : R) : R := (((a - 1) * p + 1) ^ 2 / a)%R.

(* body of the loop over a split, samplers/ensemble.hpp:72-119 *)
Definition stretch_walker (fuel n_dim : nat) (a : R) (next_ensembles : list sampler_state)
  (move : list nat * nat) : rnd G (list sampler_state) :=
  let (complement, k) := move in
  current <~ rlift (of_option UB (nth_error next_ensembles k)) ;;
  j <~ pick_partner fuel complement next_ensembles ;;
  partner <~ rlift (of_option UB (nth_error next_ensembles j)) ;;
  p <~ draw_real ;;
  let z := stretch a p in
  let log_prob_z := xscale (INR n_dim - 1) (xlog (XFin z)) in
  params <~ rlift (propose n_dim z (ss_params current) (ss_params partner)) ;;
  let log_prob := compute_log_prob params in
  let log_diff := xsub (xadd log_prob_z log_prob) (ss_log_prob current) in
  random <~ draw_real ;;
  let accepted := xltb (xlog (XFin random)) log_diff in
  let is_finite := xisfinite log_prob in
  if accepted && is_finite then rret (set_nth next_ensembles k (SS params log_prob true))
  else rret (set_nth next_ensembles k (SS (ss_params current) (ss_log_prob current) false)).

(* stretch_move_step, samplers/ensemble.hpp:44-123 *)
Definition stretch_move_step (fuel : nat) (ensembles : list sampler_state) (n_splits : nat) (a : R)
  : rnd G (list sampler_state) :=
  let n_ensembles := length ensembles in
  first <~ rlift (of_option UB (nth_error ensembles 0)) ;;
  let n_dim := length (ss_params first) in
  rassert (valid_states ensembles)
    (splits <~ rlift (split_indices n_ensembles n_splits) ;;
     rfold (fun next split =>
              let complement := indices_complement split n_ensembles in
              rfold (stretch_walker fuel n_dim a) (map (fun k => (complement, k)) split) next)
       splits ensembles).

(* ensure_finite_initial_state, samplers/initialization.hpp:122-163 *)
Definition finite_state (s : sampler_state) : bool :=
  xisfinite (ss_log_prob s) && forallb xisfinite (ss_params s).
(* lines 151-155 *)
Definition interpolate (x y : list xr) : rnd G (list xr) :=
  rmap (fun i => a <~ draw_real ;;
                 y_i <~ rlift (of_option UB (nth_error y i)) ;;
                 x_i <~ rlift (of_option UB (nth_error x i)) ;;
                 rret (xadd x_i (xscale a (xsub y_i x_i)))) (seq 0 (length x)).
(* lines 148-161 *)
Fixpoint fill_loop (fuel n : nat) (output : list sampler_state) : rnd G (list sampler_state) :=
  if length output <? n then
    match fuel with
    | 0 => fun _ => None
    | S fuel' =>
        random_pair <~ random_without_replacement uniform fuel output 2 ;;
        s0 <~ rlift (of_option UB (nth_error random_pair 0)) ;;
        s1 <~ rlift (of_option UB (nth_error random_pair 1)) ;;
        params <~ interpolate (ss_params s0) (ss_params s1) ;;
        let log_prob := compute_log_prob params in
        if xisfinite log_prob
        then fill_loop fuel' n (output ++ [SS params log_prob (ss_accepted s0)])
        else fill_loop fuel' n output
    end
  else rret output.
Definition ensure_finite_initial_state (fuel : nat) (ensembles : list sampler_state)
  : rnd G (list sampler_state) :=
  let output := filter finite_state ensembles in
  rassert (2 <? length output) (fill_loop fuel (length ensembles) output).

(* ensemble_sampler, samplers/ensemble.hpp:125-147; the callback only observes the
   states, in order *)
Fixpoint sampler_loop (fuel iterations : nat) (state : list sampler_state)
  : rnd G (list (list sampler_state)) :=
  match iterations with
  | 0 => rret []
  | S iterations' =>
      next_state <~ stretch_move_step fuel state 2 2 ;;
      rest <~ sampler_loop fuel iterations' next_state ;;
      rret (next_state :: rest)
  end.
Definition ensemble_sampler (fuel : nat) (initial_state : list sampler_state) (max_iterations : nat)
  : rnd G (list (list sampler_state)) :=
  state <~ ensure_finite_initial_state fuel initial_state ;;
  rest <~ sampler_loop fuel max_iterations state ;;
  rret (state :: rest).

(* ensemble_sampler from parameters, samplers/ensemble.hpp:149-165 *)
Definition ensemble_sampler_params (fuel : nat) (params : list (list xr)) (max_iterations : nat)
  : rnd G (list (list sampler_state)) :=
  ensemble_sampler fuel (map (fun p => SS p (compute_log_prob p) true) params) max_iterations.

(* initial_params_from_jitter, samplers/initialization.hpp:99-120 *)
Definition initial_params_from_jitter (params : store) (n : nat) : rnd G (list (list xr)) :=
  let n := Nat.max n (2 * length params + 1) in
  tp <~ rlift (get_tunable_parameters params) ;;
  rest <~ rmap (fun _ => rmap (fun d => e <~ draw_jitter ;; rret (xadd d e)) (tp_values tp)) (seq 0 (n - 1)) ;;
  rret (tp_values tp :: rest).

(* ensemble_sampler for a model, samplers/ensemble.hpp:167-186; compute_log_prob
   is the log likelihood with the tunable parameters set *)
Definition ensemble_sampler_model (fuel : nat) (params : store) (n_walkers max_iterations : nat)
  : rnd G (list (list sampler_state)) :=
  initial_params <~ initial_params_from_jitter params n_walkers ;;
  ensemble_sampler_params fuel initial_params max_iterations.
End Samplers.

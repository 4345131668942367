(* Model of utils/async_utils.hpp: apply and apply_map on a thread pool, as a
   transition system whose steps may interleave in any order.

   third_party/ThreadPool is an empty submodule in /repo. Contract assumed of it:
   enqueue(f, args...) adds a task and returns a future; a worker that is free
   removes some task from the queue, runs f once and stores the value or the
   exception in the future; future.get() blocks until it is there.  Tasks may be
   taken from the queue in any order here, which includes first in first out. *)
From Verif Require Import Base StdMapModel FoldsModel.

(* A task performs some atomic actions on the memory shared with the other tasks
   and then produces a value (Some) or an exception (None). *)
Record task (S B : Type) := Task { t_steps : list (S -> S); t_result : option B }.
Arguments Task {S B}.
Arguments t_steps {S B}.
Arguments t_result {S B}.

(* The calling thread: enqueueing the tasks (next is the number already
   enqueued), then calling get on the futures (the tasks not yet asked for and the
   values obtained), and finally returned or left by an exception. *)
Inductive main_state (B : Type) :=
| Enqueueing (next : nat)
| Getting (i : nat) (rest : list nat) (out : list B)
| Returned (out : list B)
| Raised.
Arguments Enqueueing {B}.
Arguments Getting {B}.
Arguments Returned {B}.
Arguments Raised {B}.

Record pool_state (S B : Type) := PS {
  ps_main : main_state B;
  ps_queue : list nat;                      (* enqueued, not yet taken *)
  ps_running : list (nat * list (S -> S));  (* task, actions left *)
  ps_done : list (nat * option B);          (* filled futures *)
  ps_started : list nat;                    (* log of the tasks taken *)
  ps_mem : S }.
Arguments PS {S B}.
Arguments ps_main {S B}.
Arguments ps_queue {S B}.
Arguments ps_running {S B}.
Arguments ps_done {S B}.
Arguments ps_started {S B}.
Arguments ps_mem {S B}.

Inductive event := EEnqueue | ETake (i : nat) | EStep (i : nat) | EFinish (i : nat) | EGet.

(* remove the first element satisfying p *)
Fixpoint pick {A} (p : A -> bool) (l : list A) : option (A * list A) :=
  match l with
  | [] => None
  | a :: l' => if p a then Some (a, l')
               else match pick p l' with
                    | Some (b, r) => Some (b, a :: r)
                    | None => None
                    end
  end.

Section Machine.
Context {S B : Type}.
Variable threads : nat.
Variable tasks : list (task S B).
(* the order in which get is called on the futures *)
Variable order : list nat.

Definition next_get (rest : list nat) (out : list B) : main_state B :=
  match rest with
  | [] => Returned out
  | i :: rest' => Getting i rest' out
  end.

Definition next_enqueue (k : nat) : main_state B :=
  if k <? length tasks then Enqueueing k else next_get order [].

Definition pool_init (mem : S) : pool_state S B :=
  PS (next_enqueue 0) [] [] [] [] mem.

(* One transition; None if the event is not possible in this state. *)
Definition pool_step (st : pool_state S B) (e : event) : option (pool_state S B) :=
  let '(PS main queue running done started mem) := st in
  match e with
  | EEnqueue =>
      (* utils/async_utils.hpp:40-43, 62-65, 89-92, 113-116, 141-144, 166-169 *)
      match main with
      | Enqueueing k => Some (PS (next_enqueue (k + 1)) (queue ++ [k]) running done started mem)
      | _ => None
      end
  | ETake i =>
      if length running <? threads then
        match pick (Nat.eqb i) queue, nth_error tasks i with
        | Some (_, queue'), Some t =>
            Some (PS main queue' ((i, t_steps t) :: running) done (started ++ [i]) mem)
        | _, _ => None
        end
      else None
  | EStep i =>
      match pick (fun r => fst r =? i) running with
      | Some ((_, a :: rem), running') =>
          Some (PS main queue ((i, rem) :: running') done started (a mem))
      | _ => None
      end
  | EFinish i =>
      match pick (fun r => fst r =? i) running, nth_error tasks i with
      | Some ((_, []), running'), Some t =>
          Some (PS main queue running' ((i, t_result t) :: done) started mem)
      | _, _ => None
      end
  | EGet =>
      (* utils/async_utils.hpp:44-46, 67-70, 93-95, 118-121, 145-147, 171-174:
         get blocks until the future is filled and rethrows *)
      match main with
      | Getting i rest out =>
          match find (fun d => fst d =? i) done with
          | Some (_, Some b) => Some (PS (next_get rest (out ++ [b])) queue running done started mem)
          | Some (_, None) => Some (PS Raised queue running done started mem)
          | None => None
          end
      | _ => None
      end
  end.

(* A schedule is any sequence of possible events. *)
Fixpoint pool_run (st : pool_state S B) (sched : list event) : option (pool_state S B) :=
  match sched with
  | [] => Some st
  | e :: sched' => match pool_step st e with
                   | Some st' => pool_run st' sched'
                   | None => None
                   end
  end.
End Machine.

(* What the caller observes, if the call is over. *)
Definition pool_outcome {S B} (st : pool_state S B) : option (outcome (list B)) :=
  match ps_main st with
  | Returned out => Some (Ok out)
  | Raised => Some Throw
  | _ => None
  end.

(* detail::should_serial_apply, utils/async_utils.hpp:20-22; a pool is described
   by its thread count, nullptr is None. *)
Definition should_serial_apply (pool : option nat) : bool :=
  match pool with None => true | Some thread_count => thread_count <=? 1 end.

(* a function that returns or throws, as an outcome *)
Definition or_throw {A B} (f : A -> option B) (a : A) : outcome B := of_option Throw (f a).

(* apply(xs, func, pool), utils/async_utils.hpp:26-72, under the given schedule;
   None if the schedule is not possible or stops before the call is over. The
   serial version is indexing/apply.hpp:20-47. *)
Definition async_apply {A B} (pool : option nat) (func : A -> option B) (xs : list A)
  (sched : list event) : option (outcome (list B)) :=
  if should_serial_apply pool then Some (mapM (or_throw func) xs)
  else match pool with
       | None => None
       | Some threads =>
           let tasks := map (fun x => Task ([] : list (unit -> unit)) (func x)) xs in
           match pool_run threads tasks (seq 0 (length xs))
                   (pool_init tasks (seq 0 (length xs)) tt) sched with
           | Some st => pool_outcome st
           | None => None
           end
       end.

(* apply_map(xs, func, pool), utils/async_utils.hpp:98-123 (func ignores the key)
   and 150-176: futures is a map from key to future (here the number of the
   task), futures and output are filled with operator[]. *)
Definition async_apply_map {K A B} `{OrdKey K} (pool : option nat) (func : K -> A -> option B)
  (xs : smap K A) (sched : list event) : option (outcome (smap K B)) :=
  if should_serial_apply pool
  then Some (apply_mapM xs (fun k a => of_option Throw (func k a)))
  else match pool with
       | None => None
       | Some threads =>
           let tasks := map (fun kx => Task ([] : list (unit -> unit)) (func (fst kx) (snd kx))) xs in
           let futures := fold_left (fun futures ki => massign (fst ki) (snd ki) futures)
                                    (combine (mkeys xs) (seq 0 (length xs))) [] in
           match pool_run threads tasks (mvals futures)
                   (pool_init tasks (mvals futures) tt) sched with
           | Some st =>
               match pool_outcome st with
               | Some (Ok out) =>
                   Some (Ok (fold_left (fun output kb => massign (fst kb) (snd kb) output)
                                       (combine (mkeys futures) out) []))
               | Some Throw => Some Throw
               | _ => None
               end
           | None => None
           end
       end.

(* make_shared_thread_pool, utils/async_utils.hpp:203-221, and
   get_default_thread_count, 192-196; hardware is what hardware_concurrency
   returns. *)
Definition get_default_thread_count (hardware : nat) : nat := Nat.max 1 hardware.
Definition make_shared_thread_pool (hardware num_threads : nat) : option nat :=
  if num_threads =? 1 then None
  else Some (if num_threads <? 1 then get_default_thread_count hardware else num_threads).

(* get_thread_count, utils/async_utils.hpp:223-229. *)
Definition get_thread_count (pool : option nat) : nat :=
  match pool with None => 1 | Some thread_count => thread_count end.

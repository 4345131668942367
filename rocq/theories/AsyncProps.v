(* Property C12 of properties.jsonl. A schedule is any list of events of the
   pool (enqueue by the caller, a worker takes any queued task, a worker performs
   the next action of its task, a worker finishes, the caller obtains a future);
   see AsyncModel.pool_step. *)
From Verif Require Import Base StdMapModel StdMapProofs FoldsModel AsyncModel AsyncProofs.
From Coq Require Import Permutation.

(* Whatever the pool and the schedule, a call that is over has the outcome of the
   serial loop. *)
Theorem C12_apply_is_serial : forall (A B : Type) (pool : option nat) (func : A -> option B) (xs : list A)
    (sched : list event) (r : outcome (list B)),
  async_apply pool func xs sched = Some r ->
  r = mapM (fun x => match func x with Some b => Ok b | None => Throw end) xs.
Proof. exact @async_apply_spec. Qed.
Print Assumptions C12_apply_is_serial.

Theorem C12_apply_map_is_serial : forall (K A B : Type) (HK : OrdKey K) (pool : option nat)
    (func : K -> A -> option B) (xs : smap K A) (sched : list event) (r : outcome (smap K B)),
  wf_map xs -> async_apply_map pool func xs sched = Some r ->
  r = apply_mapM xs (fun k a => match func k a with Some b => Ok b | None => Throw end).
Proof. exact @async_apply_map_spec. Qed.
Print Assumptions C12_apply_map_is_serial.

(* such schedules exist *)
Theorem C12_apply_completes : forall (A B : Type) (pool : option nat) (func : A -> option B) (xs : list A),
  exists sched, async_apply pool func xs sched = Some (mapM (or_throw func) xs).
Proof. exact @async_apply_completes. Qed.
Print Assumptions C12_apply_completes.
Theorem C12_apply_map_completes : forall (K A B : Type) (HK : OrdKey K) (pool : option nat)
    (func : K -> A -> option B) (xs : smap K A),
  wf_map xs -> exists sched, async_apply_map pool func xs sched =
    Some (apply_mapM xs (fun k a => of_option Throw (func k a))).
Proof. exact @async_apply_map_completes. Qed.
Print Assumptions C12_apply_map_completes.

Definition ex_f (x : nat) : option nat := if x =? 9 then None else Some (10 * x).
Definition ex_sched : list event :=
  [EEnqueue; ETake 0; EEnqueue; EEnqueue; ETake 2; EFinish 2; ETake 1; EFinish 1; EFinish 0; EGet; EGet; EGet].
Example C12_apply_ex :
  async_apply (Some 2) ex_f [5; 6; 7] ex_sched = Some (Ok [50; 60; 70]) /\
  async_apply (Some 2) ex_f [5; 9; 7] (firstn 11 ex_sched) = Some Throw /\
  async_apply (Some 1) ex_f [5; 6; 7] ex_sched = Some (Ok [50; 60; 70]) /\
  async_apply_map (Some 2) (fun k x => if x =? 9 then None else Some (k + x)) [(3, 5); (4, 6); (8, 7)] ex_sched
    = Some (Ok [(3, 8); (4, 10); (8, 15)]).
Proof. repeat split; reflexivity. Qed.

(* The caller never deadlocks: every partial schedule extends to one in which the
   call is over, and a schedule that cannot be continued is over. *)
Theorem C12_no_deadlock : forall (S B : Type) (threads : nat) (tasks : list (task S B)) (order : list nat),
  Permutation order (seq 0 (length tasks)) ->
  forall mem sched st, 0 < threads ->
  pool_run threads tasks order (pool_init tasks order mem) sched = Some st ->
  exists more st', pool_run threads tasks order (pool_init tasks order mem) (sched ++ more) = Some st' /\
    pool_outcome st' <> None.
Proof. exact @pool_no_deadlock. Qed.
Print Assumptions C12_no_deadlock.
Theorem C12_stuck_is_over : forall (S B : Type) (threads : nat) (tasks : list (task S B)) (order : list nat),
  Permutation order (seq 0 (length tasks)) ->
  forall mem sched st, 0 < threads ->
  pool_run threads tasks order (pool_init tasks order mem) sched = Some st ->
  (forall e, pool_step threads tasks order st e = None) -> pool_outcome st <> None.
Proof. exact @pool_stuck_is_over. Qed.
Print Assumptions C12_stuck_is_over.

(* and it terminates: no schedule is longer than this *)
Theorem C12_bounded : forall (S B : Type) (threads : nat) (tasks : list (task S B)) (order : list nat),
  Permutation order (seq 0 (length tasks)) ->
  forall mem sched st, pool_run threads tasks order (pool_init tasks order mem) sched = Some st ->
  length sched <= 4 * length tasks + length (concat (map t_steps tasks)).
Proof. exact @pool_bounded. Qed.
Print Assumptions C12_bounded.

(* No task is started twice, at most [threads] run at a time, and when the call
   returns every task has been started, has finished, and no worker is still
   busy. *)
Theorem C12_started_once : forall (S B : Type) (threads : nat) (tasks : list (task S B)) (order : list nat)
    mem sched st,
  pool_run threads tasks order (pool_init tasks order mem) sched = Some st ->
  NoDup (ps_started st) /\ Forall (fun i => i < length tasks) (ps_started st) /\
  length (ps_running st) <= threads.
Proof. exact @pool_started_once. Qed.
Print Assumptions C12_started_once.
Theorem C12_returned_all_done : forall (S B : Type) (threads : nat) (tasks : list (task S B)) (order : list nat),
  Permutation order (seq 0 (length tasks)) ->
  forall mem sched st out,
  pool_run threads tasks order (pool_init tasks order mem) sched = Some st ->
  pool_outcome st = Some (Ok out) ->
  ps_queue st = [] /\ ps_running st = [] /\
  Permutation (ps_started st) (seq 0 (length tasks)) /\
  Permutation (map fst (ps_done st)) (seq 0 (length tasks)).
Proof. exact @pool_returned_all_done. Qed.
Print Assumptions C12_returned_all_done.

(* Tasks that write to shared memory: if the actions of different tasks commute,
   the final memory is the one of running the tasks one after the other. *)
Theorem C12_shared_memory : forall (S B : Type) (threads : nat) (tasks : list (task S B)) (order : list nat),
  Permutation order (seq 0 (length tasks)) ->
  forall mem sched st out,
  (forall i j a b, i <> j -> In a (steps_of tasks i) -> In b (steps_of tasks j) -> forall s, a (b s) = b (a s)) ->
  pool_run threads tasks order (pool_init tasks order mem) sched = Some st ->
  pool_outcome st = Some (Ok out) ->
  ps_mem st = fold_left (fun s a => a s) (concat (map t_steps tasks)) mem.
Proof. exact @pool_memory. Qed.
Print Assumptions C12_shared_memory.

Definition ex_tasks : list (task nat nat) := [Task [fun s => s + 1; fun s => s + 2] (Some 7); Task [fun s => s + 4] (Some 8)].
Example C12_shared_memory_ex :
  Permutation [0; 1] (seq 0 (length ex_tasks)) /\
  (forall i j a b, i <> j -> In a (steps_of ex_tasks i) -> In b (steps_of ex_tasks j) -> forall s, a (b s) = b (a s)) /\
  exists st, pool_run 2 ex_tasks [0; 1] (pool_init ex_tasks [0; 1] 0)
    [EEnqueue; EEnqueue; ETake 1; ETake 0; EStep 0; EStep 1; EStep 0; EFinish 1; EFinish 0; EGet; EGet] = Some st /\
    pool_outcome st = Some (Ok [7; 8]) /\ ps_mem st = 7.
Proof.
  split; [reflexivity|]. split.
  - intros i j a b Hij Ha Hb s.
    destruct i as [|[|[|i]]], j as [|[|[|j]]]; cbn in Ha, Hb; try contradiction;
      repeat match goal with H : _ \/ _ |- _ => destruct H | H : False |- _ => destruct H end; subst; lia.
  - eexists. split; [reflexivity|]. split; reflexivity.
Qed.

(* What does not hold: when a task throws, the call may be over while other tasks
   are still queued or running (they refer to the caller's variables). *)
Theorem C12_exception_waits_refuted : exists (threads : nat) (tasks : list (task unit nat)) (sched : list event) st,
  pool_run threads tasks (seq 0 (length tasks)) (pool_init tasks (seq 0 (length tasks)) tt) sched = Some st /\
  pool_outcome st = Some Throw /\ ps_running st <> [] /\ ps_queue st <> [].
Proof.
  exists 2, [Task [] None; Task [] (Some 1); Task [] (Some 2)],
    [EEnqueue; EEnqueue; EEnqueue; ETake 0; ETake 1; EFinish 0; EGet].
  eexists. split; [reflexivity|]. repeat split; discriminate.
Qed.
Print Assumptions C12_exception_waits_refuted.

(* make_shared_thread_pool / get_thread_count *)
Theorem C12_thread_count : forall hardware num_threads,
  (get_thread_count (make_shared_thread_pool hardware num_threads) =
     if num_threads =? 0 then Nat.max 1 hardware else num_threads) /\
  (should_serial_apply (make_shared_thread_pool hardware num_threads) = true <->
     get_thread_count (make_shared_thread_pool hardware num_threads) <= 1).
Proof. exact thread_count_spec. Qed.
Print Assumptions C12_thread_count.
Example C12_thread_count_ex :
  make_shared_thread_pool 8 0 = Some 8 /\ make_shared_thread_pool 8 1 = None /\ make_shared_thread_pool 0 0 = Some 1.
Proof. repeat split; reflexivity. Qed.

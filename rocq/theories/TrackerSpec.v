(* Vocabulary of C85. *)
From Coq Require Import Sorted.
From Verif Require Import Base ExtRealModel StdMapModel ParamsModel CsvModel TrackerModel.

(* the states of a run with their iterations, in the order of the calls *)
Definition states (history : list (list sampler_state)) : list (nat * sampler_state) :=
  concat (map (fun ie => map (pair (fst ie)) (snd ie)) (combine (seq 0 (length history)) history)).
(* best is the first of the states with the largest log probability; those that are not a number do not count *)
Definition first_best (all : list (nat * sampler_state)) (best : nat * sampler_state) : Prop :=
  exists before after, all = before ++ best :: after /\ ss_log_prob (snd best) <> XNaN /\
    Forall (fun s => ss_log_prob (snd s) = XNaN \/ xltb (ss_log_prob (snd s)) (ss_log_prob (snd best)) = true) before /\
    Forall (fun s => ss_log_prob (snd s) = XNaN \/ xleb (ss_log_prob (snd s)) (ss_log_prob (snd best)) = true) after.
(* nothing to record *)
Definition impossible (s : nat * sampler_state) : Prop := ss_log_prob (snd s) = XNaN \/ ss_log_prob (snd s) = XNeg.

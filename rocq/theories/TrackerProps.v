(* C85: tracking the most likely state of an ensemble sampler. *)
From Coq Require Import Reals Sorted Lra String.
From Verif Require Import Base ExtRealModel StdMapModel PriorModel ParamsModel ParamsSpec CsvModel TrackerModel TrackerSpec TrackerProofs.
Open Scope nat_scope.
Open Scope list_scope.

(* for every run whose states have as many parameters as are tunable: if no state is possible nothing is recorded; otherwise the callback
   ends with the log probability of the first most likely state and the store with its parameters, which was the last thing written *)
Theorem C85_tracks : forall s0 history, wf_map s0 ->
  Forall (fun s => length (ss_params (snd s)) = length (tunables s0)) (states history) ->
  exists t, track_history s0 history = Ok t /\
    ((Forall impossible (states history) /\ max_ll t = XNeg /\ tracked t = s0 /\ written t = []) \/
     exists best, first_best (states history) best /\ max_ll t = ss_log_prob (snd best) /\
       set_tunable_params_values s0 (ss_params (snd best)) true = Ok (tracked t) /\
       exists earlier, written t = earlier ++ [(fst best, max_ll t, tracked t)]).
Proof.
  intros s0 history W S. destruct (tracked_spec s0 W history S) as [t [E [H _]]]. exists t. split; [exact E|].
  destruct H as [[F ->]|[best [FB [_ [M [P Q]]]]]]; [left; repeat split; assumption|right; exists best; auto].
Qed.
Print Assumptions C85_tracks.

(* what is written has increasing log probabilities *)
Theorem C85_increasing : forall s0 history t, wf_map s0 ->
  Forall (fun s => length (ss_params (snd s)) = length (tunables s0)) (states history) ->
  track_history s0 history = Ok t -> StronglySorted (fun a b => xltb (snd (fst a)) (snd (fst b)) = true) (written t).
Proof.
  intros s0 history t W S E. destruct (tracked_spec s0 W history S) as [t' [E' [_ [H _]]]]. rewrite E in E'. injection E' as <-. exact H.
Qed.
Print Assumptions C85_increasing.

Example C85_meets : let s0 := [("a"%string, Param (XFin 1) UninformativePrior); ("b"%string, Param (XFin 2) (FixedPrior))] in
  let h := [[SS [XFin 5] XNaN false; SS [XFin 6] (XFin 1) true]; [SS [XFin 7] (XFin 3) true; SS [XFin 8] (XFin 3) true; SS [XFin 9] XNeg true]] in
  wf_map s0 /\ Forall (fun s => length (ss_params (snd s)) = length (tunables s0)) (states h) /\
  first_best (states h) (1, SS [XFin 7] (XFin 3) true).
Proof.
  cbv zeta. split; [repeat constructor|]. split; [repeat constructor|].
  exists [(0, SS [XFin 5] XNaN false); (0, SS [XFin 6] (XFin 1) true)], [(1, SS [XFin 8] (XFin 3) true); (1, SS [XFin 9] XNeg true)].
  split; [reflexivity|]. split; [discriminate|]. split; (constructor; [|constructor; [|constructor]]); cbn.
  - auto.
  - right. unfold Rltb. destruct (Rlt_dec 1 3); [reflexivity|lra].
  - right. unfold Rleb. destruct (Rle_dec 3 3); [reflexivity|lra].
  - auto.
Qed.

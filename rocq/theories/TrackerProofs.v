From Coq Require Import Sorted Lia.
From Verif Require Import Base BaseProofs ExtRealModel ExtRealProofs StdMapModel ParamsModel ParamsSpec ParamsProofs CsvModel TrackerModel TrackerSpec.

Lemma assign_tunables_tunables fb s : forall x, length x = length (tunables s) -> length (tunables (assign_tunables fb s x)) = length (tunables s).
Proof.
  induction s as [|[k p] s IH]; intros x L; [reflexivity|]. cbn [assign_tunables tunables filter snd] in *. destruct (param_fixed p) eqn:E; cbn [negb] in *.
  - cbn [tunables filter snd]. rewrite E. cbn [negb]. apply IH. exact L.
  - destruct x as [|v x]; [discriminate|]. cbn [tunables filter snd]. change (param_fixed (Param (new_value fb p v) (p_prior p))) with (param_fixed p).
    rewrite E. cbn [negb length] in *. f_equal. apply IH. injection L. auto.
Qed.
Lemma assign_twice fb s : forall x y, length x = length (tunables s) -> length y = length (tunables s) ->
  assign_tunables fb (assign_tunables fb s x) y = assign_tunables fb s y.
Proof.
  induction s as [|[k p] s IH]; intros x y L L'; [reflexivity|]. cbn [assign_tunables tunables filter snd] in *. destruct (param_fixed p) eqn:E; cbn [negb] in *.
  - cbn [assign_tunables]. rewrite E. f_equal. apply IH; assumption.
  - destruct x as [|v x]; [discriminate|]. destruct y as [|w y]; [discriminate|]. cbn [assign_tunables].
    change (param_fixed (Param (new_value fb p v) (p_prior p))) with (param_fixed p). rewrite E. f_equal. apply IH; cbn in *; [injection L|injection L']; auto.
Qed.
Lemma set_twice s x y s' : wf_map s -> length x = length (tunables s) -> length y = length (tunables s) ->
  set_tunable_params_values s x true = Ok s' ->
  exists s'', set_tunable_params_values s' y true = Ok s'' /\ set_tunable_params_values s y true = Ok s''.
Proof.
  intros W L L' E. rewrite set_tunable_spec in E by exact W. rewrite L, Nat.ltb_irrefl in E. injection E as <-.
  exists (assign_tunables true s y). split.
  - rewrite set_tunable_spec. 2:{ eapply wf_keys_eq; [symmetry; apply assign_keys|exact W]. lia. }
    rewrite assign_tunables_tunables, L', Nat.ltb_irrefl by exact L. f_equal. apply assign_twice; assumption.
  - rewrite set_tunable_spec by exact W. rewrite L', Nat.ltb_irrefl. reflexivity.
Qed.
Lemma set_ok s x : wf_map s -> length x = length (tunables s) -> exists s', set_tunable_params_values s x true = Ok s'.
Proof. intros W L. rewrite set_tunable_spec by exact W. rewrite L, Nat.ltb_irrefl. eauto. Qed.

Lemma xltb_trans a b c : xltb a b = true -> xltb b c = true -> xltb a c = true.
Proof. intros H1 H2. eapply xltb_leb_trans; [exact H1|]. apply xltb_leb. exact H2. Qed.
Lemma xltb_nan a b : xltb a b = true -> a <> XNaN /\ b <> XNaN.
Proof. intros H. apply xltb_leb in H. apply xleb_not_nan. exact H. Qed.
Lemma xneg_ltb a : xltb XNeg a = false -> a = XNaN \/ a = XNeg.
Proof. destruct a; cbn; auto; discriminate. Qed.

Section Run.
Variable s0 : store.
Hypothesis W : wf_map s0.
(* what holds after some states *)
Definition ll (r : nat * xr * store) : xr := snd (fst r).
Definition tracks (done : list (nat * sampler_state)) (t : tracker) : Prop :=
  ((Forall impossible done /\ t = new_tracker s0) \/
   (exists best, first_best done best /\ xltb XNeg (max_ll t) = true /\ max_ll t = ss_log_prob (snd best) /\
     set_tunable_params_values s0 (ss_params (snd best)) true = Ok (tracked t) /\
     exists w, written t = w ++ [(fst best, max_ll t, tracked t)])) /\
  StronglySorted (fun a b => xltb (ll a) (ll b) = true) (written t) /\
  Forall (fun r => ll r = max_ll t \/ xltb (ll r) (max_ll t) = true) (written t).
Definition sized (s : nat * sampler_state) : Prop := length (ss_params (snd s)) = length (tunables s0).

Lemma impossible_lt s best : impossible s -> xltb XNeg best = true -> ss_log_prob (snd s) = XNaN \/ xltb (ss_log_prob (snd s)) best = true.
Proof. intros [H|H]; [auto|]. rewrite H. auto. Qed.
Lemma sorted_snoc A (P : A -> A -> Prop) l x : StronglySorted P l -> Forall (fun y => P y x) l -> StronglySorted P (l ++ [x]).
Proof.
  induction 1; intros F; cbn; [repeat constructor|]. inversion F; subst. constructor; [auto|]. apply Forall_app. split; [assumption|]. repeat constructor. assumption.
Qed.
Lemma track_step done t s : Forall sized done -> sized s -> tracks done t ->
  exists t', track_state (fst s) t (snd s) = Ok t' /\ tracks (done ++ [s]) t'.
Proof.
  intros SD SS [H [SO FO]]. unfold track_state. destruct (xltb (max_ll t) (ss_log_prob (snd s))) eqn:C.
  - (* recorded *)
    assert (exists s', set_tunable_params_values (tracked t) (ss_params (snd s)) true = Ok s' /\ set_tunable_params_values s0 (ss_params (snd s)) true = Ok s') as [s' [E1 E2]].
    { destruct H as [[_ ->]|[best [FB [_ [_ [E _]]]]]].
      - destruct (set_ok s0 (ss_params (snd s)) W SS) as [s' E]. exists s'. auto.
      - apply (set_twice s0 (ss_params (snd best))); auto. destruct FB as [b [a [-> _]]]. rewrite Forall_forall in SD. apply SD. apply in_elt. }
    rewrite E1. cbn [bind]. eexists. split; [reflexivity|]. unfold tracks. cbn [max_ll tracked written].
    assert (xltb XNeg (ss_log_prob (snd s)) = true) as N.
    { destruct H as [[_ ->]|[best [_ [N _]]]]; [exact C|]. eapply xltb_trans; eassumption. }
    split; [|split].
    + right. exists s. split.
      * exists done, []. split; [reflexivity|]. split; [apply (xltb_nan _ _ C)|]. split; [|constructor].
        destruct H as [[F _]|[best [[b [a [-> [NB [FB FA]]]]] [_ [M _]]]]].
        -- eapply Forall_impl; [|exact F]. intros x I. apply impossible_lt; assumption.
        -- rewrite M in C. apply Forall_app. split; [|constructor].
           ++ eapply Forall_impl; [|exact FB]. cbn. intros x [I|I]; [auto|]. right. eapply xltb_trans; eassumption.
           ++ auto.
           ++ eapply Forall_impl; [|exact FA]. cbn. intros x [I|I]; [auto|]. right. 
              destruct (xltb (ss_log_prob (snd x)) (ss_log_prob (snd s))) eqn:Z; [reflexivity|].
              destruct (xleb_not_nan _ _ I) as [NX _]. apply xnlt_leb in Z; [|assumption|apply (xltb_nan _ _ C)].
              pose proof (xltb_leb_trans _ _ _ C Z) as Y. apply xleb_ltb in I. congruence.
      * split; [exact N|]. split; [reflexivity|]. split; [exact E2|]. eexists. reflexivity.
    + apply sorted_snoc; [exact SO|]. eapply Forall_impl; [|exact FO]. cbn. intros r [I|I]; [rewrite I; exact C|eapply xltb_trans; eassumption].
    + apply Forall_app. split; [|repeat constructor]. eapply Forall_impl; [|exact FO]. cbn. intros r [I|I]; right; [rewrite I; exact C|eapply xltb_trans; eassumption].
  - eexists. split; [reflexivity|]. split; [|auto]. destruct H as [[F ->]|[best [[b [a [-> [NB [FB FA]]]]] [N [M [E HW]]]]]].
    + left. split; [|reflexivity]. apply Forall_app. split; [exact F|]. constructor; [|constructor]. apply xneg_ltb in C. exact C.
    + right. exists best. split; [|auto]. exists b, (a ++ [s]). split; [rewrite <- app_assoc; reflexivity|]. split; [exact NB|]. split; [exact FB|].
      apply Forall_app. split; [exact FA|]. constructor; [|constructor]. destruct (ss_log_prob (snd s)) eqn:Z; auto; right; rewrite <- Z in *; rewrite M in C;
        apply xnlt_leb in C; auto; rewrite Z; discriminate.
Qed.
Lemma track_all todo : forall done t, Forall sized (done ++ todo) -> tracks done t ->
  exists t', foldM (fun t s => track_state (fst s) t (snd s)) todo t = Ok t' /\ tracks (done ++ todo) t'.
Proof.
  induction todo as [|s todo IH]; intros done t S T; cbn.
  - exists t. rewrite app_nil_r. auto.
  - pose proof S as S'. apply Forall_app in S'. destruct S' as [SD ST]. inversion ST; subst.
    destruct (track_step done t s) as [t1 [E1 T1]]; auto. rewrite E1. cbn [bind].
    destruct (IH (done ++ [s]) t1) as [t2 [E2 T2]]; auto; [rewrite <- app_assoc; exact S|]. exists t2. rewrite E2. rewrite <- app_assoc in T2. auto.
Qed.
Lemma foldM_app {A S} (f : S -> A -> outcome S) l1 : forall l2 s, foldM f (l1 ++ l2) s = (s' <- foldM f l1 s ;; foldM f l2 s').
Proof. induction l1; intros; cbn; [reflexivity|]. destruct (f s a); cbn; auto. Qed.
Lemma foldM_map {A C S} (f : S -> C -> outcome S) (g : A -> C) l : forall s, foldM f (map g l) s = foldM (fun s a => f s (g a)) l s.
Proof. induction l; intros; cbn; [reflexivity|]. destruct (f s (g a)); cbn; auto. Qed.
Lemma history_flat l : forall t, foldM (fun t ie => track t (fst ie) (snd ie)) l t =
  foldM (fun t s => track_state (fst s) t (snd s)) (concat (map (fun ie => map (pair (fst ie)) (snd ie)) l)) t.
Proof.
  induction l as [|[i e] l IH]; intros t; cbn; [reflexivity|]. rewrite foldM_app, foldM_map. cbn. unfold track. destruct (foldM (track_state i) e t); cbn; auto.
Qed.
Theorem tracked_spec history : Forall sized (states history) -> exists t, track_history s0 history = Ok t /\ tracks (states history) t.
Proof.
  intros S. unfold track_history. rewrite history_flat. apply (track_all (states history) []); [exact S|].
  split; [left; split; [constructor|reflexivity]|]. cbn. split; constructor.
Qed.
End Run.

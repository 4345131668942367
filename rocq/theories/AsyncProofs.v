From Verif Require Import Base BaseProofs StdMapModel StdMapProofs FoldsModel FoldsProofs AsyncModel.
From Coq Require Import Permutation.

Lemma pick_spec {A} (p : A -> bool) l a r :
  pick p l = Some (a, r) -> p a = true /\ Permutation l (a :: r).
Proof.
  revert a r. induction l as [|x l IH]; cbn; intros a r E; [discriminate|].
  destruct (p x) eqn:Ep.
  - injection E as <- <-. split; [exact Ep|reflexivity].
  - destruct (pick p l) as [[b r']|]; [|discriminate]. injection E as <- <-.
    destruct (IH b r' eq_refl) as [Hb HP]. split; [exact Hb|].
    rewrite HP. apply perm_swap.
Qed.

Lemma pick_exists {A} (p : A -> bool) l a :
  In a l -> p a = true -> exists b r, pick p l = Some (b, r).
Proof.
  induction l as [|x l IH]; cbn; [intros []|]. intros [->|Hin] Hp.
  - rewrite Hp. eauto.
  - destruct (p x); [eauto|]. destruct (IH Hin Hp) as [b [r ->]]. eauto.
Qed.

Lemma find_spec {A} (p : A -> bool) l a : find p l = Some a -> In a l /\ p a = true.
Proof. apply find_some. Qed.

Section Inv.
Context {S B : Type}.
Variable threads : nat.
Variable tasks : list (task S B).
Variable order : list nat.
Hypothesis Hord : Permutation order (seq 0 (length tasks)).
Let n := length tasks.

Definition enqueued (m : main_state B) : nat :=
  match m with Enqueueing k => k | _ => n end.

Definition main_ok (m : main_state B) (done : list (nat * option B)) : Prop :=
  match m with
  | Enqueueing k => k < n
  | Getting i rest out =>
      exists got, order = got ++ i :: rest /\
        mapM (fun j => of_option Throw (match nth_error tasks j with Some t => t_result t | None => None end)) got = Ok out /\
        Forall (fun j => In j (map fst done)) got
  | Returned out =>
      mapM (fun j => of_option Throw (match nth_error tasks j with Some t => t_result t | None => None end)) order = Ok out /\
      Forall (fun j => In j (map fst done)) order
  | Raised =>
      mapM (fun j => of_option Throw (match nth_error tasks j with Some t => t_result t | None => None end)) order = Throw
  end.

Record inv (st : pool_state S B) : Prop := {
  inv_perm : Permutation (ps_queue st ++ map fst (ps_running st) ++ map fst (ps_done st))
                         (seq 0 (enqueued (ps_main st)));
  inv_enq : enqueued (ps_main st) <= n;
  inv_started : Permutation (ps_started st) (map fst (ps_running st) ++ map fst (ps_done st));
  inv_done : forall i r, In (i, r) (ps_done st) -> exists t, nth_error tasks i = Some t /\ r = t_result t;
  inv_threads : length (ps_running st) <= threads;
  inv_main : main_ok (ps_main st) (ps_done st) }.

Lemma next_get_ok got rest out done :
  order = got ++ rest ->
  mapM (fun j => of_option Throw (match nth_error tasks j with Some t => t_result t | None => None end)) got = Ok out ->
  Forall (fun j => In j (map fst done)) got ->
  main_ok (next_get rest out) done /\ enqueued (next_get rest out) = n.
Proof.
  intros Ho Hm Hf. destruct rest as [|i rest]; cbn.
  - rewrite app_nil_r in Ho. subst got. auto.
  - split; [|reflexivity]. exists got. auto.
Qed.

Lemma next_enqueue_ok k done : k <= n ->
  main_ok (next_enqueue tasks order k) done /\ enqueued (next_enqueue tasks order k) = k.
Proof.
  intros Hk. unfold next_enqueue. destruct (Nat.ltb_spec k (length tasks)).
  - split; [exact H|reflexivity].
  - destruct (next_get_ok [] order [] done) as [H1 H2]; [reflexivity|reflexivity|constructor|].
    split; [exact H1|]. rewrite H2. unfold n in *. lia.
Qed.

Lemma inv_init mem : inv (pool_init tasks order mem).
Proof.
  destruct (next_enqueue_ok 0 [] (Nat.le_0_l _)) as [H1 H2].
  constructor; cbn; try (rewrite H2); try reflexivity; try lia; try easy.
Qed.

Lemma mapM_app {A C} (f : A -> outcome C) l1 l2 :
  mapM f (l1 ++ l2) = (x <- mapM f l1 ;; y <- mapM f l2 ;; Ok (x ++ y)).
Proof.
  induction l1 as [|a l1 IH]; cbn.
  - destruct (mapM f l2); reflexivity.
  - destruct (f a); cbn; try reflexivity. rewrite IH.
    destruct (mapM f l1); cbn; try reflexivity. destruct (mapM f l2); reflexivity.
Qed.

Lemma inv_step st e st' : inv st -> pool_step threads tasks order st e = Some st' -> inv st'.
Proof.
  destruct st as [main queue running done started mem].
  intros [Hp He Hs Hd Ht Hm] E. cbn [ps_main ps_queue ps_running ps_done ps_started ps_mem] in *.
  destruct e as [|i|i|i|]; cbn [pool_step] in E.
  - destruct main as [k| | |]; try discriminate. injection E as <-.
    cbn in Hm. destruct (next_enqueue_ok (k + 1) done) as [H1 H2]; [lia|].
    constructor; cbn [ps_main ps_queue ps_running ps_done ps_started ps_mem]; try rewrite H2; try assumption; try lia.
    cbn [enqueued] in Hp. rewrite Nat.add_1_r, seq_S. cbn [Nat.add].
    rewrite <- Hp. rewrite <- !app_assoc. apply Permutation_app_head.
    cbn. rewrite app_assoc. apply Permutation_cons_append.
  - destruct (Nat.ltb_spec (length running) threads); [|discriminate].
    destruct (pick (Nat.eqb i) queue) as [[j queue']|] eqn:Ep; [|discriminate].
    destruct (nth_error tasks i) as [t|] eqn:En; [|discriminate]. injection E as <-.
    apply pick_spec in Ep as [Hj HP]. apply Nat.eqb_eq in Hj. subst j.
    constructor; cbn [ps_main ps_queue ps_running ps_done ps_started ps_mem map fst]; try assumption.
    + rewrite <- Hp, HP. cbn. symmetry. apply Permutation_middle.
    + rewrite <- Permutation_cons_append. cbn. constructor. exact Hs.
  - destruct (pick (fun r => fst r =? i) running) as [[[j [|a rem]] running']|] eqn:Ep; try discriminate.
    injection E as <-. apply pick_spec in Ep as [Hj HP]. apply Nat.eqb_eq in Hj. cbn in Hj. subst j.
    pose proof (Permutation_map fst HP) as HPm. cbn in HPm.
    constructor; cbn [ps_main ps_queue ps_running ps_done ps_started ps_mem map fst]; try assumption.
    + rewrite <- Hp. apply Permutation_app_head, Permutation_app_tail. symmetry. exact HPm.
    + rewrite Hs. apply Permutation_app_tail. exact HPm.
    + apply Permutation_length in HP. cbn in *. lia.
  - destruct (pick (fun r => fst r =? i) running) as [[[j [|a rem]] running']|] eqn:Ep; try discriminate.
    destruct (nth_error tasks i) as [t|] eqn:En; [|discriminate].
    injection E as <-. apply pick_spec in Ep as [Hj HP]. apply Nat.eqb_eq in Hj. cbn in Hj. subst j.
    pose proof (Permutation_map fst HP) as HPm. cbn in HPm.
    constructor; cbn [ps_main ps_queue ps_running ps_done ps_started ps_mem map fst]; try assumption.
    + rewrite <- Hp. apply Permutation_app_head. rewrite HPm. cbn. symmetry. apply Permutation_middle.
    + rewrite Hs, HPm. cbn. apply Permutation_middle.
    + intros j r [Heq|Hin]; [|auto]. injection Heq as <- <-. eauto.
    + apply Permutation_length in HP. cbn in *. lia.
    + destruct main; cbn in *; auto.
      * destruct Hm as [got [H1 [H2 H3]]]. exists got. repeat split; auto.
        eapply Forall_impl; [|exact H3]. auto.
      * destruct Hm as [H1 H2]. split; [exact H1|]. eapply Forall_impl; [|exact H2]. auto.
  - destruct main as [|i rest out| |]; try discriminate.
    destruct (find (fun d => fst d =? i) done) as [[j [b|]]|] eqn:Ef; [| |discriminate]; injection E as <-;
      apply find_spec in Ef as [Hin Hj]; cbn in Hj; apply Nat.eqb_eq in Hj; subst j.
    + cbn in Hm. destruct Hm as [got [Ho [Hm Hg]]].
      destruct (Hd i _ Hin) as [t [Et Er]].
      destruct (next_get_ok (got ++ [i]) rest (out ++ [b]) done) as [H1 H2].
      * rewrite <- app_assoc. exact Ho.
      * rewrite mapM_app, Hm. cbn. rewrite Et, <- Er. reflexivity.
      * apply Forall_app. split; [exact Hg|]. constructor; [|constructor].
        apply (in_map fst) in Hin. exact Hin.
      * constructor; cbn [ps_main ps_queue ps_running ps_done ps_started ps_mem]; try rewrite H2; try assumption; lia.
    + cbn in Hm. destruct Hm as [got [Ho [Hm Hg]]].
      destruct (Hd i _ Hin) as [t [Et Er]].
      constructor; cbn [ps_main ps_queue ps_running ps_done ps_started ps_mem main_ok]; try assumption.
      rewrite Ho, mapM_app, Hm. cbn. rewrite Et, <- Er. reflexivity.
Qed.

Lemma inv_run sched st st' : inv st -> pool_run threads tasks order st sched = Some st' -> inv st'.
Proof.
  revert st. induction sched as [|e sched IH]; intros st Hi E; cbn in E.
  - injection E as <-. exact Hi.
  - destruct (pool_step threads tasks order st e) as [st1|] eqn:Es; [|discriminate].
    eapply IH; [|exact E]. eapply inv_step; eauto.
Qed.

(* no deadlock *)
Lemma pool_progress st : inv st -> 0 < threads -> pool_outcome st = None ->
  exists e st', pool_step threads tasks order st e = Some st'.
Proof.
  destruct st as [main queue running done started mem].
  intros [Hp He Hs Hd Ht Hm] Hth Ho. cbn [ps_main ps_queue ps_running ps_done ps_started ps_mem] in *.
  destruct main as [k|i rest out| |]; try discriminate.
  - exists EEnqueue. cbn. eauto.
  - destruct (find (fun d => fst d =? i) done) as [[j r]|] eqn:Ef.
    { exists EGet. cbn. rewrite Ef. destruct r; eauto. }
    destruct running as [|[j rem] running].
    + cbn [map app] in Hp. destruct queue as [|q queue].
      * exfalso. cbn in Hm. destruct Hm as [got [Hor _]].
        assert (In i (seq 0 (enqueued (Getting i rest out)))) as Hin.
        { cbn [enqueued]. apply (Permutation_in _ Hord). rewrite Hor. apply in_or_app. right. left. reflexivity. }
        apply (Permutation_in _ (Permutation_sym Hp)) in Hin. cbn in Hin.
        apply in_map_iff in Hin as [[j r] [Hj Hin]]. cbn in Hj. subst j.
        pose proof (find_none _ _ Ef _ Hin) as Hf. cbn in Hf. rewrite Nat.eqb_refl in Hf. discriminate.
      * exists (ETake q). cbn. destruct (Nat.ltb_spec 0 threads); [|lia].
        rewrite Nat.eqb_refl.
        assert (In q (seq 0 n)) as Hq.
        { apply (Permutation_in _ Hp). left. reflexivity. }
        apply in_seq in Hq. destruct (nth_error tasks q) eqn:En; [eauto|].
        apply nth_error_None in En. unfold n in *. lia.
    + destruct rem as [|a rem].
      * exists (EFinish j). cbn. rewrite Nat.eqb_refl.
        assert (In j (seq 0 n)) as Hq.
        { apply (Permutation_in _ Hp). apply in_or_app. right. left. reflexivity. }
        apply in_seq in Hq. destruct (nth_error tasks j) eqn:En; [eauto|].
        apply nth_error_None in En. unfold n in *. lia.
      * exists (EStep j). cbn. rewrite Nat.eqb_refl. eauto.
Qed.

(* every event uses up something *)
Definition weight (i : nat) : nat :=
  match nth_error tasks i with Some t => length (t_steps t) | None => 0 end.

Definition main_work (m : main_state B) : nat :=
  match m with
  | Enqueueing k => (n - k) + list_sum (map (fun i => 2 + weight i) (seq k (n - k))) + n
  | Getting _ rest _ => 1 + length rest
  | Returned _ => 0
  | Raised => 0
  end.

Definition work (st : pool_state S B) : nat :=
  main_work (ps_main st) + list_sum (map (fun i => 2 + weight i) (ps_queue st)) +
  list_sum (map (fun r => 1 + length (snd r)) (ps_running st)).

Lemma list_sum_perm l l' : Permutation l l' -> list_sum l = list_sum l'.
Proof. unfold list_sum. induction 1; cbn [fold_right] in *; lia. Qed.

Lemma order_length : length order = n.
Proof. apply Permutation_length in Hord. rewrite Hord, seq_length. reflexivity. Qed.

Lemma next_enqueue_work k : k <= n ->
  main_work (next_enqueue tasks order k) <= (n - k) + list_sum (map (fun i => 2 + weight i) (seq k (n - k))) + n.
Proof.
  intros Hk. unfold next_enqueue. fold n. destruct (Nat.ltb_spec k n); cbn [main_work]; [lia|].
  pose proof order_length. destruct order; cbn in *; lia.
Qed.

Lemma step_work st e st' : inv st -> pool_step threads tasks order st e = Some st' -> work st' < work st.
Proof.
  destruct st as [main queue running done started mem].
  intros [Hp He Hs Hd Ht Hm] E. cbn [ps_main ps_queue ps_running ps_done ps_started ps_mem] in *.
  unfold work.
  destruct e as [|i|i|i|]; cbn [pool_step] in E.
  - destruct main as [k| | |]; try discriminate. injection E as <-. cbn in Hm.
    cbn [ps_main ps_queue ps_running].
    pose proof (next_enqueue_work (k + 1)) as Hw. specialize (Hw ltac:(lia)).
    assert (list_sum (map (fun i => 2 + weight i) (seq k (n - k))) =
            2 + weight k + list_sum (map (fun i => 2 + weight i) (seq (k + 1) (n - (k + 1))))) as Hk.
    { replace (n - k) with (1 + (n - (k + 1))) by lia. rewrite Nat.add_1_r. reflexivity. }
    assert (list_sum (map (fun i => 2 + weight i) (queue ++ [k])) =
            list_sum (map (fun i => 2 + weight i) queue) + (2 + weight k)) as Hq.
    { rewrite map_app, list_sum_app. cbn. lia. }
    cbn [main_work]. rewrite Hk, Hq. lia.
  - destruct (Nat.ltb_spec (length running) threads); [|discriminate].
    destruct (pick (Nat.eqb i) queue) as [[j queue']|] eqn:Ep; [|discriminate].
    destruct (nth_error tasks i) as [t|] eqn:En; [|discriminate]. injection E as <-.
    apply pick_spec in Ep as [Hj HP]. apply Nat.eqb_eq in Hj. subst j.
    cbn [ps_main ps_queue ps_running map snd].
    rewrite (list_sum_perm _ _ (Permutation_map (fun i => 2 + weight i) HP)).
    assert (weight i = length (t_steps t)) as Hwi by (unfold weight; rewrite En; reflexivity).
    cbn [map list_sum fold_right]. rewrite Hwi. unfold list_sum. lia.
  - destruct (pick (fun r => fst r =? i) running) as [[[j [|a rem]] running']|] eqn:Ep; try discriminate.
    injection E as <-. apply pick_spec in Ep as [Hj HP].
    cbn [ps_main ps_queue ps_running map snd].
    rewrite (list_sum_perm _ _ (Permutation_map (fun r => 1 + length (snd r)) HP)).
    cbn [map list_sum fold_right snd length]. unfold list_sum. lia.
  - destruct (pick (fun r => fst r =? i) running) as [[[j [|a rem]] running']|] eqn:Ep; try discriminate.
    destruct (nth_error tasks i) as [t|] eqn:En; [|discriminate].
    injection E as <-. apply pick_spec in Ep as [Hj HP].
    cbn [ps_main ps_queue ps_running map snd].
    rewrite (list_sum_perm _ _ (Permutation_map (fun r => 1 + length (snd r)) HP)).
    cbn [map list_sum fold_right snd length]. unfold list_sum. lia.
  - destruct main as [|i rest out| |]; try discriminate.
    destruct (find (fun d => fst d =? i) done) as [[j [b|]]|] eqn:Ef; [| |discriminate]; injection E as <-;
      cbn [ps_main ps_queue ps_running main_work].
    + destruct rest; cbn [next_get main_work length]; lia.
    + lia.
Qed.

Lemma run_work sched st st' : inv st -> pool_run threads tasks order st sched = Some st' ->
  length sched + work st' <= work st.
Proof.
  revert st. induction sched as [|e sched IH]; intros st Hi E; cbn in E.
  - injection E as <-. reflexivity.
  - destruct (pool_step threads tasks order st e) as [st1|] eqn:Es; [|discriminate].
    pose proof (step_work _ _ _ Hi Es). pose proof (IH st1 (inv_step _ _ _ Hi Es) E). cbn. lia.
Qed.

Lemma run_app s1 s2 st : pool_run threads tasks order st (s1 ++ s2) =
  match pool_run threads tasks order st s1 with Some st' => pool_run threads tasks order st' s2 | None => None end.
Proof.
  revert st. induction s1 as [|e s1 IH]; intros st; cbn; [reflexivity|].
  destruct (pool_step threads tasks order st e); [apply IH|reflexivity].
Qed.

Lemma run_completes st : inv st -> 0 < threads ->
  exists sched st', pool_run threads tasks order st sched = Some st' /\ pool_outcome st' <> None.
Proof.
  intros Hi Hth. remember (work st) as w eqn:Hw. revert st Hi Hw.
  induction w as [w IH] using lt_wf_ind. intros st Hi ->.
  destruct (pool_outcome st) eqn:Eo.
  - exists [], st. split; [reflexivity|congruence].
  - destruct (pool_progress st Hi Hth Eo) as [e [st1 Es]].
    destruct (IH (work st1) (step_work _ _ _ Hi Es) st1 (inv_step _ _ _ Hi Es) eq_refl) as [sched [st' [H1 H2]]].
    exists (e :: sched), st'. split; [|exact H2]. cbn. rewrite Es. exact H1.
Qed.

(* ---------------- shared memory ---------------- *)

Definition run_steps (l : list (S -> S)) (s : S) : S := fold_left (fun s a => a s) l s.

Definition steps_of (i : nat) : list (S -> S) :=
  match nth_error tasks i with Some t => t_steps t | None => [] end.

Hypothesis Hcomm : forall i j a b, i <> j -> In a (steps_of i) -> In b (steps_of j) ->
  forall s, a (b s) = b (a s).

Lemma run_steps_app l1 l2 s : run_steps (l1 ++ l2) s = run_steps l2 (run_steps l1 s).
Proof. unfold run_steps. apply fold_left_app. Qed.

Lemma run_steps_commute a l s : (forall b, In b l -> forall s, a (b s) = b (a s)) ->
  run_steps l (a s) = a (run_steps l s).
Proof.
  revert s. induction l as [|b l IH]; intros s Hc; cbn; [reflexivity|].
  fold (run_steps l (b (a s))). rewrite <- Hc by (left; reflexivity).
  rewrite IH; [reflexivity|]. intros b' Hb'. apply Hc. right. exact Hb'.
Qed.

Definition done_steps (prog : nat -> nat) : list (S -> S) :=
  concat (map (fun i => firstn (prog i) (steps_of i)) (seq 0 n)).

Lemma firstn_snoc {A} (l : list A) k a : nth_error l k = Some a -> firstn (k + 1) l = firstn k l ++ [a].
Proof.
  revert k. induction l as [|x l IH]; intros [|k] E; cbn in *; try discriminate.
  - injection E as ->. reflexivity.
  - f_equal. apply IH. exact E.
Qed.

Lemma in_firstn {A} (l : list A) k a : In a (firstn k l) -> In a l.
Proof. rewrite <- (firstn_skipn k l) at 2. intros Hin. apply in_or_app. auto. Qed.

Lemma done_steps_step prog i a s : i < n -> nth_error (steps_of i) (prog i) = Some a ->
  run_steps (done_steps (fun j => if j =? i then prog i + 1 else prog j)) s = a (run_steps (done_steps prog) s).
Proof.
  intros Hi Ha. unfold done_steps.
  assert (seq 0 n = seq 0 i ++ i :: seq (Datatypes.S i) (n - i - 1)) as ->.
  { replace n with (i + (1 + (n - i - 1))) at 1 by lia. rewrite seq_app, seq_app. cbn.
    rewrite Nat.add_1_r. reflexivity. }
  rewrite !map_app, !concat_app. cbn [map concat].
  rewrite (map_ext_in (fun j => firstn (if j =? i then prog i + 1 else prog j) (steps_of j))
             (fun j => firstn (prog j) (steps_of j)) (seq 0 i)).
  2:{ intros j Hj. apply in_seq in Hj. destruct (Nat.eqb_spec j i); [lia|reflexivity]. }
  rewrite (map_ext_in (fun j => firstn (if j =? i then prog i + 1 else prog j) (steps_of j))
             (fun j => firstn (prog j) (steps_of j)) (seq (Datatypes.S i) _)).
  2:{ intros j Hj. apply in_seq in Hj. destruct (Nat.eqb_spec j i); [lia|reflexivity]. }
  rewrite Nat.eqb_refl, (firstn_snoc _ _ _ Ha).
  rewrite !run_steps_app. cbn [run_steps fold_left].
  rewrite (run_steps_commute a); [reflexivity|].
  intros b Hb s'. apply in_concat in Hb as [l [Hl Hb]].
  apply in_map_iff in Hl as [j [<- Hj]]. apply in_seq in Hj.
  apply in_firstn in Hb. apply (Hcomm i j); [lia|eapply nth_error_In; eauto|exact Hb].
Qed.

Record minv (mem0 : S) (st : pool_state S B) (prog : nat -> nat) : Prop := {
  mi_queue : forall i, ~ In i (ps_started st) -> prog i = 0;
  mi_running : forall i rem, In (i, rem) (ps_running st) -> rem = skipn (prog i) (steps_of i);
  mi_done : forall i, In i (map fst (ps_done st)) -> length (steps_of i) <= prog i;
  mi_mem : ps_mem st = run_steps (done_steps prog) mem0 }.

Lemma done_steps_zero s : run_steps (done_steps (fun _ => 0)) s = s.
Proof.
  unfold done_steps. replace (concat _) with (@nil (S -> S)); [reflexivity|].
  induction (seq 0 n) as [|i l IH]; cbn; auto.
Qed.

Lemma minv_init mem0 : minv mem0 (pool_init tasks order mem0) (fun _ => 0).
Proof. constructor; cbn; try easy. symmetry. apply done_steps_zero. Qed.

Lemma skipn_nth {A} (l : list A) k a rem : a :: rem = skipn k l -> nth_error l k = Some a /\ rem = skipn (k + 1) l.
Proof.
  revert k. induction l as [|x l IH]; intros [|k] E; cbn in *; try discriminate.
  - injection E as <- <-. auto.
  - apply IH. exact E.
Qed.

Lemma NoDup_running st : inv st -> NoDup (map fst (ps_running st) ++ map fst (ps_done st)).
Proof.
  intros Hi. pose proof (inv_perm _ Hi) as Hp.
  apply Permutation_sym in Hp. pose proof (Permutation_NoDup Hp (seq_NoDup _ _)) as Hn.
  apply NoDup_app_r in Hn. exact Hn.
Qed.

Lemma minv_step mem0 st e st' prog : inv st -> minv mem0 st prog ->
  pool_step threads tasks order st e = Some st' -> exists prog', minv mem0 st' prog'.
Proof.
  intros Hinv. pose proof (NoDup_running _ Hinv) as Hnd.
  pose proof (inv_perm _ Hinv) as Hperm. pose proof (inv_enq _ Hinv) as Henq.
  pose proof (inv_started _ Hinv) as Hst.
  destruct st as [main queue running done started mem].
  intros [Hq Hr Hd Hm] E. cbn [ps_main ps_queue ps_running ps_done ps_started ps_mem] in *.
  destruct e as [|i|i|i|]; cbn [pool_step] in E.
  - destruct main as [k| | |]; try discriminate. injection E as <-. exists prog. constructor; assumption.
  - destruct (Nat.ltb_spec (length running) threads); [|discriminate].
    destruct (pick (Nat.eqb i) queue) as [[j queue']|] eqn:Ep; [|discriminate].
    destruct (nth_error tasks i) as [t|] eqn:En; [|discriminate]. injection E as <-.
    apply pick_spec in Ep as [Hj HP]. apply Nat.eqb_eq in Hj. subst j.
    exists prog. constructor; cbn [ps_main ps_queue ps_running ps_done ps_started ps_mem]; try assumption.
    + intros j Hj. apply Hq. intros Hin. apply Hj. apply in_or_app. auto.
    + intros j rem [Heq|Hin]; [|auto]. injection Heq as <- <-.
      assert (prog i = 0) as ->.
      { apply Hq. intros Hin. apply (Permutation_in _ Hst) in Hin.
        apply Permutation_sym in Hperm. pose proof (Permutation_NoDup Hperm (seq_NoDup _ _)) as Hn.
        assert (In i queue) as Hiq by (apply (Permutation_in _ (Permutation_sym HP)); left; reflexivity).
        revert Hn Hiq Hin. generalize (map fst running ++ map fst done) as l2. clear.
        induction queue as [|q queue IH]; intros l2 Hn Hiq Hin; [destruct Hiq|].
        cbn in Hn. inversion Hn; subst. destruct Hiq as [->|Hiq]; [|eauto].
        apply H1. apply in_or_app. auto. }
      cbn. unfold steps_of. rewrite En. reflexivity.
  - destruct (pick (fun r => fst r =? i) running) as [[[j [|a rem]] running']|] eqn:Ep; try discriminate.
    injection E as <-. apply pick_spec in Ep as [Hj HP]. cbn in Hj. apply Nat.eqb_eq in Hj. subst j.
    assert (In (i, a :: rem) running) as Hin by (apply (Permutation_in _ (Permutation_sym HP)); left; reflexivity).
    pose proof (Hr _ _ Hin) as Hrem. apply skipn_nth in Hrem as [Hnth Hrem].
    assert (i < n) as Hi.
    { assert (In i (seq 0 (enqueued main))) as Hs.
      { apply (Permutation_in _ Hperm). apply in_or_app. right. apply in_or_app. left.
        apply (in_map fst) in Hin. exact Hin. }
      apply in_seq in Hs. lia. }
    assert (NoDup (i :: map fst running' ++ map fst done)) as Hnd'.
    { refine (Permutation_NoDup _ Hnd). exact (Permutation_app_tail _ (Permutation_map fst HP)). }
    inversion Hnd' as [|? ? Hni Hnd2]; subst.
    exists (fun j => if j =? i then prog i + 1 else prog j).
    constructor; cbn [ps_main ps_queue ps_running ps_done ps_started ps_mem].
    + intros j Hj. destruct (Nat.eqb_spec j i) as [->|]; [|auto].
      exfalso. apply Hj. apply (Permutation_in _ (Permutation_sym Hst)). apply in_or_app. left.
      apply (in_map fst) in Hin. exact Hin.
    + intros j r [Heq|Hj].
      * injection Heq as <- <-. rewrite Nat.eqb_refl. reflexivity.
      * destruct (Nat.eqb_spec j i) as [->|].
        -- exfalso. apply Hni. apply in_or_app. left. apply (in_map fst) in Hj. exact Hj.
        -- apply Hr. apply (Permutation_in _ (Permutation_sym HP)). right. exact Hj.
    + intros j Hj. destruct (Nat.eqb_spec j i) as [->|]; [|auto].
      exfalso. apply Hni. apply in_or_app. right. exact Hj.
    + rewrite (done_steps_step prog i a mem0 Hi Hnth). reflexivity.
  - destruct (pick (fun r => fst r =? i) running) as [[[j [|a rem]] running']|] eqn:Ep; try discriminate.
    destruct (nth_error tasks i) as [t|] eqn:En; [|discriminate].
    injection E as <-. apply pick_spec in Ep as [Hj HP]. cbn in Hj. apply Nat.eqb_eq in Hj. subst j.
    exists prog. constructor; cbn [ps_main ps_queue ps_running ps_done ps_started ps_mem]; try assumption.
    + intros j rem Hj. apply Hr. apply (Permutation_in _ (Permutation_sym HP)). right. exact Hj.
    + intros j [<-|Hj]; [|auto]. cbn [fst].
      assert (In (i, []) running) as Hin by (apply (Permutation_in _ (Permutation_sym HP)); left; reflexivity).
      specialize (Hr _ _ Hin). symmetry in Hr.
      assert (length (skipn (prog i) (steps_of i)) = 0) as Hl by (rewrite Hr; reflexivity).
      rewrite skipn_length in Hl. lia.
  - destruct main as [|i rest out| |]; try discriminate.
    destruct (find (fun d => fst d =? i) done) as [[j [b|]]|] eqn:Ef; [| |discriminate]; injection E as <-;
      exists prog; constructor; assumption.
Qed.

Lemma minv_run mem0 sched st st' prog : inv st -> minv mem0 st prog ->
  pool_run threads tasks order st sched = Some st' -> exists prog', minv mem0 st' prog'.
Proof.
  revert st prog. induction sched as [|e sched IH]; intros st prog Hi Hmi E; cbn in E.
  - injection E as <-. eauto.
  - destruct (pool_step threads tasks order st e) as [st1|] eqn:Es; [|discriminate].
    destruct (minv_step _ _ _ _ _ Hi Hmi Es) as [prog1 Hm1].
    eapply IH; [eapply inv_step; eauto|exact Hm1|exact E].
Qed.
End Inv.

(* ---------------- what a completed call means ---------------- *)

Section Results.
Context {S B : Type}.
Variable threads : nat.
Variable tasks : list (task S B).
Variable order : list nat.
Hypothesis Hord : Permutation order (seq 0 (length tasks)).

Definition result_of (j : nat) : outcome B :=
  of_option Throw (match nth_error tasks j with Some t => t_result t | None => None end).

Lemma pool_outcome_spec mem sched st r :
  pool_run threads tasks order (pool_init tasks order mem) sched = Some st ->
  pool_outcome st = Some r -> r = mapM result_of order.
Proof.
  intros E Ho. pose proof (inv_run _ _ _ _ _ _ (inv_init threads tasks order mem) E) as Hi.
  pose proof (inv_main _ _ _ _ Hi) as Hm. unfold pool_outcome in Ho.
  destruct (ps_main st); try discriminate; injection Ho as <-; cbn in Hm.
  - destruct Hm as [Hm _]. symmetry. exact Hm.
  - symmetry. exact Hm.
Qed.

Lemma pool_returned_all_done mem sched st out :
  pool_run threads tasks order (pool_init tasks order mem) sched = Some st ->
  pool_outcome st = Some (Ok out) ->
  ps_queue st = [] /\ ps_running st = [] /\
  Permutation (ps_started st) (seq 0 (length tasks)) /\
  Permutation (map fst (ps_done st)) (seq 0 (length tasks)).
Proof.
  intros E Ho. pose proof (inv_run _ _ _ _ _ _ (inv_init threads tasks order mem) E) as Hi.
  pose proof (inv_main _ _ _ _ Hi) as Hm. pose proof (inv_perm _ _ _ _ Hi) as Hp.
  pose proof (inv_started _ _ _ _ Hi) as Hs.
  unfold pool_outcome in Ho. destruct (ps_main st); try discriminate.
  cbn in Hm. destruct Hm as [_ Hf]. cbn [enqueued] in Hp. rewrite Forall_forall in Hf.
  assert (NoDup (map fst (ps_done st))) as Hnd.
  { apply Permutation_sym in Hp. pose proof (Permutation_NoDup Hp (seq_NoDup _ _)) as Hn.
    apply NoDup_app_r in Hn. apply NoDup_app_r in Hn. exact Hn. }
  assert (length tasks <= length (map fst (ps_done st))) as Hle.
  { rewrite <- (seq_length (length tasks) 0). apply NoDup_incl_length; [apply seq_NoDup|].
    intros j Hj. apply Hf. apply (Permutation_in _ (Permutation_sym Hord)). exact Hj. }
  pose proof (Permutation_length Hp) as Hl. rewrite !app_length, seq_length in Hl.
  destruct (ps_queue st); [|cbn in Hl; lia]. destruct (ps_running st); [|cbn in Hl; lia].
  cbn in *. repeat split; auto. rewrite Hs. exact Hp.
Qed.

Lemma pool_memory mem sched st out :
  (forall i j a b, i <> j -> In a (steps_of tasks i) -> In b (steps_of tasks j) -> forall s, a (b s) = b (a s)) ->
  pool_run threads tasks order (pool_init tasks order mem) sched = Some st ->
  pool_outcome st = Some (Ok out) ->
  ps_mem st = run_steps (concat (map t_steps tasks)) mem.
Proof.
  intros Hc E Ho. destruct (pool_returned_all_done _ _ _ _ E Ho) as [_ [_ [_ Hd]]].
  destruct (minv_run threads tasks order Hc mem sched _ _ (fun _ => 0)
              (inv_init threads tasks order mem) (minv_init tasks order mem) E) as [prog [_ _ Hpd Hm]].
  rewrite Hm. f_equal. unfold done_steps. f_equal.
  apply list_ext. intros i. rewrite !nth_error_map'.
  destruct (nth_error tasks i) as [t|] eqn:En.
  - assert (i < length tasks) as Hi by (apply nth_error_Some; congruence).
    rewrite nth_error_seq. destruct (Nat.ltb_spec i (length tasks)); [|lia]. cbn.
    assert (steps_of tasks i = t_steps t) as Est by (unfold steps_of; rewrite En; reflexivity).
    rewrite firstn_all2; [rewrite Est; reflexivity|].
    apply Hpd. apply (Permutation_in _ (Permutation_sym Hd)). apply in_seq. lia.
  - apply nth_error_None in En.
    assert (nth_error (seq 0 (length tasks)) i = None) as -> by (apply nth_error_None; rewrite seq_length; exact En).
    reflexivity.
Qed.

Lemma pool_bounded mem sched st :
  pool_run threads tasks order (pool_init tasks order mem) sched = Some st ->
  length sched <= 4 * length tasks + length (concat (map t_steps tasks)).
Proof.
  intros E. pose proof (run_work threads tasks order Hord sched _ _ (inv_init threads tasks order mem) E) as Hw.
  assert (work tasks (pool_init tasks order mem) <= 4 * length tasks + length (concat (map t_steps tasks))) as Hb; [|lia].
  unfold work, pool_init. cbn [ps_main ps_queue ps_running map list_sum fold_right].
  pose proof (next_enqueue_work tasks order Hord 0 (Nat.le_0_l _)) as Hn.
  assert (forall (l : list (task S B)) k,
    (forall j t, nth_error l j = Some t -> nth_error tasks (k + j) = Some t) ->
    list_sum (map (fun i => 2 + weight tasks i) (seq k (length l))) = 2 * length l + length (concat (map t_steps l))) as Hsum.
  { induction l as [|t l IH]; intros k Hk; cbn [length seq map list_sum fold_right concat]; [reflexivity|].
    fold (list_sum (map (fun i => 2 + weight tasks i) (seq (Datatypes.S k) (length l)))).
    rewrite IH.
    - unfold weight. specialize (Hk 0 t eq_refl). rewrite Nat.add_0_r in Hk. rewrite Hk, app_length. lia.
    - intros j u Hj. specialize (Hk (Datatypes.S j) u Hj). rewrite <- Hk. f_equal. lia. }
  rewrite Nat.sub_0_r in Hn. rewrite (Hsum tasks 0) in Hn by (intros j t Hj; exact Hj). lia.
Qed.

Lemma pool_no_deadlock mem sched st : 0 < threads ->
  pool_run threads tasks order (pool_init tasks order mem) sched = Some st ->
  exists more st', pool_run threads tasks order (pool_init tasks order mem) (sched ++ more) = Some st' /\
    pool_outcome st' <> None.
Proof.
  intros Hth E. pose proof (inv_run _ _ _ _ _ _ (inv_init threads tasks order mem) E) as Hi.
  destruct (run_completes threads tasks order Hord st Hi Hth) as [more [st' [H1 H2]]].
  exists more, st'. rewrite run_app, E. auto.
Qed.

Lemma pool_stuck_is_over mem sched st : 0 < threads ->
  pool_run threads tasks order (pool_init tasks order mem) sched = Some st ->
  (forall e, pool_step threads tasks order st e = None) -> pool_outcome st <> None.
Proof.
  intros Hth E Hs. pose proof (inv_run _ _ _ _ _ _ (inv_init threads tasks order mem) E) as Hi.
  intros Ho. destruct (pool_progress threads tasks order Hord st Hi Hth Ho) as [e [st' Es]].
  rewrite Hs in Es. discriminate.
Qed.

Lemma pool_started_once mem sched st :
  pool_run threads tasks order (pool_init tasks order mem) sched = Some st ->
  NoDup (ps_started st) /\ Forall (fun i => i < length tasks) (ps_started st) /\
  length (ps_running st) <= threads.
Proof.
  intros E. pose proof (inv_run _ _ _ _ _ _ (inv_init threads tasks order mem) E) as Hi.
  pose proof (inv_perm _ _ _ _ Hi) as Hp. pose proof (inv_started _ _ _ _ Hi) as Hs.
  pose proof (inv_enq _ _ _ _ Hi) as He. split; [|split; [|apply (inv_threads _ _ _ _ Hi)]].
  - apply Permutation_sym in Hp. pose proof (Permutation_NoDup Hp (seq_NoDup _ _)) as Hn.
    apply NoDup_app_r in Hn. exact (Permutation_NoDup (Permutation_sym Hs) Hn).
  - apply Forall_forall. intros i Hin. apply (Permutation_in _ Hs) in Hin.
    assert (In i (seq 0 (enqueued tasks (ps_main st)))) as Hq
      by (apply (Permutation_in _ Hp); apply in_or_app; auto).
    apply in_seq in Hq. lia.
Qed.
End Results.

(* ---------------- apply and apply_map ---------------- *)

Lemma mapM_seq_tasks {A B} (g : A -> option B) (xs : list A) :
  mapM (result_of (map (fun x => Task ([] : list (unit -> unit)) (g x)) xs)) (seq 0 (length xs)) =
  mapM (or_throw g) xs.
Proof.
  set (tasks := map _ xs).
  assert (forall (l : list A) k,
    (forall j x, nth_error l j = Some x -> nth_error xs (k + j) = Some x) ->
    mapM (result_of tasks) (seq k (length l)) = mapM (or_throw g) l) as Hg.
  { induction l as [|x l IH]; intros k Hk; cbn [length seq mapM]; [reflexivity|].
    rewrite IH.
    - unfold result_of, or_throw at 1, tasks. specialize (Hk 0 x eq_refl). rewrite Nat.add_0_r in Hk.
      rewrite nth_error_map', Hk. reflexivity.
    - intros j y Hj. specialize (Hk (Datatypes.S j) y Hj). rewrite <- Hk. f_equal. lia. }
  apply Hg. intros j x Hj. exact Hj.
Qed.

Lemma async_apply_spec {A B} pool (func : A -> option B) xs sched r :
  async_apply pool func xs sched = Some r -> r = mapM (or_throw func) xs.
Proof.
  unfold async_apply. destruct (should_serial_apply pool); [congruence|].
  destruct pool as [threads|]; [|discriminate].
  set (tasks := map _ xs). destruct (pool_run _ _ _ _ _) as [st|] eqn:E; [|discriminate].
  intros Ho.
  assert (length tasks = length xs) as Hl by (unfold tasks; apply map_length).
  rewrite <- (mapM_seq_tasks func xs). fold tasks.
  eapply pool_outcome_spec; [|exact Ho]. exact E.
Qed.

Lemma async_apply_completes {A B} pool (func : A -> option B) xs :
  exists sched, async_apply pool func xs sched = Some (mapM (or_throw func) xs).
Proof.
  destruct (should_serial_apply pool) eqn:Es.
  - exists []. unfold async_apply. rewrite Es. reflexivity.
  - destruct pool as [threads|]; [|discriminate]. cbn in Es. apply Nat.leb_gt in Es.
    set (tasks := map (fun x => Task ([] : list (unit -> unit)) (func x)) xs).
    assert (length tasks = length xs) as Hl by (unfold tasks; apply map_length).
    assert (Permutation (seq 0 (length xs)) (seq 0 (length tasks))) as Hord by (rewrite Hl; reflexivity).
    destruct (pool_no_deadlock threads tasks (seq 0 (length xs)) Hord tt [] _ ltac:(lia) eq_refl)
      as [more [st' [H1 H2]]].
    exists more. assert (exists r, async_apply (Some threads) func xs more = Some r) as [r Hr].
    { unfold async_apply. cbn [should_serial_apply]. destruct (Nat.leb_spec threads 1); [lia|].
      fold tasks. cbn [app] in H1. rewrite H1. destruct (pool_outcome st'); [eauto|contradiction]. }
    rewrite Hr. f_equal. eapply async_apply_spec; eauto.
Qed.

(* apply_map *)
Lemma massign_combine_sorted {K V} `{OrdKey K} (ks : list K) (vs : list V) :
  StronglySorted klt ks -> length vs = length ks ->
  fold_left (fun m kv => massign (fst kv) (snd kv) m) (combine ks vs) [] = combine ks vs.
Proof.
  intros Hs Hl.
  assert (forall (l : list (K * V)) acc, wf_map (acc ++ l) ->
    fold_left (fun m kv => massign (fst kv) (snd kv) m) l acc = acc ++ l) as G.
  { induction l as [|[k v] l IH]; intros acc Wf; cbn [fold_left fst snd]; [rewrite app_nil_r; reflexivity|].
    rewrite massign_snoc.
    - rewrite IH; rewrite <- app_assoc; [reflexivity|exact Wf].
    - unfold wf_map, mkeys in *. rewrite map_app in Wf. cbn in Wf. clear -Wf.
      induction (map fst acc) as [|a l' IHl]; [constructor|]. cbn in Wf. inversion Wf; subst.
      rewrite Forall_app in H3. destruct H3 as [H3 H4]. inversion H4; subst.
      constructor; [assumption|apply IHl; assumption]. }
  rewrite (G _ []); [reflexivity|]. cbn. unfold wf_map, mkeys.
  replace (map fst (combine ks vs)) with ks; [exact Hs|].
  clear -Hl. revert vs Hl. induction ks as [|k ks IH]; intros [|v vs] Hl; cbn in *; try discriminate; [reflexivity|].
  f_equal. apply IH. lia.
Qed.

Lemma map_fst_combine {A C} (l : list A) (l' : list C) : length l' = length l -> map fst (combine l l') = l.
Proof. revert l'. induction l as [|a l IH]; intros [|b l'] E; cbn in *; try discriminate; [reflexivity|]. f_equal. apply IH. lia. Qed.
Lemma map_snd_combine {A C} (l : list A) (l' : list C) : length l' = length l -> map snd (combine l l') = l'.
Proof. revert l'. induction l as [|a l IH]; intros [|b l'] E; cbn in *; try discriminate; [reflexivity|]. f_equal. apply IH. lia. Qed.

Lemma apply_mapM_via_mapM {K V W} `{OrdKey K} (f : K -> V -> outcome W) (m : smap K V) : wf_map m ->
  apply_mapM m f = (ws <- mapM (fun kv => f (fst kv) (snd kv)) m ;; Ok (combine (mkeys m) ws)).
Proof.
  intros Wm. unfold apply_mapM.
  assert (forall (l : list (K * V)) (acc : smap K W), StronglySorted klt (mkeys acc ++ map fst l) ->
    foldM (fun output kv => w <- f (fst kv) (snd kv) ;; Ok (memplace (fst kv) w output)) l acc =
    (ws <- mapM (fun kv => f (fst kv) (snd kv)) l ;; Ok (acc ++ combine (map fst l) ws))) as G.
  { induction l as [|[k v] l IH]; intros acc Hs; cbn [foldM mapM map fst snd].
    - cbn. rewrite app_nil_r. reflexivity.
    - destruct (f k v) as [w| | |]; cbn [bind]; try reflexivity.
      assert (Forall (fun a => klt a k) (mkeys acc) /\ wf_map acc) as [HF Wa].
      { unfold wf_map, mkeys in *. cbn in Hs. clear -Hs.
        induction (map fst acc) as [|a l' IHl]; [split; constructor|]. cbn in Hs. inversion Hs; subst.
        destruct (IHl H2) as [I1 I2].
        rewrite Forall_app in H3. destruct H3 as [H3 H4]. inversion H4; subst.
        split; constructor; assumption. }
      unfold memplace.
      assert (mfind k acc = None) as ->.
      { apply mfind_None; [exact Wa|]. intros Hin. rewrite Forall_forall in HF. exact (klt_irrefl k (HF k Hin)). }
      rewrite massign_snoc by exact HF. rewrite IH.
      + destruct (mapM _ l); cbn; try reflexivity. rewrite <- app_assoc. reflexivity.
      + unfold mkeys in *. rewrite map_app. cbn. rewrite <- app_assoc. exact Hs. }
  rewrite (G m []); [|exact Wm]. reflexivity.
Qed.

Lemma async_apply_map_spec {K A B} `{OrdKey K} pool (func : K -> A -> option B) (xs : smap K A) sched r :
  wf_map xs -> async_apply_map pool func xs sched = Some r ->
  r = apply_mapM xs (fun k a => of_option Throw (func k a)).
Proof.
  intros Wx. unfold async_apply_map. destruct (should_serial_apply pool); [congruence|].
  destruct pool as [threads|]; [|discriminate].
  rewrite (massign_combine_sorted (mkeys xs) (seq 0 (length xs)) Wx)
    by (unfold mkeys; rewrite seq_length, map_length; reflexivity).
  assert (mvals (combine (mkeys xs) (seq 0 (length xs))) = seq 0 (length xs)) as Hv.
  { unfold mvals. apply map_snd_combine. unfold mkeys. rewrite seq_length, map_length. reflexivity. }
  assert (mkeys (combine (mkeys xs) (seq 0 (length xs))) = mkeys xs) as Hk.
  { unfold mkeys at 1. apply map_fst_combine. unfold mkeys. rewrite seq_length, map_length. reflexivity. }
  rewrite Hv, Hk. set (tasks := map _ xs). destruct (pool_run _ _ _ _ _) as [st|] eqn:E; [|discriminate].
  rewrite apply_mapM_via_mapM by exact Wx.
  pose proof (pool_outcome_spec threads tasks (seq 0 (length xs)) tt sched st) as Hp.
  destruct (pool_outcome st) as [[out| | |]|] eqn:Ho; intros Hr; try discriminate;
    specialize (Hp _ E eq_refl); unfold tasks in Hp;
    rewrite (mapM_seq_tasks (fun kx => func (fst kx) (snd kx)) xs) in Hp; unfold or_throw in Hp;
    rewrite <- Hp; injection Hr as <-; cbn [bind]; [|reflexivity].
  rewrite massign_combine_sorted; [reflexivity|exact Wx|].
  symmetry in Hp. apply mapM_length in Hp. unfold mkeys. rewrite map_length. exact Hp.
Qed.

Lemma async_apply_map_completes {K A B} `{OrdKey K} pool (func : K -> A -> option B) (xs : smap K A) :
  wf_map xs -> exists sched, async_apply_map pool func xs sched =
    Some (apply_mapM xs (fun k a => of_option Throw (func k a))).
Proof.
  intros Wx. destruct (should_serial_apply pool) eqn:Es.
  { exists []. unfold async_apply_map. rewrite Es. reflexivity. }
  destruct pool as [threads|]; [|discriminate]. pose proof Es as Es'. cbn in Es. apply Nat.leb_gt in Es.
  assert (exists sched r, async_apply_map (Some threads) func xs sched = Some r) as [sched [r Hr]].
  2:{ exists sched. rewrite Hr. f_equal. eapply async_apply_map_spec; eauto. }
  set (tasks := map (fun kx => Task ([] : list (unit -> unit)) (func (fst kx) (snd kx))) xs).
  assert (length tasks = length xs) as Hl by (unfold tasks; apply map_length).
  assert (Permutation (seq 0 (length xs)) (seq 0 (length tasks))) as Hord by (rewrite Hl; reflexivity).
  destruct (pool_no_deadlock threads tasks (seq 0 (length xs)) Hord tt [] _ ltac:(lia) eq_refl)
    as [more [st' [H1 H2]]].
  exists more. unfold async_apply_map. rewrite Es'.
  rewrite (massign_combine_sorted (mkeys xs) (seq 0 (length xs)) Wx)
    by (unfold mkeys; rewrite seq_length, map_length; reflexivity).
  assert (mvals (combine (mkeys xs) (seq 0 (length xs))) = seq 0 (length xs)) as ->.
  { unfold mvals. apply map_snd_combine. unfold mkeys. rewrite seq_length, map_length. reflexivity. }
  fold tasks. cbn [app] in H1. rewrite H1.
  pose proof (pool_outcome_spec threads tasks (seq 0 (length xs)) tt more st') as Hp.
  assert (forall r, pool_outcome st' = Some r -> (exists o, r = Ok o) \/ r = Throw) as Hr.
  { unfold pool_outcome. intros r0. destruct (ps_main st'); try discriminate; intros E0; injection E0 as <-; eauto. }
  destruct (pool_outcome st') as [r|]; [|contradiction].
  destruct (Hr r eq_refl) as [[o ->]| ->]; eauto.
Qed.

Lemma thread_count_spec hardware num_threads :
  (get_thread_count (make_shared_thread_pool hardware num_threads) =
     if num_threads =? 0 then Nat.max 1 hardware else num_threads) /\
  (should_serial_apply (make_shared_thread_pool hardware num_threads) = true <->
     get_thread_count (make_shared_thread_pool hardware num_threads) <= 1).
Proof.
  unfold make_shared_thread_pool, get_default_thread_count.
  destruct (Nat.eqb_spec num_threads 1) as [->|]; cbn [get_thread_count should_serial_apply].
  - split; [reflexivity|]. split; [lia|reflexivity].
  - destruct (Nat.ltb_spec num_threads 1), (Nat.eqb_spec num_threads 0); try lia; split; auto; apply Nat.leb_le.
Qed.

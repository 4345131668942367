From Coq Require Import Reals Lra String.
From Verif Require Import Base BaseProofs StdMapModel StdMapProofs StringKeyModel ExtRealModel ExtRealProofs PriorModel
  ParamsModel ParamsSpec ParamsProofs TuningModel TuningSpec.
Open Scope nat_scope.
Open Scope list_scope.

Lemma tunable_of s k p : mfind k s = Some p -> wf_map s -> param_fixed p = false -> exists i, nth_error (tunables s) i = Some (k, p).
Proof.
  intros Hk Hw Hf. apply In_nth_error. apply filter_In. cbn. rewrite Hf. split; [apply mfind_In_keys, Hk|reflexivity].
Qed.

Lemma tunable_find s i k p : wf_map s -> nth_error (tunables s) i = Some (k, p) -> mfind k s = Some p /\ param_fixed p = false.
Proof.
  intros Hw H. apply nth_error_In, filter_In in H as [H1 H2]. cbn in H2. split; [apply mfind_In; assumption|].
  destruct (param_fixed p); [discriminate|reflexivity].
Qed.

Lemma tunable_inj s i j k p q : wf_map s -> nth_error (tunables s) i = Some (k, p) -> nth_error (tunables s) j = Some (k, q) -> i = j.
Proof.
  intros Hw Hi Hj. assert (NoDup (map fst (tunables s))) as Hnd.
  { pose proof (wf_NoDup s Hw) as Hn. unfold mkeys in Hn. clear -Hn. unfold tunables.
    induction s as [|[k' p'] s IH]; cbn in *; [constructor|]. inversion Hn as [|? ? H1 H2]; subst.
    destruct (param_fixed p'); cbn; [apply IH, H2|]. constructor; [|apply IH, H2].
    intros Hin. apply H1. apply in_map_iff in Hin as [kp [E Hin]]. apply filter_In in Hin as [Hin _].
    apply in_map_iff. exists kp. auto. }
  eapply NoDup_nth_error; [exact Hnd| |].
  - rewrite map_length. apply nth_error_Some. congruence.
  - rewrite !nth_error_map', Hi, Hj. reflexivity.
Qed.

(* ---- store_ok ---- *)
Lemma ok_get s : store_ok s -> get_tunable_parameters s = Ok (tp_of (tunables s)).
Proof. intros [_ [_ [H _]]]. destruct (get_tunable_spec s) as [[_ E]|[N _]]; [exact E|contradiction]. Qed.

Lemma ok_read s : store_ok s -> assign_tunables true s (tp_values (tp_of (tunables s))) = s.
Proof.
  intros [Hw [Hc [Hn _]]]. apply assign_read. apply Forall_forall. intros kp Hk. rewrite Forall_forall in Hn.
  split; [apply Hn, Hk|]. intros Hl. rewrite Forall_forall in Hc. eapply log_scale_positive; [|exact Hl|apply Hn, Hk].
  apply Hc. apply filter_In in Hk. tauto.
Qed.

Lemma assign_one s i k p v : store_ok s -> nth_error (tunables s) i = Some (k, p) ->
  assign_tunables true s (set_nth (tp_values (tp_of (tunables s))) i v) = moved_to k p v s.
Proof.
  intros Hok Hi. pose proof Hok as [Hw _].
  assert (length (tunables s) = length (set_nth (tp_values (tp_of (tunables s))) i v)) as Hl.
  { rewrite set_nth_length. cbn. rewrite map_length. reflexivity. }
  assert (i < length (tunables s)) as Hlt by (apply nth_error_Some; congruence).
  destruct (tunable_find s i k p Hw Hi) as [Hk Hf].
  apply map_ext_find.
  - eapply wf_keys_eq; [symmetry; apply assign_keys; lia|exact Hw].
  - apply wf_massign, Hw.
  - intros k'. unfold moved_to. destruct (keq_dec k' k) as [->|Hne].
    + rewrite mfind_massign_eq by exact Hw. erewrite assign_tunable_at; [reflexivity|exact Hw|lia|exact Hi|].
      apply nth_error_set_nth_eq. rewrite set_nth_length in Hl. lia.
    + rewrite mfind_massign_neq by assumption.
      destruct (mfind k' s) as [q|] eqn:Ek.
      * destruct (param_fixed q) eqn:Efq; [apply assign_fixed; [exact Hw|lia|exact Ek|exact Efq]|].
        destruct (tunable_of s k' q Ek Hw Efq) as [j Hj].
        assert (i <> j) as Hij.
        { intros <-. rewrite Hi in Hj. injection Hj as E _. auto. }
        assert (nth_error (tp_values (tp_of (tunables s))) j = Some (seen q (p_value q))) as Ev.
        { cbn. rewrite nth_error_map', Hj. reflexivity. }
        rewrite (assign_tunable_at true s _ j k' q (seen q (p_value q)) Hw); [|lia|exact Hj|].
        2:{ rewrite nth_error_set_nth_neq by exact Hij. exact Ev. }
        rewrite <- Ek. rewrite <- (ok_read s Hok) at 1. symmetry.
        apply (assign_tunable_at true s _ j k' q); [exact Hw|cbn; rewrite map_length; lia|exact Hj|exact Ev].
      * apply mfind_None; [eapply wf_keys_eq; [symmetry; apply assign_keys; lia|exact Hw]|].
        rewrite assign_keys by lia. apply mfind_None; assumption.
Qed.

Lemma set_one s i k p v : store_ok s -> nth_error (tunables s) i = Some (k, p) ->
  set_tunable_params_values s (set_nth (tp_values (tp_of (tunables s))) i v) true = Ok (moved_to k p v s).
Proof.
  intros Hok Hi. rewrite set_tunable_spec by apply Hok. rewrite set_nth_length. cbn [tp_of tp_values]. rewrite map_length.
  rewrite Nat.ltb_irrefl. f_equal. apply (assign_one s i k p v Hok Hi).
Qed.

Lemma set_tunable_param_spec s i v : store_ok s ->
  set_tunable_param s i v = match nth_error (tunables s) i with
                            | Some (k, p) => Ok (moved_to k p v s)
                            | None => UB
                            end.
Proof.
  intros Hok. unfold set_tunable_param. rewrite ok_get by exact Hok. cbn [bind].
  assert (length (tp_values (tp_of (tunables s))) = length (tunables s)) as -> by (cbn; apply map_length).
  destruct (nth_error (tunables s) i) as [[k p]|] eqn:E.
  - destruct (Nat.ltb_spec i (length (tunables s))) as [_|Hge].
    + apply set_one; assumption.
    + apply nth_error_None in Hge. congruence.
  - apply nth_error_None in E. destruct (Nat.ltb_spec i (length (tunables s))); [lia|reflexivity].
Qed.

(* ---- shape ---- *)
Lemma shape_refl s : same_shape s s.
Proof. induction s; constructor; auto. Qed.
Lemma shape_trans a b c : same_shape a b -> same_shape b c -> same_shape a c.
Proof.
  intros H. revert c. induction H as [|x y a b [E1 [E2 E3]] _ IH]; intros c Hc; inversion Hc as [|? z ? c' [F1 [F2 F3]] Hc']; subst; constructor; [|apply IH, Hc'].
  split; [congruence|]. split; [congruence|]. intros Hf. specialize (E3 Hf). rewrite F3; [exact E3|]. rewrite E3. exact Hf.
Qed.

Lemma shape_massign s k p v : wf_map s -> mfind k s = Some p -> param_fixed p = false ->
  same_shape s (massign k (Param v (p_prior p)) s).
Proof.
  intros Hw Hk Hf. apply mfind_In_keys in Hk. apply in_split in Hk as [l [r ->]]. rewrite massign_replace by exact Hw.
  apply Forall2_app; [apply shape_refl|]. constructor; [|apply shape_refl]. cbn. split; [reflexivity|]. split; [reflexivity|]. congruence.
Qed.

Lemma shape_keys a b : same_shape a b -> mkeys a = mkeys b.
Proof. induction 1 as [|x y a b [E _] _ IH]; cbn; [reflexivity|]. unfold mkeys in IH. rewrite E, IH. reflexivity. Qed.

Lemma shape_tunables a b : same_shape a b ->
  Forall2 (fun x y => fst x = fst y /\ p_prior (snd x) = p_prior (snd y)) (tunables a) (tunables b).
Proof.
  induction 1 as [|x y a b [E1 [E2 E3]] _ IH]; cbn [tunables filter]; [constructor|]. unfold param_fixed in *. rewrite <- E2.
  destruct (is_fixed (p_prior (snd x))); cbn [negb]; [exact IH|]. constructor; [auto|exact IH].
Qed.

Lemma clamp_not_outside p v : xleb (lb p) (ub p) = true -> not_outside (Param (clamp p v) (p_prior p)).
Proof.
  intros Hb. unfold not_outside, lb, ub in *. cbn [p_value p_prior]. unfold clamp, lb, ub.
  destruct (xltb v (lower_bound (p_prior p))) eqn:E1; [split; [apply xltb_irrefl|apply xleb_ltb, Hb]|].
  destruct (xltb (upper_bound (p_prior p)) v) eqn:E2; [split; [apply xleb_ltb, Hb|apply xltb_irrefl]|auto].
Qed.

Lemma ok_moved s i k p v : store_ok s -> nth_error (tunables s) i = Some (k, p) ->
  store_ok (moved_to k p v s) /\ same_shape s (moved_to k p v s).
Proof.
  intros [Hw [Hc [Hn Hb]]] Hi. destruct (tunable_find s i k p Hw Hi) as [Hk Hf].
  assert (same_shape s (moved_to k p v s)) as Hs by (apply shape_massign; assumption). split; [|exact Hs].
  assert (xleb (lb p) (ub p) = true) as Hbp by (rewrite Forall_forall in Hb; apply (Hb (k, p)); eapply nth_error_In, Hi).
  split; [apply wf_massign, Hw|].
  unfold moved_to in *. apply mfind_In_keys in Hk. apply in_split in Hk as [l [r ->]]. rewrite massign_replace in * by exact Hw.
  unfold tunables in *. rewrite filter_app in *. cbn [filter snd] in *.
  change (param_fixed {| p_value := clamp p (unseen p v); p_prior := p_prior p |}) with (param_fixed p).
  rewrite Hf in *. cbn [negb] in *.
  rewrite !Forall_app in *. destruct Hc as [Hc1 Hc2]. inversion Hc2; subst. destruct Hn as [Hn1 Hn2]. inversion Hn2; subst.
  destruct Hb as [Hb1 Hb2]. inversion Hb2; subst. cbn [snd] in *.
  split; [|split].
  - split; [assumption|]. constructor; assumption.
  - split; [assumption|]. constructor; [|assumption]. apply clamp_not_outside, Hbp.
  - split; [assumption|]. constructor; [|assumption]. exact Hbp.
Qed.

(* ---- picking ---- *)
Lemma xltb_not_nan a b : xltb a b = true -> a <> XNaN /\ b <> XNaN.
Proof. destruct a, b; cbn; try discriminate; split; discriminate. Qed.


Lemma pick_keeps f params st p : picked f params st -> picked f params (greedy_pick f st p).
Proof.
  unfold greedy_pick. intros [[B [V H]]|[I [V [L H]]]].
  - rewrite V. destruct (xltb (f p) XPos) eqn:E.
    + right. cbn. split; [apply in_or_app; right; left; reflexivity|]. split; [reflexivity|]. split; [exact E|].
      intros e He. apply in_app_or in He as [He|[<-|[]]].
      * specialize (H e He). destruct (f e); cbn in H; try discriminate; auto.
        right. apply xltb_not_nan in E as [E _]. destruct (f p); cbn in *; auto; congruence.
      * right. apply xleb_refl. apply xltb_not_nan in E. tauto.
    + left. cbn. split; [exact B|]. split; [auto|]. intros e He. apply in_app_or in He as [He|[<-|[]]]; auto.
  - rewrite V. destruct (xltb (f p) (f (best_params st))) eqn:E.
    + right. cbn. split; [apply in_or_app; right; left; reflexivity|]. split; [reflexivity|].
      split; [eapply xltb_leb_trans; [exact E|apply xltb_leb, L]|].
      intros e He. apply in_app_or in He as [He|[<-|[]]].
      * destruct (H e He) as [Hn|Hl]; [left; exact Hn|right]. eapply xleb_trans; [apply xltb_leb, E|exact Hl].
      * right. apply xleb_refl. apply xltb_not_nan in E. tauto.
    + right. cbn. split; [apply in_or_app; auto|]. split; [auto|]. split; [exact L|].
      intros e He. apply in_app_or in He as [He|[<-|[]]]; [apply H, He|].
      destruct (f p) eqn:Ep; auto; right; apply xnlt_leb; try (apply xltb_not_nan in L; tauto); try discriminate; exact E.
Qed.

Lemma picks_spec f params ps : forall st, picked f params st ->
  let st' := fold_left (greedy_pick f) ps st in
  picked f params st' /\ evaluated st' = evaluated st ++ ps /\ (best_params st' = best_params st \/ In (best_params st') ps).
Proof.
  induction ps as [|p ps IH]; intros st H; cbn [fold_left].
  - rewrite app_nil_r. auto.
  - destruct (IH (greedy_pick f st p) (pick_keeps f params st p H)) as [I1 [I2 I3]]. split; [exact I1|]. split.
    + rewrite I2. unfold greedy_pick. destruct (xltb _ _); cbn; rewrite <- app_assoc; reflexivity.
    + destruct I3 as [E|I3]; [|right; right; exact I3]. rewrite E. unfold greedy_pick.
      destruct (xltb _ _); cbn; auto.
Qed.

(* ---- one step ---- *)

Lemma greedy_step_spec f n st iter i k p : store_ok (best_params st) ->
  nth_error (tunables (best_params st)) i = Some (k, p) ->
  greedy_step f n st (iter, i) =
  Ok (fold_left (greedy_pick f) (map (fun v => moved_to k p v (best_params st)) (step_values n (iter, i) p)) st).
Proof.
  intros Hok Hi. unfold greedy_step. rewrite ok_get by exact Hok. cbn [bind tp_of tp_values tp_lower tp_upper].
  rewrite !nth_error_map', Hi. cbn [option_map of_option bind snd]. fold (step_values n (iter, i) p).
  assert (forall vs, mapM (set_tunable_param (best_params st) i) vs = Ok (map (fun v => moved_to k p v (best_params st)) vs)) as Hm.
  { induction vs as [|v vs IH]; cbn [mapM map]; [reflexivity|]. rewrite set_tunable_param_spec by exact Hok. rewrite Hi. cbn [bind].
    rewrite IH. reflexivity. }
  unfold step_values. cbn [fst snd]. rewrite Hm. reflexivity.
Qed.

Lemma moved_back s i k p : store_ok s -> nth_error (tunables s) i = Some (k, p) -> moved_to k p (seen p (p_value p)) s = s.
Proof.
  intros Hok Hi. rewrite <- (assign_one s i k p _ Hok Hi). rewrite set_nth_same; [apply ok_read, Hok|].
  cbn. rewrite nth_error_map', Hi. reflexivity.
Qed.

Definition greedy_inv (f : store -> xr) (params : store) (st : greedy) : Prop :=
  picked f params st /\ store_ok (best_params st) /\ same_shape params (best_params st) /\
  forall e, In e (evaluated st) -> store_ok e /\ same_shape params e.

Lemma greedy_run f n params its : store_ok params ->
  Forall (fun it => snd it < length (tunables params)) its ->
  forall st, greedy_inv f params st -> exists st', foldM (greedy_step f n) its st = Ok st' /\ greedy_inv f params st' /\
    exists more, evaluated st' = evaluated st ++ more.
Proof.
  intros Hp. induction 1 as [|[iter i] its Hi _ IH]; intros st Hinv.
  - exists st. split; [reflexivity|]. split; [exact Hinv|]. exists []. rewrite app_nil_r. reflexivity.
  - destruct Hinv as [Hpk [Hok [Hsh Hev]]]. cbn [snd] in Hi.
    assert (length (tunables (best_params st)) = length (tunables params)) as Hl.
    { symmetry. eapply Forall2_len. apply shape_tunables, Hsh. }
    destruct (nth_error (tunables (best_params st)) i) as [[k p]|] eqn:E; [|apply nth_error_None in E; lia].
    cbn [foldM]. rewrite (greedy_step_spec f n st iter i k p Hok E). cbn [bind].
    set (ps := map (fun v => moved_to k p v (best_params st)) (step_values n (iter, i) p)).
    destruct (picks_spec f params ps st Hpk) as [I1 [I2 I3]].
    assert (forall e, In e ps -> store_ok e /\ same_shape params e) as Hps.
    { intros e He. apply in_map_iff in He as [v [<- _]]. destruct (ok_moved _ i k p v Hok E) as [O S]. split; [exact O|].
      eapply shape_trans; eassumption. }
    destruct (IH (fold_left (greedy_pick f) ps st)) as [st' [E' [Hinv' [more Em]]]].
    { split; [exact I1|]. split; [|split].
      - destruct I3 as [->|I3]; [exact Hok|apply Hps, I3].
      - destruct I3 as [->|I3]; [exact Hsh|apply Hps, I3].
      - rewrite I2. intros e He. apply in_app_or in He as [He|He]; auto. }
    exists st'. split; [exact E'|]. split; [exact Hinv'|]. rewrite Em, I2, <- app_assoc. eauto.
Qed.

Lemma greedy_tune_spec f params n iters : store_ok params ->
  exists st, greedy_tune f params n iters = Ok st /\ greedy_inv f params st /\
    (0 < iters -> tunables params <> [] -> In params (evaluated st)).
Proof.
  intros Hok. unfold greedy_tune. rewrite ok_get by exact Hok. cbn [bind tp_of tp_names]. rewrite map_length.
  assert (greedy_inv f params (Greedy XPos params [])) as H0.
  { split; [left; cbn; split; [reflexivity|]; split; [reflexivity|]; intros e []|]. split; [exact Hok|]. split; [apply shape_refl|]. intros e []. }
  assert (Forall (fun it => snd it < length (tunables params)) (list_prod (seq 0 iters) (seq 0 (length (tunables params))))) as Hf.
  { apply Forall_forall. intros [a b] H. apply in_prod_iff in H as [_ H]. apply in_seq in H. cbn. lia. }
  destruct (greedy_run f n params _ Hok Hf _ H0) as [st [E [Hinv _]]].
  exists st. split; [exact E|]. split; [exact Hinv|]. intros Hit Ht.
  destruct iters as [|iters]; [lia|]. destruct (tunables params) as [|[k p] ts] eqn:Et; [congruence|].
  cbn [length seq list_prod map app foldM] in E.
  assert (nth_error (tunables params) 0 = Some (k, p)) as Hi by (rewrite Et; reflexivity).
  rewrite (greedy_step_spec f n (Greedy XPos params []) 0 0 k p Hok Hi) in E. cbn [bind] in E.
  set (ps := map (fun v => moved_to k p v params) (step_values n (0, 0) p)).
  change (map _ (step_values n (0, 0) p)) with ps in E. set (st1 := fold_left (greedy_pick f) ps (Greedy XPos params [])) in E.
  destruct (picks_spec f params ps (Greedy XPos params []) (proj1 H0)) as [I1 [I2 I3]]. fold st1 in I1, I2, I3.
  assert (In params (evaluated st1)) as Hin.
  { rewrite I2. cbn [evaluated app]. apply in_map_iff. exists (seen p (p_value p)). split; [apply (moved_back params 0 k p Hok Hi)|].
    unfold step_values. cbn [fst snd]. apply in_or_app. right. left. reflexivity. }
  assert (exists more, evaluated st = evaluated st1 ++ more) as [more Em].
  { cbn [length seq list_prod map app] in Hf. apply Forall_inv_tail in Hf as Hf'.
    edestruct (greedy_run f n params) with (st := st1) as [st2 [E2 [_ Hm]]]; [exact Hok|rewrite Et; exact Hf'| |].
    - split; [exact I1|]. split; [|split].
      + destruct I3 as [->|I3]; [exact Hok|]. apply in_map_iff in I3 as [v [<- _]]. apply (ok_moved params 0 k p v Hok Hi).
      + destruct I3 as [->|I3]; [apply shape_refl|]. apply in_map_iff in I3 as [v [<- _]]. apply (ok_moved params 0 k p v Hok Hi).
      + rewrite I2. cbn [evaluated app]. intros e He. apply in_map_iff in He as [v [<- _]]. apply (ok_moved params 0 k p v Hok Hi).
    - rewrite E in E2. injection E2 as <-. exact Hm. }
  rewrite Em. apply in_or_app. auto.
Qed.

(* ---- queries ---- *)
Lemma Rpower10_bounds x : (-5 <= x <= - (1/10))%R -> (0 < Rpower 10 x < 1)%R.
Proof.
  intros Hx. unfold Rpower. split; [apply exp_pos|]. rewrite <- exp_0. apply exp_increasing.
  assert (0 < ln 10)%R by (rewrite <- ln_1; apply ln_increasing; lra). nra.
Qed.

Lemma ratios_range n r : n <> 1 -> In r (query_ratios n) -> (0 < r < 1)%R.
Proof.
  intros Hn H. unfold query_ratios in H. destruct (Nat.eqb_spec n 1); [contradiction|].
  apply in_map_iff in H as [i [<- Hi]]. apply in_seq in Hi. apply Rpower10_bounds. unfold log_min, log_max.
  assert (1 <= INR n - 1)%R as Hn1.
  { assert (2 <= n) as H2 by lia. apply le_INR in H2. cbn in H2. lra. }
  assert (0 <= INR i <= INR n - 1)%R as Hi1.
  { split; [apply pos_INR|]. assert (i <= n - 1) as H2 by lia. apply le_INR in H2. rewrite minus_INR in H2 by lia. cbn in H2. lra. }
  replace (-5 + INR i * ((- (1 / 10) - -5) / (INR n - 1)))%R with (-5 + (INR i / (INR n - 1)) * (49/10))%R by (field; lra).
  assert (0 <= INR i / (INR n - 1) <= 1)%R as Hq.
  { split; [apply Rmult_le_pos; [lra|left; apply Rinv_0_lt_compat; lra]|].
    apply (Rmult_le_reg_r (INR n - 1)); [lra|]. unfold Rdiv. rewrite Rmult_assoc, Rinv_l by lra. lra. }
  split; lra.
Qed.

Lemma ratios_length n : length (query_ratios n) = n.
Proof. unfold query_ratios. destruct (Nat.eqb_spec n 1) as [->|]; [reflexivity|]. rewrite map_length, seq_length. reflexivity. Qed.

Lemma queries_interior v lo hi n : (lo < v < hi)%R -> n <> 1 ->
  exists below above, get_queries (XFin v) (XFin lo) (XFin hi) n = map XFin (below ++ above) /\
    length below = n /\ length above = n /\
    Forall (fun q => lo < q < v)%R below /\ Forall (fun q => v < q < hi)%R above.
Proof.
  intros Hv Hn. unfold get_queries. cbn [xisinf xeqb].
  destruct (Reqb_spec v lo); [lra|]. destruct (Reqb_spec v hi); [lra|]. cbn [xsub xopp xadd].
  exists (map (fun r => v - r * (v - lo))%R (rev (query_ratios n))), (map (fun r => v + r * (hi - v))%R (query_ratios n)).
  split; [|split; [|split; [|split]]].
  - rewrite map_app, !map_map. f_equal.
  - rewrite map_length, rev_length. apply ratios_length.
  - rewrite map_length. apply ratios_length.
  - apply Forall_forall. intros q Hq. apply in_map_iff in Hq as [r [<- Hr]]. apply in_rev in Hr. apply ratios_range in Hr; [nra|exact Hn].
  - apply Forall_forall. intros q Hq. apply in_map_iff in Hq as [r [<- Hr]]. apply ratios_range in Hr; [nra|exact Hn].
Qed.

Lemma queries_at_lower v hi n : (v < hi)%R ->
  exists above, get_queries (XFin v) (XFin v) (XFin hi) n = map XFin above /\ length above = 2 * n /\ Forall (fun q => v < q < hi)%R above.
Proof.
  intros Hv. unfold get_queries. cbn [xisinf xeqb]. destruct (Reqb_spec v v); [|lra]. cbn [xsub xopp xadd].
  exists (map (fun r => v + r * (hi - v))%R (query_ratios (2 * n))). split; [rewrite map_map; reflexivity|]. split; [rewrite map_length; apply ratios_length|].
  apply Forall_forall. intros q Hq. apply in_map_iff in Hq as [r [<- Hr]]. apply ratios_range in Hr; [nra|lia].
Qed.
Lemma queries_at_upper v lo n : (lo < v)%R ->
  exists below, get_queries (XFin v) (XFin lo) (XFin v) n = map XFin below /\ length below = 2 * n /\ Forall (fun q => lo < q < v)%R below.
Proof.
  intros Hv. unfold get_queries. cbn [xisinf xeqb]. destruct (Reqb_spec v lo); [lra|]. destruct (Reqb_spec v v); [|lra]. cbn [xsub xopp xadd].
  exists (map (fun r => v - r * (v - lo))%R (rev (query_ratios (2 * n)))). split; [rewrite map_map; reflexivity|].
  split; [rewrite map_length, rev_length; apply ratios_length|].
  apply Forall_forall. intros q Hq. apply in_map_iff in Hq as [r [<- Hr]]. apply in_rev in Hr. apply ratios_range in Hr; [nra|lia].
Qed.
Lemma queries_single v lo hi : (lo < v < hi)%R ->
  get_queries (XFin v) (XFin lo) (XFin hi) 1 = [XFin (v + 5 * (v - lo)); XFin (v - 5 * (hi - v))].
Proof.
  intros Hv. unfold get_queries. cbn [xisinf xeqb].
  destruct (Reqb_spec v lo); [lra|]. destruct (Reqb_spec v hi); [lra|].
  change (query_ratios 1) with [log_min]. cbn [rev app map xsub xopp xadd xscale]. unfold log_min.
  f_equal; [f_equal; lra|]. f_equal. f_equal. lra.
Qed.
Lemma queries_infinite v lo hi n : get_queries v lo hi n =
  get_queries v (if xisinf lo then XFin (-100000000) else lo) (if xisinf hi then XFin 100000000 else hi) n.
Proof. unfold get_queries. destruct lo, hi; reflexivity. Qed.

(* ---- gradients ---- *)
Lemma valid_values s : params_are_valid s = true -> Forall (fun kp => p_value (snd kp) <> XNaN) s.
Proof.
  intros H. apply params_are_valid_spec in H. eapply Forall_impl; [|exact H]. intros [k p] Hp. cbn in *.
  unfold is_valid, within_bounds in Hp. apply andb_true_iff in Hp as [Hp _]. apply xleb_not_nan in Hp. tauto.
Qed.

Lemma seen_not_nan s k p : store_ok s -> params_are_valid s = true -> In (k, p) (tunables s) -> seen p (p_value p) <> XNaN.
Proof.
  intros [_ [Hc [Hn _]]] Hv Hin. pose proof (valid_values s Hv) as Hvv. rewrite Forall_forall in Hc, Hn, Hvv.
  pose proof Hin as Hin'. apply filter_In in Hin' as [Hin' _]. specialize (Hc _ Hin'). specialize (Hn _ Hin). specialize (Hvv _ Hin').
  cbn [snd] in *. unfold seen. destruct (is_log_scale (p_prior p)) eqn:El; [|exact Hvv].
  destruct (log_scale_positive _ _ Hc El (proj1 Hn)) as [E|E]; [contradiction|].
  destruct (p_value p) as [|x| |]; cbn in *; try congruence. xcase; try congruence; lra.
Qed.

Lemma moved_valid s i k p v : store_ok s -> params_are_valid s = true -> nth_error (tunables s) i = Some (k, p) -> v <> XNaN ->
  params_are_valid (moved_to k p v s) = true.
Proof.
  intros Hok Hv Hi Hn.
  apply (set_forced_valid s (set_nth (tp_values (tp_of (tunables s))) i v)).
  - apply Hok.
  - apply Hok.
  - apply params_are_valid_spec in Hv. eapply Forall_impl; [|exact Hv]. auto.
  - apply Forall_forall. intros x Hx. apply In_nth_error in Hx as [j Hj]. rewrite nth_error_set_nth in Hj.
    destruct (Nat.eqb_spec i j).
    + destruct (j <? _); congruence.
    + cbn in Hj. rewrite nth_error_map' in Hj. destruct (nth_error (tunables s) j) as [[k' p']|] eqn:E; [|discriminate].
      injection Hj as <-. eapply seen_not_nan; [exact Hok|exact Hv|eapply nth_error_In, E].
  - apply set_one; assumption.
Qed.

Lemma nonan_add v e : v <> XNaN -> xadd v (XFin e) <> XNaN.
Proof. destruct v; cbn; congruence. Qed.

Lemma single_gradient_spec f s f_val i k p : store_ok s -> params_are_valid s = true -> nth_error (tunables s) i = Some (k, p) ->
  single_sub_gradient f s f_val (tp_of (tunables s)) i = Ok (fd_entry f s f_val (k, p)).
Proof.
  intros Hok Hv Hi. unfold single_sub_gradient, get_perturbed. cbn [tp_of tp_lower tp_upper].
  assert (nth_error (tp_values (tp_of (tunables s))) i = Some (seen p (p_value p))) as Ev.
  { cbn. rewrite nth_error_map', Hi. reflexivity. }
  change (map (fun kp => seen (snd kp) (p_value (snd kp))) (tunables s)) with (tp_values (tp_of (tunables s))).
  rewrite Ev. rewrite !nth_error_map', Hi. cbn [option_map of_option bind snd tp_values].
  change (match xsub (seen p (ub p)) (seen p (lb p)) with XFin range => (/ 100000000 * range)%R | _ => (/ 1000000)%R end) with (fd_step p).
  change (map (fun kp => seen (snd kp) (p_value (snd kp))) (tunables s)) with (tp_values (tp_of (tunables s))).
  rewrite (set_one s i k p _ Hok Hi). cbn [bind].
  rewrite (moved_valid s i k p); [|exact Hok|exact Hv|exact Hi|].
  2:{ apply nonan_add. eapply seen_not_nan; [exact Hok|exact Hv|eapply nth_error_In, Hi]. }
  cbn [negb bind]. f_equal. unfold fd_entry, fd_raw. cbn [snd].
  set (g := xdivr _ _ _). destruct (xleb (seen p (ub p)) (seen p (p_value p)) && xltb g (XFin 0)) eqn:E1; [|reflexivity].
  destruct (xleb (seen p (p_value p)) (seen p (lb p))); cbn; [|reflexivity]. destruct (Rltb_spec 0 0); [lra|reflexivity].
Qed.

Lemma gradient_spec f s f_val : store_ok s -> params_are_valid s = true ->
  compute_gradient f s f_val = Ok (map (fd_entry f s f_val) (tunables s)).
Proof.
  intros Hok Hv. unfold compute_gradient. rewrite ok_get by exact Hok. cbn [bind].
  assert (length (tp_values (tp_of (tunables s))) = length (tunables s)) as -> by (cbn; apply map_length).
  apply mapM_ok. apply Forall2_nth_error_iff. split; [rewrite seq_length, map_length; reflexivity|].
  intros i j y Hj Hy. rewrite nth_error_seq in Hj. destruct (Nat.ltb_spec i (length (tunables s))) as [Hlt|]; [|discriminate].
  injection Hj as <-. cbn [Nat.add]. rewrite nth_error_map' in Hy.
  destruct (nth_error (tunables s) i) as [[k p]|] eqn:E; [|discriminate]. injection Hy as <-.
  apply single_gradient_spec; assumption.
Qed.

Lemma entry_upper f s f_val kp : let p := snd kp in
  xleb (seen p (ub p)) (seen p (p_value p)) = true -> xltb (fd_entry f s f_val kp) (XFin 0) = false.
Proof.
  intros p Hp. unfold fd_entry. fold p. rewrite Hp. cbn [andb].
  destruct (xltb (fd_raw f s f_val kp) (XFin 0)) eqn:E; [cbn; xcase; [lra|reflexivity]|].
  destruct (_ && _); [cbn; xcase; [lra|reflexivity]|exact E].
Qed.
Lemma entry_lower f s f_val kp : let p := snd kp in
  xleb (seen p (p_value p)) (seen p (lb p)) = true -> xltb (XFin 0) (fd_entry f s f_val kp) = false.
Proof.
  intros p Hp. unfold fd_entry. fold p. rewrite Hp. destruct (_ && xltb _ (XFin 0)); [cbn; xcase; [lra|reflexivity]|].
  cbn [andb]. destruct (xltb (XFin 0) (fd_raw f s f_val kp)) eqn:E; [cbn; xcase; [lra|reflexivity]|exact E].
Qed.

Lemma massign_same k p (s : store) : wf_map s -> mfind k s = Some p -> massign k p s = s.
Proof.
  intros Hw Hk. apply mfind_In_keys in Hk. apply in_split in Hk as [l [r ->]]. apply massign_replace, Hw.
Qed.

Lemma unseen_mono p a b : xleb a b = true -> xleb (unseen p a) (unseen p b) = true.
Proof. unfold unseen. destruct (is_log_scale (p_prior p)); [apply xexp_mono_le|auto]. Qed.

Lemma unseen_seen p v : prior_constructible (p_prior p) -> xltb v (lb p) = false -> unseen p (seen p v) = v.
Proof.
  intros Hc Hl. unfold unseen, seen. destruct (is_log_scale (p_prior p)) eqn:E; [|reflexivity].
  apply xexp_log. eapply log_scale_positive; eassumption.
Qed.

(* at its upper bound, a parameter is not moved at all *)
Lemma entry_at_upper f s k p x : store_ok s -> params_are_valid s = true -> In (k, p) (tunables s) ->
  p_value p = ub p -> f s = XFin x -> fd_step p <> 0%R -> (0 <= fd_step p)%R -> fd_entry f s (f s) (k, p) = XFin 0.
Proof.
  intros Hok Hv Hin Hub Hf Hne Hpos. apply In_nth_error in Hin as [i Hi].
  assert (moved_to k p (xadd (seen p (p_value p)) (XFin (fd_step p))) s = s) as E.
  { pose proof Hok as [Hw [Hc [Hn Hb]]]. destruct (tunable_find s i k p Hw Hi) as [Hk _].
    unfold moved_to. assert (clamp p (unseen p (xadd (seen p (p_value p)) (XFin (fd_step p)))) = p_value p) as ->.
    - pose proof (nth_error_In _ _ Hi) as Hin. rewrite Forall_forall in Hn, Hb, Hc. specialize (Hn _ Hin). specialize (Hb _ Hin).
      specialize (Hc (k, p) (proj1 (proj1 (filter_In _ _ _) Hin))). cbn [snd] in *. destruct Hn as [Hn1 Hn2].
      assert (xleb (p_value p) (unseen p (xadd (seen p (p_value p)) (XFin (fd_step p)))) = true) as Hle.
      { rewrite <- (unseen_seen p (p_value p) Hc Hn1) at 1. apply unseen_mono.
        assert (seen p (p_value p) <> XNaN) as Hnn by (eapply seen_not_nan; [exact Hok|exact Hv|eapply nth_error_In, Hi]).
        destruct (seen p (p_value p)); cbn; try reflexivity; [|congruence]. xcase; [reflexivity|lra]. }
      unfold clamp. rewrite <- Hub in *.
      destruct (xltb (unseen p (xadd (seen p (p_value p)) (XFin (fd_step p)))) (lb p)) eqn:E1.
      + exfalso. rewrite (xleb_ltb _ _ (xleb_trans _ _ _ Hb Hle)) in E1. discriminate.
      + destruct (xltb (p_value p) (unseen p (xadd (seen p (p_value p)) (XFin (fd_step p))))) eqn:E2; [reflexivity|].
        assert (xleb (unseen p (xadd (seen p (p_value p)) (XFin (fd_step p)))) (p_value p) = true) as Hge.
        { apply xnlt_leb; [|apply xleb_not_nan in Hle; tauto|exact E2]. apply xleb_not_nan in Hle. tauto. }
        revert Hle Hge. generalize (unseen p (xadd (seen p (p_value p)) (XFin (fd_step p)))). intros u.
        destruct u, (p_value p); cbn; try discriminate; auto. xcase; try discriminate. intros _ _. f_equal. lra.
    - destruct p as [v pr]. cbn. apply massign_same; assumption. }
  assert (fd_raw f s (f s) (k, p) = XFin 0) as Er.
  { unfold fd_raw. rewrite E, Hf. cbn. unfold xdivr. destruct (Reqb_spec (fd_step p) 0); [contradiction|]. cbn. f_equal. lra. }
  unfold fd_entry. cbn [snd]. rewrite Er. cbn. assert (Rltb 0 0 = false) as -> by (destruct (Rltb_spec 0 0); [lra|reflexivity]).
  rewrite !andb_false_r. reflexivity.
Qed.

Lemma fd_step_pos p : xleb (lb p) (ub p) = true -> prior_constructible (p_prior p) -> (0 <= fd_step p)%R.
Proof.
  intros Hb Hc. unfold fd_step. assert (xleb (seen p (lb p)) (seen p (ub p)) = true \/ is_log_scale (p_prior p) = true /\ True) as H by
    (unfold seen; destruct (is_log_scale (p_prior p)); auto).
  assert (forall a b, xleb a b = true -> match xsub b a with XFin range => (0 <= / 100000000 * range)%R | _ => True end) as Hs.
  { intros a b Hab. destruct a, b; cbn in *; try exact I; try discriminate. xcase; try discriminate. lra. }
  unfold seen in *. destruct (is_log_scale (p_prior p)) eqn:E.
  - unfold lb, ub in *. destruct (p_prior p); try discriminate. cbn [lower_bound upper_bound prior_constructible] in *.
    destruct Hc as [_ [Hu Hl]].
    assert (xleb (xlog lower) (xlog upper) = true) as Hlog.
    { destruct lower, upper; cbn in *; try discriminate; try reflexivity; xcase; try discriminate; cbn; try reflexivity; xcase; try reflexivity.
      exfalso. destruct (Rle_lt_or_eq_dec x x0) as [Hlt| ->]; [assumption| |lra]. apply ln_increasing in Hlt; lra. }
    specialize (Hs _ _ Hlog). destruct (xsub _ _); lra.
  - destruct H as [H|[H _]]; [|discriminate]. specialize (Hs _ _ H). destruct (xsub _ _); lra.
Qed.


Lemma entry_affine f s k p v l u c a : store_ok s -> In (k, p) (tunables s) -> is_log_scale (p_prior p) = false ->
  p_value p = XFin v -> lb p = XFin l -> ub p = XFin u -> (l <= v <= u)%R -> (l < u)%R -> affine_in f k p s c a ->
  let e := (/ 100000000 * (u - l))%R in
  fd_raw f s (f s) (k, p) = XFin (a * (Rmin (v + e) u - v) / e).
Proof.
  intros Hok Hin Hlog Hv Hl Hu Hr Hlt Ha e. apply In_nth_error in Hin as [i Hi]. pose proof Hok as [Hw _].
  destruct (tunable_find s i k p Hw Hi) as [Hk _].
  assert (fd_step p = e) as He.
  { unfold fd_step, seen. rewrite Hlog, Hl, Hu. cbn. unfold e. reflexivity. }
  assert (0 < e)%R as Hep by (unfold e; lra).
  assert (f s = XFin (c + a * v)) as Hfs.
  { rewrite <- Ha. f_equal. symmetry. apply massign_same; [exact Hw|]. rewrite Hk. f_equal. destruct p; cbn in *; congruence. }
  unfold fd_raw. rewrite He, Hfs. unfold moved_to, seen, unseen. rewrite Hlog, Hv. cbn [xadd].
  assert (clamp p (XFin (v + e)) = XFin (Rmin (v + e) u)) as ->.
  { unfold clamp. rewrite Hl, Hu. cbn. xcase; [lra|rewrite Rmin_right by lra; reflexivity|rewrite Rmin_left by lra; reflexivity]. }
  rewrite Ha. cbn. unfold xdivr. destruct (Reqb_spec e 0); [lra|]. cbn. f_equal. field. lra.
Qed.

Lemma gradient_vector_spec f params f_val i v : nth_error params i = Some v ->
  length (compute_gradient_vector f params f_val) = length params /\
  nth_error (compute_gradient_vector f params f_val) i =
    Some (xscale 1000000 (xsub (f (set_nth params i (xadd v (XFin (/ 1000000))))) f_val)).
Proof.
  intros Hi. unfold compute_gradient_vector. split; [rewrite map_length; apply seq_length|].
  assert (i < length params) as Hlt by (apply nth_error_Some; congruence).
  rewrite nth_error_map', nth_error_seq. destruct (Nat.ltb_spec i (length params)); [|lia]. cbn [option_map Nat.add].
  rewrite Hi. f_equal. unfold xdivr. destruct (Reqb_spec (/ 1000000) 0); [lra|]. rewrite Rinv_inv. reflexivity.
Qed.

(* ---- the tuners ---- *)

Lemma in_bounds_set s x : store_ok s -> params_are_valid s = true -> in_bounds s x ->
  exists s', set_tunable_params_values s x true = Ok s' /\ params_are_valid s' = true /\ same_shape s s' /\
    get_tunable_parameters s' = Ok (TP (map fst (tunables s)) x (map (fun kp => seen (snd kp) (lb (snd kp))) (tunables s))
                                       (map (fun kp => seen (snd kp) (ub (snd kp))) (tunables s))) /\ store_ok s'.
Proof.
  intros Hok Hv Hb. pose proof (Forall2_len _ _ _ Hb) as Hl. pose proof Hok as [Hw [Hc [Hn Hbd]]].
  exists (assign_tunables true s x).
  assert (set_tunable_params_values s x true = Ok (assign_tunables true s x)) as E.
  { rewrite set_tunable_spec by exact Hw. rewrite <- Hl, Nat.ltb_irrefl. reflexivity. }
  assert (same_shape s (assign_tunables true s x)) as Hs.
  { clear -Hl. revert x Hl. induction s as [|[k p] s IH]; intros x Hl; [constructor|]. cbn [assign_tunables tunables filter snd] in *.
    destruct (param_fixed p) eqn:Ef; cbn [negb] in Hl; [constructor; [auto|apply IH, Hl]|].
    destruct x as [|v x]; [discriminate|]. constructor; [cbn; split; [reflexivity|split; [reflexivity|congruence]]|].
    apply IH. injection Hl as Hl. exact Hl. }
  split; [exact E|]. split; [|split; [exact Hs|split]].
  - apply (set_forced_valid s x); try assumption.
    + apply params_are_valid_spec in Hv. eapply Forall_impl; [|exact Hv]. auto.
    + clear -Hb. induction Hb as [|kp v ts x [H1 _] _ IH]; constructor; [|exact IH]. apply xleb_not_nan in H1. tauto.
  - apply get_after_set; assumption.
  - split; [eapply wf_keys_eq; [apply shape_keys, Hs|exact Hw]|].
    assert (Forall (fun kp => xleb (lb (snd kp)) (ub (snd kp)) = true) (tunables (assign_tunables true s x))) as Hbd'.
    { pose proof (shape_tunables _ _ Hs) as Ht. clear -Ht Hbd. induction Ht as [|a b ta tb [_ E] _ IH]; [constructor|].
      inversion Hbd; subst. constructor; [|apply IH; assumption]. unfold lb, ub in *. rewrite <- E. assumption. }
    split; [|split; [|exact Hbd']].
    + clear -Hs Hc. induction Hs as [|a b ta tb [_ [E _]] _ IH]; [constructor|]. inversion Hc; subst. constructor; [congruence|apply IH; assumption].
    + destruct (get_tunable_spec (assign_tunables true s x)) as [[Hg _]|[_ Hg]]; [exact Hg|].
      rewrite get_after_set in Hg by assumption. discriminate.
Qed.

Lemma wrapped_objective_spec objective s with_gradient x : store_ok s -> params_are_valid s = true -> in_bounds s x ->
  exists s', set_tunable_params_values s x true = Ok s' /\ params_are_valid s' = true /\
    param_wrapped_objective objective s with_gradient x =
    Ok (if xisnan (objective s') then XPos else objective s',
        if with_gradient then map (fd_entry objective s' (objective s')) (tunables s') else []).
Proof.
  intros Hok Hv Hb. destruct (in_bounds_set s x Hok Hv Hb) as [s' [E [V [_ [_ O]]]]].
  exists s'. split; [exact E|]. split; [exact V|]. unfold param_wrapped_objective. rewrite E. cbn [bind]. rewrite V. cbn [assert_then].
  destruct with_gradient; [rewrite gradient_spec by assumption|]; reflexivity.
Qed.

Lemma run_optimizer_spec optimize dimension s : store_ok s -> params_are_valid s = true ->
  dimension = length (tunables s) ->
  (forall x0 x, optimize x0 = Ok x -> in_bounds s x) ->
  match optimize (tp_values (tp_of (tunables s))) with
  | Ok x => exists s', run_optimizer optimize dimension s = Ok s' /\ params_are_valid s' = true /\ same_shape s s' /\
      exists tp, get_tunable_parameters s' = Ok tp /\ tp_values tp = x
  | Abort => run_optimizer optimize dimension s = Abort
  | Throw => run_optimizer optimize dimension s = Throw
  | UB => run_optimizer optimize dimension s = UB
  end.
Proof.
  intros Hok Hv -> Hopt. unfold run_optimizer. rewrite ok_get by exact Hok. cbn [bind].
  assert (length (tp_values (tp_of (tunables s))) = length (tunables s)) as -> by (cbn; apply map_length).
  rewrite Nat.eqb_refl. cbn [assert_then].
  destruct (optimize (tp_values (tp_of (tunables s)))) as [x| | |] eqn:E; try reflexivity.
  destruct (in_bounds_set s x Hok Hv (Hopt _ _ E)) as [s' [E' [V [Sh [G _]]]]]. exists s'. cbn [bind]. split; [exact E'|].
  split; [exact V|]. split; [exact Sh|]. eexists. split; [exact G|reflexivity].
Qed.

Lemma run_optimizer_dimension optimize dimension s : store_ok s -> dimension <> length (tunables s) ->
  run_optimizer optimize dimension s = Abort.
Proof.
  intros Hok Hd. unfold run_optimizer. rewrite ok_get by exact Hok. cbn [bind].
  assert (length (tp_values (tp_of (tunables s))) = length (tunables s)) as -> by (cbn; apply map_length).
  destruct (Nat.eqb_spec dimension (length (tunables s))); [contradiction|reflexivity].
Qed.

Lemma mean_aggregator_spec rs : rs <> [] ->
  mean_aggregator (map XFin rs) = XFin (fold_right Rplus 0%R rs / INR (length rs)).
Proof.
  intros Hn. unfold mean_aggregator.
  assert (forall l a, fold_left xadd (map XFin l) (XFin a) = XFin (a + fold_right Rplus 0%R l)) as Hs.
  { induction l as [|x l IH]; intros b; cbn; [f_equal; lra|]. rewrite IH. f_equal. lra. }
  rewrite Hs, map_length. unfold xdivr.
  destruct (Reqb_spec (INR (length rs)) 0) as [E|_].
  - apply (INR_eq _ 0) in E. destruct rs; [congruence|discriminate].
  - cbn. f_equal. unfold Rdiv. rewrite Rplus_0_l. apply Rmult_comm.
Qed.
Lemma mean_aggregator_none : mean_aggregator [] = XNaN.
Proof. unfold mean_aggregator, xdivr. cbn. destruct (Reqb_spec 0 0); [reflexivity|lra]. Qed.

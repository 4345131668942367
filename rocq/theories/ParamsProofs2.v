From Coq Require Import Reals String Lra.
From Verif Require Import Base BaseProofs StdMapModel StdMapProofs StringKeyModel MapUtilsModel MapUtilsProofs
  ExtRealModel ExtRealProofs PriorModel ParamsModel ParamsSpec ParamsProofs.


Lemma set_param_values_if_exists_spec values : forall s, wf_map s -> NoDup (mkeys values) ->
  let r := set_param_values_if_exists values s in
  fst r = (0 <? length values) && forallb (fun kv => mcontains (fst kv) s) values /\
  wf_map (snd r) /\ mkeys (snd r) = mkeys s /\
  forall k, mfind k (snd r) = option_map (override_values values k) (mfind k s).
Proof.
  intros s Hw Hnd. unfold set_param_values_if_exists.
  generalize (0 <? length values) as b. revert s Hw.
  induction values as [|[k v] values IH]; intros s Hw b; cbn zeta in *.
  - cbn. rewrite Bool.andb_true_r. repeat split; auto. intros k. destruct (mfind k s); reflexivity.
  - cbn [fold_left forallb find fst snd]. unfold set_param_value_if_exists, modify_param_if_exists.
    inversion Hnd as [|? ? Hn Hnd']; subst.
    destruct (mfind k s) as [q|] eqn:E.
    + assert (In k (mkeys s)) as Hk by (apply mfind_Some_key; eauto).
      set (p := Param v (p_prior q)).
      destruct (IH Hnd' (massign k p s) (wf_massign k p s Hw) (b && true)) as [H1 [H2 [H3 H4]]].
      unfold set_param_value_if_exists, modify_param_if_exists in H1, H2, H3, H4.
      rewrite H1. split; [|split; [exact H2|split]].
      * unfold mcontains at 2. rewrite E. rewrite !Bool.andb_true_r, Bool.andb_true_l. f_equal.
        apply eq_true_iff_eq. rewrite !forallb_forall.
        assert (forall k1, mcontains k1 (massign k p s) = mcontains k1 s) as Ec.
        { intros k1. unfold mcontains. rewrite mfind_massign by exact Hw. destruct (keqb_spec k1 k) as [->|]; [rewrite E|]; reflexivity. }
        split; intros Hx x Hin; specialize (Hx x Hin); rewrite Ec in *; exact Hx.
      * rewrite H3. apply mkeys_massign_old; assumption.
      * intros k'. rewrite H4, mfind_massign by exact Hw. unfold override_values. cbn [find fst].
        destruct (keqb_spec k' k) as [->|Hkk].
        -- rewrite E, keqb_refl. cbn [option_map].
           destruct (find (fun kp => keqb (fst kp) k) values) as [[k2 q2]|] eqn:Ef; [|reflexivity].
           exfalso. apply find_some in Ef as [Hin Heq]. cbn in Heq. destruct (keqb_spec k2 k) as [->|]; [|discriminate].
           apply Hn. apply in_map_iff. exists (k, q2). auto.
        -- destruct (keqb_spec k k') as [->|_]; [contradiction|]. reflexivity.
    + destruct (IH Hnd' s Hw (b && false)) as [H1 [H2 [H3 H4]]].
      unfold set_param_value_if_exists, modify_param_if_exists in H1, H2, H3, H4.
      rewrite H1. split; [|split; [exact H2|split; [exact H3|]]].
      * unfold mcontains at 2. rewrite E. rewrite !Bool.andb_false_r. reflexivity.
      * intros k'. rewrite H4. unfold override_values. cbn [find fst].
        destruct (keqb_spec k k') as [->|_]; [rewrite E; reflexivity|reflexivity].
Qed.

(* the checked one: the same store, or the program stops *)
Lemma set_param_values_spec values : forall s, wf_map s ->
  set_param_values values s =
  if forallb (fun kv => mcontains (fst kv) s) values then Ok (snd (set_param_values_if_exists values s)) else Abort.
Proof.
  unfold set_param_values, set_param_values_if_exists. intros s.
  generalize (0 <? length values) as b. revert s.
  induction values as [|[k v] values IH]; intros s b Hw; cbn [forallb foldM fold_left fst snd]; [reflexivity|].
  assert (set_param_value k v s = match mfind k s with Some q => Ok (massign k (Param v (p_prior q)) s) | None => Abort end) as -> by reflexivity.
  unfold set_param_value_if_exists, modify_param_if_exists.
  unfold mcontains at 1. destruct (mfind k s) as [q|] eqn:E; cbn [andb bind]; [|reflexivity].
  rewrite (IH _ (b && true) (wf_massign k (Param v (p_prior q)) s Hw)).
  assert (forallb (fun kp => mcontains (fst kp) (massign k (Param v (p_prior q)) s)) values = forallb (fun kp => mcontains (fst kp) s) values) as ->; [|reflexivity].
  clear IH. induction values as [|[k1 p1] values IH]; [reflexivity|]. cbn. rewrite IH. f_equal.
  unfold mcontains. rewrite mfind_massign by exact Hw. destruct (keqb_spec k1 k) as [->|]; [rewrite E|]; reflexivity.
Qed.

Lemma h_set_param_values_spec h values : separate h -> NoDup (mkeys values) ->
  if forallb (fun kv => mcontains (fst kv) (get_params h)) values
  then exists h', h_set_param_values values h = Ok h' /\ separate h' /\ mkeys (get_params h') = mkeys (get_params h) /\
         forall k, mfind k (get_params h') = option_map (override_values values k) (mfind k (get_params h))
  else h_set_param_values values h = Abort.
Proof.
  intros Hs Hnd. destruct (separate_wf h Hs) as [W E]. unfold h_set_param_values. rewrite (set_param_values_spec values _ W).
  destruct (forallb (fun kp => mcontains (fst kp) (get_params h)) values) eqn:Ef; cbn [bind]; [|reflexivity].
  destruct (set_param_values_if_exists_spec values _ W Hnd) as (_ & A & B & C).
  destruct (unchecked_set_all h _ Hs A B) as (h' & H1 & H2 & H3). exists h'. rewrite H3. auto.
Qed.

Lemma h_set_param_values_if_exists_spec h values : separate h -> NoDup (mkeys values) ->
  exists h', h_set_param_values_if_exists values h =
      Ok ((0 <? length values) && forallb (fun kv => mcontains (fst kv) (get_params h)) values, h') /\
    separate h' /\ mkeys (get_params h') = mkeys (get_params h) /\
    forall k, mfind k (get_params h') = option_map (override_values values k) (mfind k (get_params h)).
Proof.
  intros Hs Hnd. destruct (separate_wf h Hs) as [W E]. unfold h_set_param_values_if_exists.
  destruct (set_param_values_if_exists_spec values _ W Hnd) as (F & A & B & C).
  destruct (set_param_values_if_exists values (get_params h)) as [flag params]. cbn [fst snd] in *. subst flag.
  destruct (unchecked_set_all h _ Hs A B) as (h' & H1 & H2 & H3). exists h'. rewrite H1, H3. cbn [bind]. auto.
Qed.


Lemma h_set_params_if_exists_spec h input : separate h -> NoDup (mkeys input) ->
  exists h', h_set_params_if_exists input h =
      Ok ((0 <? length input) && forallb (fun kv => mcontains (fst kv) (get_params h)) input, h') /\
    separate h' /\ mkeys (get_params h') = mkeys (get_params h) /\
    forall k, mfind k (get_params h') = option_map (override input k) (mfind k (get_params h)).
Proof.
  intros Hs Hnd. destruct (separate_wf h Hs) as [W E]. unfold h_set_params_if_exists.
  destruct (set_params_if_exists_spec input _ W Hnd) as (F & A & B & C).
  destruct (set_params_if_exists input (get_params h)) as [flag params]. cbn [fst snd] in *. subst flag.
  destruct (unchecked_set_all h _ Hs A B) as (h' & H1 & H2 & H3). exists h'. rewrite H1, H3. cbn [bind].
  split; [reflexivity|]. split; [exact H2|]. split; [exact B|]. intros k. rewrite C. unfold override.
  destruct (mfind k (get_params h)); [|reflexivity]. cbn. destruct (find _ input) as [[? ?]|]; reflexivity.
Qed.

Lemma h_set_if_exists_spec h name : separate h ->
  (forall param, match mfind name (get_params h) with
   | None => h_set_param_if_exists name param h = Ok (false, h)
   | Some p => exists h', h_set_param_if_exists name param h = Ok (true, h') /\ separate h' /\
                 get_params h' = massign name param (get_params h)
   end) /\
  (forall value, match mfind name (get_params h) with
   | None => h_set_param_value_if_exists name value h = Ok (false, h)
   | Some p => exists h', h_set_param_value_if_exists name value h = Ok (true, h') /\ separate h' /\
                 get_params h' = massign name (Param value (p_prior p)) (get_params h)
   end).
Proof.
  intros Hs. destruct (separate_wf h Hs) as [W E]. split; intros x;
  unfold h_set_param_if_exists, h_set_param_value_if_exists, set_param_if_exists, set_param_value_if_exists, modify_param_if_exists;
  destruct (mfind name (get_params h)) as [p|] eqn:Ep; cbn [negb]; try reflexivity;
  unfold mat; rewrite mfind_massign_eq by exact W; cbn [bind].
  - destruct (unchecked_set_param_spec h name x Hs) as (h' & H1 & H2 & H3); [unfold mcontains; rewrite Ep; reflexivity|].
    exists h'. rewrite H1. auto.
  - destruct (unchecked_set_param_spec h name (Param x (p_prior p)) Hs) as (h' & H1 & H2 & H3); [unfold mcontains; rewrite Ep; reflexivity|].
    exists h'. rewrite H1. auto.
Qed.

(* the log likelihood of the priors *)
Section PriorSum.
Let term (kp : string * parameter) : xr := log_pdf (p_prior (snd kp)) (p_value (snd kp)).
Let acc (sum : xr) (kp : string * parameter) : xr := xadd sum (term kp).

Lemma prior_sum_finite (s : store) (f : parameter -> R) :
  (forall k p, In (k, p) s -> log_pdf (p_prior p) (p_value p) = XFin (f p)) ->
  parameter_prior_log_likelihood s = XFin (fold_right Rplus 0%R (map (fun kp => f (snd kp)) s)).
Proof.
  intros H. unfold parameter_prior_log_likelihood.
  assert (G : forall a, fold_left acc s (XFin a) = XFin (a + fold_right Rplus 0%R (map (fun kp => f (snd kp)) s))).
  { induction s as [|[k p] s IH]; intros a; cbn [fold_left map fold_right].
    - rewrite Rplus_0_r. reflexivity.
    - unfold acc at 2, term. cbn [snd]. rewrite (H k p) by (left; reflexivity). cbn [xadd].
      rewrite IH by (intros; eapply H; right; eassumption). f_equal. cbn [snd]. lra. }
  change (fold_left acc s (XFin 0) = XFin (fold_right Rplus 0%R (map (fun kp => f (snd kp)) s))). rewrite (G 0%R). rewrite Rplus_0_l. reflexivity.
Qed.
Lemma prior_sum_nan (s : store) k p : In (k, p) s -> log_pdf (p_prior p) (p_value p) = XNaN -> parameter_prior_log_likelihood s = XNaN.
Proof.
  intros Hin Hn. unfold parameter_prior_log_likelihood.
  assert (N : forall l, fold_left acc l XNaN = XNaN).
  { induction l as [|x l IH]; [reflexivity|]. cbn [fold_left]. unfold acc at 2. cbn [xadd]. apply IH. }
  apply in_split in Hin as (u & v & ->). rewrite fold_left_app. cbn [fold_left].
  change (fold_left acc v (acc (fold_left acc u (XFin 0)) (k, p)) = XNaN). unfold acc at 2, term. cbn [snd]. rewrite Hn.
  assert (forall x, xadd x XNaN = XNaN) as -> by (intros []; reflexivity). apply N.
Qed.
Lemma prior_sum_neg (s : store) k p : In (k, p) s -> log_pdf (p_prior p) (p_value p) = XNeg ->
  (forall k' p', In (k', p') s -> log_pdf (p_prior p') (p_value p') = XNeg \/ exists v, log_pdf (p_prior p') (p_value p') = XFin v) ->
  parameter_prior_log_likelihood s = XNeg.
Proof.
  intros Hin Hn Hall. unfold parameter_prior_log_likelihood.
  assert (G : forall l a, (forall k' p', In (k', p') l -> log_pdf (p_prior p') (p_value p') = XNeg \/ exists v, log_pdf (p_prior p') (p_value p') = XFin v) ->
      a = XNeg \/ (exists v, a = XFin v) ->
      (a = XNeg -> fold_left acc l a = XNeg) /\ (fold_left acc l a = XNeg \/ exists v, fold_left acc l a = XFin v)).
  { induction l as [|[k' p'] l IH]; intros a Hl Ha; cbn [fold_left]; [split; auto|].
    assert (Hb : acc a (k', p') = XNeg \/ exists v, acc a (k', p') = XFin v).
    { unfold acc, term. cbn [snd]. destruct (Hl k' p' (or_introl eq_refl)) as [-> | [v ->]]; destruct Ha as [-> | [w ->]]; cbn; eauto. }
    destruct (IH (acc a (k', p')) (fun k2 p2 H => Hl k2 p2 (or_intror H)) Hb) as [I1 I2]. split; [|exact I2].
    intros ->. apply I1. unfold acc, term. cbn [snd]. destruct (Hl k' p' (or_introl eq_refl)) as [-> | [v ->]]; reflexivity. }
  apply in_split in Hin as (u & v & ->). rewrite fold_left_app. cbn [fold_left].
  change (fold_left acc v (acc (fold_left acc u (XFin 0)) (k, p)) = XNeg).
  destruct (G u (XFin 0)) as [_ Hu]; [intros; eapply Hall; apply in_or_app; left; eassumption|right; eauto|].
  assert (Hk : acc (fold_left acc u (XFin 0)) (k, p) = XNeg).
  { unfold acc at 1, term. cbn [snd]. rewrite Hn. destruct Hu as [-> | [w ->]]; reflexivity. }
  rewrite Hk. apply G; [intros; eapply Hall; apply in_or_app; right; right; eassumption|left; reflexivity|reflexivity].
Qed.
End PriorSum.

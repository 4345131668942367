(* Properties C23, C24 and C25 of properties.jsonl. *)
From Coq Require Import Reals String Lra.
From Verif Require Import Base BaseProofs StdMapModel StdMapProofs StringKeyModel MapUtilsModel
  ExtRealModel ExtRealProofs PriorModel ParamsModel ParamsSpec ParamsProofs.

(* ---- C23 ---- *)
(* exactly the non fixed parameters are listed, in key order, with their values
   and bounds (as logarithms on a log scale); a value outside its bounds asserts *)
Theorem C23_get : forall s : store,
  (Forall (fun kp => not_outside (snd kp)) (tunables s) /\
   get_tunable_parameters s = Ok
     (TP (map fst (tunables s)) (map (fun kp => seen (snd kp) (p_value (snd kp))) (tunables s))
         (map (fun kp => seen (snd kp) (lb (snd kp))) (tunables s))
         (map (fun kp => seen (snd kp) (ub (snd kp))) (tunables s)))) \/
  (~ Forall (fun kp => not_outside (snd kp)) (tunables s) /\ get_tunable_parameters s = Abort).
Proof. exact get_tunable_spec. Qed.
Print Assumptions C23_get.

(* setting succeeds exactly with one value per tunable parameter; with too few the
   vector is read out of bounds, with too many an assertion fails *)
Theorem C23_set_outcome : forall (s : store) x fb, wf_map s ->
  (length x = length (tunables s) -> exists out, set_tunable_params_values s x fb = Ok out) /\
  (length (tunables s) < length x -> set_tunable_params_values s x fb = Abort) /\
  (length x < length (tunables s) -> set_tunable_params_values s x fb = UB).
Proof.
  intros s x fb Hw. rewrite set_tunable_spec by exact Hw.
  destruct (Nat.ltb_spec (length x) (length (tunables s))); destruct (Nat.ltb_spec (length (tunables s)) (length x));
    repeat split; try lia; eauto.
Qed.
Print Assumptions C23_set_outcome.

(* names are kept, fixed parameters are untouched, and the i-th value goes to the
   i-th tunable parameter, whose prior is kept *)
Theorem C23_set : forall (s out : store) x fb, wf_map s ->
  set_tunable_params_values s x fb = Ok out ->
  mkeys out = mkeys s /\
  (forall k p, mfind k s = Some p -> param_fixed p = true -> mfind k out = Some p) /\
  (forall i k p v, nth_error (tunables s) i = Some (k, p) -> nth_error x i = Some v ->
     mfind k out = Some (Param (if fb then clamp p (unseen p v) else unseen p v) (p_prior p))).
Proof.
  intros s out x fb Hw E. rewrite set_tunable_spec in E by exact Hw.
  destruct (Nat.ltb_spec (length x) (length (tunables s))); [discriminate|].
  destruct (Nat.ltb_spec (length (tunables s)) (length x)); [discriminate|]. injection E as <-.
  split; [apply assign_keys; lia|]. split.
  - intros. apply assign_fixed; auto.
  - intros. eapply assign_tunable_at; eauto.
Qed.
Print Assumptions C23_set.

(* writing back what was read changes nothing *)
Theorem C23_set_after_get : forall (s : store) tp fb, wf_map s ->
  Forall (fun kp => prior_constructible (p_prior (snd kp))) s ->
  get_tunable_parameters s = Ok tp -> set_tunable_params_values s (tp_values tp) fb = Ok s.
Proof. intros s tp fb. exact (set_after_get fb s tp). Qed.
Print Assumptions C23_set_after_get.

(* reading back what was written gives the written values, names and bounds *)
Theorem C23_get_after_set : forall (s out : store) x fb, wf_map s ->
  Forall (fun kp => prior_constructible (p_prior (snd kp))) s ->
  Forall2 (fun kp v => xleb (seen (snd kp) (lb (snd kp))) v = true /\
                       xleb v (seen (snd kp) (ub (snd kp))) = true) (tunables s) x ->
  set_tunable_params_values s x fb = Ok out ->
  get_tunable_parameters out =
  Ok (TP (map fst (tunables s)) x (map (fun kp => seen (snd kp) (lb (snd kp))) (tunables s))
         (map (fun kp => seen (snd kp) (ub (snd kp))) (tunables s))).
Proof.
  intros s out x fb Hw Hc Hf E. rewrite set_tunable_spec in E by exact Hw.
  pose proof (Forall2_len _ _ _ Hf) as Hl. rewrite Hl, Nat.ltb_irrefl in E. injection E as <-.
  apply get_after_set; assumption.
Qed.
Print Assumptions C23_get_after_set.

(* the same through the interface of a model or function: all of its other
   parameters keep their values *)
Theorem C23_handler : forall (h : handler) x fb, separate h ->
  length x = length (tunables (get_params h)) ->
  exists h' out, h_set_tunable_params_values x fb h = Ok h' /\
    set_tunable_params_values (get_params h) x fb = Ok out /\ get_params h' = out.
Proof.
  intros h x fb Hs Hl. destruct (h_set_tunable_spec h x fb Hs Hl) as [h' [E [_ G]]].
  exists h', (assign_tunables fb (get_params h) x). split; [exact E|]. split; [|exact G].
  rewrite set_tunable_spec by apply separate_wf, Hs. rewrite Hl, Nat.ltb_irrefl. reflexivity.
Qed.
Print Assumptions C23_handler.

Definition ex_store : store :=
  [("a"%string, Param (XFin 1) UninformativePrior); ("b"%string, Param (XFin 2) FixedPrior);
   ("c"%string, Param (XFin 4) (LogScaleUniformPrior (XFin 1) (XFin 9)))].
Lemma ex_store_wf : wf_map ex_store.
Proof. repeat constructor. Qed.
Example C23_ex : tunables ex_store = [("a"%string, Param (XFin 1) UninformativePrior);
   ("c"%string, Param (XFin 4) (LogScaleUniformPrior (XFin 1) (XFin 9)))] /\
  get_tunable_parameters ex_store =
    Ok (TP ["a"%string; "c"%string] [XFin 1; XFin (ln 4)] [XNeg; XFin (ln 1)] [XPos; XFin (ln 9)]) /\
  set_tunable_params_values ex_store [XFin 7; XFin 100] true =
    Ok [("a"%string, Param (XFin 7) UninformativePrior); ("b"%string, Param (XFin 2) FixedPrior);
        ("c"%string, Param (XFin 9) (LogScaleUniformPrior (XFin 1) (XFin 9)))].
Proof.
  split; [reflexivity|]. split.
  - destruct (C23_get ex_store) as [[_ ->]|[E _]].
    + cbn. xcase; try lra. reflexivity.
    + exfalso. apply E. repeat constructor; cbn; xcase; lra || reflexivity.
  - rewrite set_tunable_spec by apply ex_store_wf. cbn [ex_store length tunables filter snd param_fixed p_prior is_fixed negb Nat.ltb Nat.leb].
    rewrite Nat.ltb_irrefl. cbn [assign_tunables param_fixed p_prior is_fixed]. unfold new_value, unseen. cbn. unfold clamp, lb, ub. cbn.
    assert (9 < exp 100)%R. { pose proof (exp_ineq1 100). lra. }
    xcase; try lra. reflexivity.
Qed.

(* ---- C24 ---- *)
(* every value that is forced ends up inside the bounds, and unchanged if it was *)
Theorem C24_clamp : forall (p : parameter) v, v <> XNaN -> xleb (lb p) (ub p) = true ->
  xleb (lb p) (ensure_value_within_bounds p v) = true /\ xleb (ensure_value_within_bounds p v) (ub p) = true /\
  (xleb (lb p) v = true -> xleb v (ub p) = true -> ensure_value_within_bounds p v = v).
Proof.
  intros p v Hv Hb. destruct (clamp_within p v Hv Hb) as [H1 H2]. split; [exact H1|]. split; [exact H2|].
  intros H3 H4. apply (clamp_inside p v); apply xleb_ltb; assumption.
Qed.
Print Assumptions C24_clamp.

(* with finite bounds no point inside is closer *)
Theorem C24_nearest : forall (p : parameter) l u v, lb p = XFin l -> ub p = XFin u -> (l <= u)%R ->
  exists c, ensure_value_within_bounds p (XFin v) = XFin c /\ (l <= c <= u)%R /\
    forall y, (l <= y <= u)%R -> (Rabs (c - v) <= Rabs (y - v))%R.
Proof. exact clamp_nearest. Qed.
Print Assumptions C24_nearest.

(* the store is valid after a forced set, if its bounds are ordered *)
Theorem C24_forced_is_valid : forall (s out : store) x, wf_map s ->
  Forall (fun kp => xleb (lb (snd kp)) (ub (snd kp)) = true) (tunables s) ->
  Forall (fun kp => param_fixed (snd kp) = true -> is_valid (snd kp) = true) s ->
  Forall (fun v => v <> XNaN) x ->
  set_tunable_params_values s x true = Ok out -> params_are_valid out = true.
Proof. intros s out x. exact (set_forced_valid s x out). Qed.
Print Assumptions C24_forced_is_valid.

(* without forcing the values are kept, see C23_set, and params_are_valid tells
   exactly whether all values are inside their bounds *)
Theorem C24_validity : forall s : store,
  (params_are_valid s = true <->
   Forall (fun kp => xleb (lb (snd kp)) (p_value (snd kp)) = true /\ xleb (p_value (snd kp)) (ub (snd kp)) = true) s) /\
  (params_are_valid s = false <->
   Exists (fun kp => xleb (lb (snd kp)) (p_value (snd kp)) = false \/ xleb (p_value (snd kp)) (ub (snd kp)) = false) s).
Proof.
  intros s. rewrite params_are_valid_spec, params_are_valid_false. split.
  - split; apply Forall_impl; intros [k p]; unfold is_valid, within_bounds, lb, ub; rewrite Bool.andb_true_iff; auto.
  - split; apply Exists_impl; intros [k p]; unfold is_valid, within_bounds, lb, ub; rewrite Bool.andb_false_iff; auto.
Qed.
Print Assumptions C24_validity.

(* NaN passes through ensure_value_within_bounds *)
Theorem C24_nan_refuted : exists (s out : store) x, wf_map s /\
  Forall (fun kp => xleb (lb (snd kp)) (ub (snd kp)) = true) (tunables s) /\
  set_tunable_params_values s x true = Ok out /\ params_are_valid out = false.
Proof.
  exists [("a"%string, Param (XFin 1) (UniformPrior (XFin 0) (XFin 2)))],
         [("a"%string, Param XNaN (UniformPrior (XFin 0) (XFin 2)))], [XNaN].
  split; [repeat constructor|]. split.
  - repeat constructor. cbn. xcase; [reflexivity|lra].
  - split; reflexivity.
Qed.
Print Assumptions C24_nan_refuted.

(* a forced set cannot repair a prior whose bounds are not ordered: PositiveGaussian
   with sigma < 0 (not rejected by its constructor) *)
Example C24_ex : params_are_valid ex_store = true /\
  params_are_valid [("a"%string, Param (XFin (-1)) PositivePrior)] = false.
Proof.
  split.
  - apply C24_validity. repeat constructor; cbn; xcase; try lra; reflexivity.
  - apply C24_validity. constructor. left. cbn. xcase; [|reflexivity].
    unfold double_epsilon in *. assert (0 < / 2 ^ 52)%R by (apply Rinv_0_lt_compat, pow_lt; lra). lra.
Qed.

(* ---- C25 ---- *)
(* If no name is used by two parts, set_param is observable on exactly that name,
   and the parts keep separate names. An unknown name asserts. *)
Theorem C25_set_param : forall (h : handler) name param, separate h ->
  (In name (mkeys (get_params h)) ->
   exists h', h_set_param name param h = Ok h' /\ separate h' /\ mkeys (get_params h') = mkeys (get_params h) /\
     forall k, mfind k (get_params h') = if keqb k name then Some param else mfind k (get_params h)) /\
  (~ In name (mkeys (get_params h)) -> h_set_param name param h = Abort).
Proof.
  intros h name param Hs. destruct (separate_wf h Hs) as [W E].
  pose proof (h_set_param_spec h Hs name param) as Hp. rewrite <- (mcontains_spec name _ W).
  destruct (mcontains name (get_params h)) eqn:Ec; split; try congruence; try tauto.
  intros _. destruct Hp as [h' [H1 [H2 H3]]]. exists h'. rewrite H3. split; [exact H1|]. split; [exact H2|].
  split; [apply mkeys_massign_old; [exact W|apply mcontains_spec; assumption]|].
  intros k. apply mfind_massign, W.
Qed.
Print Assumptions C25_set_param.

(* get_params is the union of the parts *)
Theorem C25_union : forall (l r : handler), wf_map (get_params l) -> wf_map (get_params r) ->
  wf_map (get_params (Compose l r)) /\
  forall k, In k (mkeys (get_params (Compose l r))) <-> In k (mkeys (get_params l)) \/ In k (mkeys (get_params r)).
Proof.
  intros l r Wl Wr. cbn [get_params]. destruct (MapUtilsProofs.map_join_spec (get_params l) (get_params r) Wl Wr) as [Wj Fj].
  split; [exact Wj|]. intros k. rewrite !mfind_Some_key by assumption. rewrite Fj.
  destruct (mfind k (get_params r)) as [v|]; split; eauto.
  intros [[w Hv]|[w Hv]]; [eauto|discriminate].
Qed.
Print Assumptions C25_union.

(* the checked setters *)
Theorem C25_set_value : forall (h : handler) name value, separate h ->
  match mfind name (get_params h) with
  | Some p => exists h', h_set_param_value name value h = Ok h' /\ separate h' /\
      get_params h' = massign name (Param value (p_prior p)) (get_params h)
  | None => h_set_param_value name value h = Abort
  end.
Proof. exact h_set_param_value_spec. Qed.
Print Assumptions C25_set_value.

Theorem C25_set_prior : forall (h : handler) name pr, separate h ->
  match mfind name (get_params h) with
  | Some p => exists h', h_set_param_prior name pr h = Ok h' /\ separate h' /\
      get_params h' = massign name (Param (p_value p) pr) (get_params h)
  | None => h_set_param_prior name pr h = Abort
  end.
Proof. exact h_set_param_prior_spec. Qed.
Print Assumptions C25_set_prior.

(* set_params overrides the given names only, all or nothing *)
Theorem C25_set_params : forall (h : handler) (input : store), separate h -> NoDup (mkeys input) ->
  ((forall k, In k (mkeys input) -> In k (mkeys (get_params h))) ->
   exists h', h_set_params input h = Ok h' /\ separate h' /\
     (forall k p, In (k, p) input -> mfind k (get_params h') = Some p) /\
     (forall k, ~ In k (mkeys input) -> mfind k (get_params h') = mfind k (get_params h))) /\
  ((exists k, In k (mkeys input) /\ ~ In k (mkeys (get_params h))) -> h_set_params input h = Abort).
Proof.
  intros h input Hs Hnd. destruct (separate_wf h Hs) as [W E].
  pose proof (h_set_params_spec h input Hs) as Hp.
  destruct (forallb (fun kp => mcontains (fst kp) (get_params h)) input) eqn:Ef.
  - rewrite forallb_forall in Ef. split.
    + intros _. destruct Hp as [h' [H1 [H2 H3]]]. exists h'. split; [exact H1|]. split; [exact H2|]. rewrite H3. split.
      * intros k p Hin. apply massign_all_NoDup; assumption.
      * intros k Hk. apply massign_all_not_in; assumption.
    + intros [k [H1 H2]]. exfalso. apply in_map_iff in H1 as [[k' p] [<- Hin]]. apply H2.
      apply mcontains_spec; [exact W|]. exact (Ef _ Hin).
  - split; [|auto]. intros Hall. exfalso.
    assert (forallb (fun kp => mcontains (fst kp) (get_params h)) input = true); [|congruence].
    apply forallb_forall. intros [k p] Hin. cbn. apply mcontains_spec; [exact W|]. apply Hall. apply in_map_iff. exists (k, p). auto.
Qed.
Print Assumptions C25_set_params.

(* set_params_if_exists on a store sets exactly the names that exist; its result
   tells whether all did (and false for an empty set of parameters) *)
Theorem C25_set_params_if_exists : forall (input s : store), wf_map s -> NoDup (mkeys input) ->
  let r := set_params_if_exists input s in
  fst r = (0 <? length input) && forallb (fun kp => mcontains (fst kp) s) input /\
  wf_map (snd r) /\ mkeys (snd r) = mkeys s /\
  forall k, mfind k (snd r) = match mfind k s with
                              | None => None
                              | Some p => match find (fun kp => keqb (fst kp) k) input with
                                          | Some (_, q) => Some q
                                          | None => Some p
                                          end
                              end.
Proof. exact set_params_if_exists_spec. Qed.
Print Assumptions C25_set_params_if_exists.

(* With a name owned by both sides: get_params reports the right side's value,
   set_param changes only the left side's, so the call is not observable. *)
Theorem C25_shared_name_refuted : exists (h h' : handler) name param,
  In name (mkeys (get_params h)) /\ h_set_param name param h = Ok h' /\
  h' <> h /\ get_params h' = get_params h /\ mfind name (get_params h') <> Some param.
Proof.
  exists (Compose (Leaf [("a"%string, Param (XFin 1) UninformativePrior)]) (Leaf [("a"%string, Param (XFin 2) UninformativePrior)])),
         (Compose (Leaf [("a"%string, Param (XFin 5) UninformativePrior)]) (Leaf [("a"%string, Param (XFin 2) UninformativePrior)])),
         "a"%string, (Param (XFin 5) UninformativePrior).
  split; [left; reflexivity|]. split; [reflexivity|]. split; [intros [= E]; lra|]. split; [reflexivity|].
  cbn. intros [= E]. lra.
Qed.
Print Assumptions C25_shared_name_refuted.

(* this happens for every shared name *)
Theorem C25_shared_name_unobservable : forall (l r : handler) name param h',
  wf_map (get_params l) -> wf_map (get_params r) ->
  mcontains name (get_params l) = true -> mcontains name (get_params r) = true ->
  h_set_param name param (Compose l r) = Ok h' ->
  exists l', h' = Compose l' r /\
    (wf_map (get_params l') -> mfind name (get_params h') = mfind name (get_params (Compose l r))).
Proof. exact shared_name. Qed.
Print Assumptions C25_shared_name_unobservable.

(* likewise between the parameters of a GP and those of its covariance *)
Theorem C25_gp_shared_name_refuted : exists (h h' : handler) name param,
  In name (mkeys (get_params h)) /\ h_set_param name param h = Ok h' /\
  h' <> h /\ get_params h' = get_params h /\ mfind name (get_params h') <> Some param.
Proof.
  exists (GPModel [("a"%string, Param (XFin 1) UninformativePrior)] (Leaf []) (Leaf [("a"%string, Param (XFin 2) UninformativePrior)])),
         (GPModel [("a"%string, Param (XFin 5) UninformativePrior)] (Leaf []) (Leaf [("a"%string, Param (XFin 2) UninformativePrior)])),
         "a"%string, (Param (XFin 5) UninformativePrior).
  split; [left; reflexivity|]. split; [reflexivity|]. split; [intros [= E]; lra|]. split; [reflexivity|].
  cbn. intros [= E]. lra.
Qed.
Print Assumptions C25_gp_shared_name_refuted.

(* a sparse GP over a sum *)
Definition ex_handler : handler :=
  SparseGP (Param (XFin 1) PositivePrior) (Param (XFin 2) PositivePrior)
    (Leaf [("m"%string, Param (XFin 3) UninformativePrior)])
    (Compose (Wrap (Leaf [("z"%string, Param (XFin 4) UninformativePrior)]))
             (Compose (Leaf [("a"%string, Param (XFin 5) UninformativePrior)])
                      (Leaf [("c"%string, Param (XFin 6) FixedPrior)]))).
Example C25_ex : separate ex_handler /\
  mkeys (get_params ex_handler) = ["a"; "c"; "inducing_nugget"; "m"; "measurement_nugget"; "z"]%string.
Proof.
  split; [|reflexivity]. unfold ex_handler. cbn [separate]. unfold disjoint.
  repeat match goal with
  | |- _ /\ _ => split
  | |- wf_map _ => repeat constructor
  | |- ~ _ => intro
  | |- forall _, _ => intro
  end;
  repeat match goal with H : In _ _ |- _ => vm_compute in H end;
  intuition congruence.
Qed.

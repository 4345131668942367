From Coq Require Import Reals Lra String Permutation Sorted.
From Coq Require Import DecimalString Decimal DecimalFacts DecimalNat.
From Verif Require Import Base BaseProofs StdMapModel StdMapProofs StringKeyModel ExtRealModel ExtRealProofs PriorModel
  ParamsModel ParamsSpec ParamsProofs TuningModel TuningSpec TuningProofs VectorTuneModel.
Open Scope nat_scope.
Open Scope list_scope.

Lemma to_string_inj i j : to_string i = to_string j -> i = j.
Proof.
  unfold to_string. intros E. apply DecimalNat.Unsigned.to_uint_inj.
  apply (f_equal NilEmpty.uint_of_string) in E. rewrite !NilEmpty.usu in E. injection E as E. exact E.
Qed.

Lemma to_uint_unorm i : unorm (Nat.to_uint i) = Nat.to_uint i.
Proof. rewrite <- DecimalNat.Unsigned.to_of, DecimalNat.Unsigned.of_to. reflexivity. Qed.

Lemma unorm_D0 u : unorm u = u -> forall v, u = D0 v -> v = Nil.
Proof.
  intros H v ->. cbn in H. unfold unorm in H. cbn in H.
  destruct (nzhead v) eqn:E; try (injection H as H; auto; fail); try discriminate.
  exfalso. match goal with E : nzhead v = D0 _ |- _ => exact (nzhead_nonzero _ _ E) end.
Qed.

(* the numbers whose digits come before "10" *)
Lemma before_ten i : kcmp (to_string i) "10"%string = Lt <-> i = 0 \/ i = 1.
Proof.
  split; [|intros [->| ->]; reflexivity].
  unfold to_string. pose proof (to_uint_unorm i) as Hn. pose proof (unorm_D0 _ Hn) as H0.
  pose proof (DecimalNat.Unsigned.of_to i) as Ho.
  destruct (Nat.to_uint i) as [|u|u|u|u|u|u|u|u|u|u] eqn:E; cbn; try discriminate.
  - intros _. left. specialize (H0 u eq_refl). subst u. cbn in Ho. auto.
  - destruct u as [|u|u|u|u|u|u|u|u|u|u]; cbn; try discriminate.
    + intros _. right. cbn in Ho. auto.
    + destruct u; cbn; discriminate.
Qed.

(* ---- the store ---- *)
Definition entries (values : list xr) : list (string * parameter) :=
  map (fun i => (to_string i, Param (nth i values XNaN) UninformativePrior)) (seq 0 (length values)).

Lemma entries_NoDup values : NoDup (map fst (entries values)).
Proof.
  unfold entries. rewrite map_map. cbn. apply FinFun.Injective_map_NoDup; [|apply seq_NoDup].
  intros i j. apply to_string_inj.
Qed.

Lemma vector_wf values : wf_map (vector_params values).
Proof. apply massign_all_wf. constructor. Qed.

Lemma vector_in values k p : In (k, p) (vector_params values) <-> In (k, p) (entries values).
Proof.
  rewrite <- mfind_In by apply vector_wf. unfold vector_params, uninformative_params. fold (entries values). split.
  - intros H. destruct (in_dec string_dec k (map fst (entries values))) as [Hi|Hi].
    + apply in_map_iff in Hi as [[k' q] [E Hi]]. cbn in E. subst k'.
      rewrite (massign_all_NoDup (entries values) [] k q) in H; [|constructor|apply entries_NoDup|exact Hi].
      injection H as ->. exact Hi.
    + rewrite massign_all_not_in in H by (exact Hi || constructor). discriminate.
  - intros H. apply massign_all_NoDup; [constructor|apply entries_NoDup|exact H].
Qed.

Lemma vector_perm values : Permutation (vector_params values) (entries values).
Proof.
  apply NoDup_Permutation.
  - apply (NoDup_map_inv fst). apply wf_NoDup, vector_wf.
  - apply (NoDup_map_inv fst). apply entries_NoDup.
  - intros [k p]. apply vector_in.
Qed.

Lemma vector_prior values : Forall (fun kp => p_prior (snd kp) = UninformativePrior) (vector_params values).
Proof.
  eapply Permutation_Forall; [apply Permutation_sym, vector_perm|]. unfold entries. apply Forall_map. apply Forall_forall. reflexivity.
Qed.

Lemma all_tunable s : Forall (fun kp => p_prior (snd kp) = UninformativePrior) s -> tunables s = s.
Proof.
  induction 1 as [|[k p] s E _ IH]; [reflexivity|]. unfold tunables in *. cbn in *. unfold param_fixed. rewrite E. cbn. f_equal. exact IH.
Qed.

Lemma vector_length values : length (vector_params values) = length values.
Proof. rewrite (Permutation_length (vector_perm values)). unfold entries. rewrite map_length, seq_length. reflexivity. Qed.

Lemma entries_values values : map (fun kp => p_value (snd kp)) (entries values) = values.
Proof.
  unfold entries. rewrite map_map. cbn. induction values as [|v values IH]; [reflexivity|]. cbn [length seq map nth]. f_equal.
  rewrite <- seq_shift, map_map. exact IH.
Qed.

Lemma xneg_le v : v <> XNaN -> xleb XNeg v = true /\ xleb v XPos = true.
Proof. destruct v; cbn; auto. Qed.

Lemma vector_ok values : Forall (fun v => v <> XNaN) values ->
  store_ok (vector_params values) /\ params_are_valid (vector_params values) = true.
Proof.
  intros Hn. pose proof (vector_prior values) as Hp.
  assert (Forall (fun kp => p_value (snd kp) <> XNaN) (vector_params values)) as Hv.
  { eapply Permutation_Forall; [apply Permutation_sym, vector_perm|]. rewrite <- (entries_values values) in Hn.
    rewrite Forall_map in Hn. exact Hn. }
  assert (Forall (fun kp => p_prior (snd kp) = UninformativePrior /\ p_value (snd kp) <> XNaN) (vector_params values)) as H
    by (apply Forall_and; assumption).
  split.
  - split; [apply vector_wf|]. rewrite all_tunable by exact Hp. split; [|split].
    + eapply Forall_impl; [|exact Hp]. intros kp E. cbn in E. rewrite E. exact I.
    + eapply Forall_impl; [|exact H]. intros kp [E N]. unfold not_outside, lb, ub. rewrite E. cbn. destruct (p_value (snd kp)); cbn; auto.
    + eapply Forall_impl; [|exact Hp]. intros kp E. cbn in E. unfold lb, ub. rewrite E. reflexivity.
  - apply params_are_valid_spec. eapply Forall_impl; [|exact H]. intros kp [E N]. unfold is_valid, within_bounds. rewrite E. cbn [lower_bound upper_bound].
    destruct (xneg_le _ N) as [-> ->]. reflexivity.
Qed.

(* what the optimizer starts from *)
Definition start (values : list xr) : list xr := map (fun kp => p_value (snd kp)) (vector_params values).

Lemma vector_seen values : tp_values (tp_of (tunables (vector_params values))) = start values.
Proof.
  rewrite all_tunable by apply vector_prior. unfold start. cbn. pose proof (vector_prior values) as H.
  induction H as [|[k p] s E _ IH]; [reflexivity|]. cbn in *. unfold seen. rewrite E. cbn. f_equal. exact IH.
Qed.

Lemma start_perm values : Permutation (start values) values.
Proof. rewrite <- (entries_values values) at 2. apply Permutation_map, vector_perm. Qed.

Lemma start_ten values : length values <= 10 -> start values = values.
Proof.
  intros H. do 11 (destruct values as [|? values]; [reflexivity|]). cbn in H. lia.
Qed.

Lemma sorted_position {V} (m : smap string V) k v : wf_map m -> In (k, v) m ->
  nth_error m (length (filter (fun kp => match kcmp (fst kp) k with Lt => true | _ => false end) m)) = Some (k, v).
Proof.
  unfold wf_map. induction m as [|[k1 v1] m IH]; [intros _ []|]. cbn [map fst]. intros Hs [E|Hi].
  - injection E as -> ->. apply StronglySorted_inv in Hs as [_ Hf]. cbn [filter fst]. rewrite kcmp_refl.
    replace (filter _ m) with (@nil (string * V)); [reflexivity|].
    symmetry. rewrite Forall_map in Hf. clear -Hf. induction Hf as [|[k2 v2] m Hlt _ IH]; [reflexivity|]. cbn [filter fst].
    cbn in Hlt. apply kcmp_gt in Hlt. rewrite Hlt. exact IH.
  - apply StronglySorted_inv in Hs as [Hs Hf]. cbn [filter fst].
    rewrite Forall_map, Forall_forall in Hf. specialize (Hf _ Hi). cbn in Hf. apply kcmp_lt in Hf. rewrite Hf. cbn. apply IH; assumption.
Qed.

Lemma perm_filter {A} (f : A -> bool) l l' : Permutation l l' -> Permutation (filter f l) (filter f l').
Proof.
  induction 1; cbn; [constructor|destruct (f x); [constructor|]; assumption| |etransitivity; eassumption].
  destruct (f x), (f y); try apply Permutation_refl. apply perm_swap.
Qed.

Lemma few_before values : 10 < length values ->
  length (filter (fun kp => match kcmp (fst kp) "10"%string with Lt => true | _ => false end) (entries values)) = 2.
Proof.
  intros H. unfold entries. remember (length values) as n.
  do 2 (destruct n as [|n]; [lia|]). cbn [seq map filter]. cbn [fst].
  replace (kcmp (to_string 0) "10"%string) with Lt by reflexivity.
  replace (kcmp (to_string 1) "10"%string) with Lt by reflexivity.
  cbn [length]. do 2 f_equal.
  assert (forall i, In i (seq 2 n) -> match kcmp (to_string i) "10"%string with Lt => true | _ => false end = false) as Hf.
  { intros i Hi. apply in_seq in Hi. destruct (kcmp (to_string i) "10"%string) eqn:E; try reflexivity. apply before_ten in E. lia. }
  clear -Hf. induction (seq 2 n) as [|i l IH]; [reflexivity|]. cbn [map filter fst]. rewrite (Hf i) by (left; reflexivity). apply IH.
  intros j Hj. apply Hf. right. exact Hj.
Qed.

Lemma start_third values v : nth_error values 10 = Some v -> nth_error (start values) 2 = Some v.
Proof.
  intros H. assert (10 < length values) as Hl by (apply nth_error_Some; congruence).
  assert (In ("10"%string, Param v UninformativePrior) (vector_params values)) as Hi.
  { apply vector_in. unfold entries. apply in_map_iff. exists 10. split.
    - f_equal. f_equal. apply nth_error_nth. exact H.
    - apply in_seq. lia. }
  pose proof (sorted_position _ _ _ (vector_wf values) Hi) as Hp.
  rewrite (Permutation_length (perm_filter _ _ _ (vector_perm values))), few_before in Hp by exact Hl.
  unfold start. rewrite nth_error_map', Hp. reflexivity.
Qed.

(* ---- tuning ---- *)
Lemma vector_bounds values x : length x = length values -> Forall (fun v => v <> XNaN) x -> in_bounds (vector_params values) x.
Proof.
  intros Hl Hx. unfold in_bounds. rewrite all_tunable by apply vector_prior.
  rewrite <- (vector_length values) in Hl. pose proof (vector_prior values) as Hp. revert x Hl Hx.
  induction Hp as [|[k p] s E _ IH]; intros [|v x] Hl Hx; try discriminate; constructor.
  - inversion Hx; subst. cbn in *. unfold seen, lb, ub. rewrite E. cbn. apply xneg_le. assumption.
  - inversion Hx; subst. apply IH; [injection Hl as Hl; exact Hl|assumption].
Qed.

Lemma tune_vector_spec (opt : optimizer) wg objective values : Forall (fun v => v <> XNaN) values ->
  (forall f x0 x, opt f x0 = Ok x -> length x = length x0 /\ Forall (fun v => v <> XNaN) x) ->
  tune_vector opt wg objective values = opt (vector_objective objective wg) (start values).
Proof.
  intros Hn Ho. destruct (vector_ok values Hn) as [Hok Hv]. unfold tune_vector.
  set (o := opt (vector_objective objective wg)).
  unfold run_optimizer. rewrite ok_get by exact Hok. cbn [bind]. rewrite vector_seen.
  assert (length (start values) = length values) as Hl by (unfold start; rewrite map_length; apply vector_length).
  rewrite Hl, Nat.eqb_refl. cbn [assert_then].
  destruct (o (start values)) as [x| | |] eqn:E; try reflexivity. cbn [bind].
  destruct (Ho _ _ _ E) as [Hx1 Hx2].
  destruct (in_bounds_set _ x Hok Hv (vector_bounds values x (eq_trans Hx1 Hl) Hx2)) as [s' [E1 [_ [_ [E2 _]]]]].
  rewrite E1. cbn [bind]. rewrite E2. reflexivity.
Qed.

Lemma tune_eigen_spec opt wg objective values : tune_eigen opt wg objective values =
  match tune_vector opt wg objective values with Ok [] => UB | r => r end.
Proof. unfold tune_eigen. destruct (tune_vector opt wg objective values) as [[|]| | |]; reflexivity. Qed.

Lemma model_objective_spec {D} (metric : D -> handler -> xr) aggregator model datasets x :
  separate model -> store_ok (get_params model) -> params_are_valid (get_params model) = true -> in_bounds (get_params model) x ->
  exists params m, set_tunable_params_values (get_params model) x true = Ok params /\ h_set_params params model = Ok m /\
    separate m /\ get_params m = params /\ params_are_valid params = true /\
    (exists tp, get_tunable_parameters params = Ok tp /\ tp_values tp = x) /\
    model_objective metric aggregator model datasets params = Ok (aggregator (map (fun d => metric d m) datasets)).
Proof.
  intros Hs Hok Hv Hb. destruct (in_bounds_set _ x Hok Hv Hb) as [s' [E [V [Sh [G O]]]]].
  pose proof (h_set_params_spec model s' Hs) as Hh.
  assert (mkeys (get_params model) = mkeys s') as Hk by (apply shape_keys, Sh).
  destruct (separate_wf model Hs) as [W _].
  assert (forallb (fun kp => mcontains (fst kp) (get_params model)) s' = true) as Hf.
  { apply forallb_forall. intros kp Hi. apply mcontains_spec; [exact W|]. rewrite Hk. apply in_map. exact Hi. }
  rewrite Hf in Hh. destruct Hh as [m [Em [Sm Gm]]].
  rewrite massign_all_same_keys in Gm; [|apply O|exact W|auto].
  exists s', m. split; [exact E|]. split; [exact Em|]. split; [exact Sm|]. split; [exact Gm|]. split; [exact V|]. split.
  - eexists. split; [exact G|reflexivity].
  - unfold model_objective, model_tuner_objective. rewrite Em. reflexivity.
Qed.

Lemma tune_model_spec optimize model : separate model -> store_ok (get_params model) -> params_are_valid (get_params model) = true ->
  (forall x0 x, optimize x0 = Ok x -> in_bounds (get_params model) x) ->
  match optimize (tp_values (tp_of (tunables (get_params model)))) with
  | Ok x => exists params m, tune_model optimize model = Ok params /\ h_set_params params model = Ok m /\ get_params m = params /\
      exists tp, get_tunable_parameters params = Ok tp /\ tp_values tp = x
  | Abort => tune_model optimize model = Abort
  | Throw => tune_model optimize model = Throw
  | UB => tune_model optimize model = UB
  end.
Proof.
  intros Hs Hok Hv Ho. unfold tune_model. rewrite ok_get by exact Hok. cbn [bind].
  unfold run_optimizer. rewrite ok_get by exact Hok. cbn [bind]. rewrite Nat.eqb_refl. cbn [assert_then].
  destruct (optimize (tp_values (tp_of (tunables (get_params model))))) as [x| | |] eqn:E; try reflexivity. cbn [bind].
  destruct (model_objective_spec (fun (_ : unit) _ => XNaN) mean_aggregator model [] x Hs Hok Hv (Ho _ _ E)) as [params [m [E1 [E2 [_ [E3 [_ [E4 _]]]]]]]].
  exists params, m. auto.
Qed.

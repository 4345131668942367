(* Properties C30, C31 and C65 of properties.jsonl. *)
From Coq Require Import Reals Lra String.
From Verif Require Import Base StdMapModel StringKeyModel ExtRealModel ExtRealProofs PriorModel ParamsModel ParamsSpec ParamsProofs
  TuningModel TuningSpec TuningProofs.
Open Scope nat_scope.
Open Scope list_scope.

(* greedy_tune returns; what it returns is the best of what it evaluated, all of
   which is within bounds and differs from the input in tunable values only; the
   input itself is evaluated *)
Theorem C30_greedy_tune : forall f params n iters, store_ok params ->
  exists st, greedy_tune f params n iters = Ok st /\
    picked f params st /\
    store_ok (best_params st) /\ same_shape params (best_params st) /\
    (forall e, In e (evaluated st) -> store_ok e /\ same_shape params e) /\
    (0 < iters -> tunables params <> [] -> In params (evaluated st)).
Proof.
  intros f params n iters H. destruct (greedy_tune_spec f params n iters H) as [st [E [[I1 [I2 [I3 I4]]] I5]]].
  exists st. repeat (split; [assumption|]). exact I5.
Qed.
Print Assumptions C30_greedy_tune.

(* in particular it is no worse than the input *)
Theorem C30_no_worse : forall f params n iters, store_ok params ->
  0 < iters -> tunables params <> [] -> f params <> XNaN -> f (params) <> XPos ->
  exists st, greedy_tune f params n iters = Ok st /\ xleb (f (best_params st)) (f params) = true.
Proof.
  intros f params n iters H Hi Ht Hn Hp. destruct (C30_greedy_tune f params n iters H) as [st [E [P [_ [_ [_ I]]]]]].
  exists st. split; [exact E|]. specialize (I Hi Ht). destruct P as [[_ [_ P]]|[_ [_ [_ P]]]].
  - specialize (P _ I). exfalso. destruct (f params); cbn in P; congruence.
  - destruct (P _ I) as [P'|P']; [contradiction|exact P'].
Qed.
Print Assumptions C30_no_worse.

(* NaN is never selected *)
Theorem C30_nan_not_selected : forall f params n iters st, store_ok params ->
  greedy_tune f params n iters = Ok st -> f params <> XNaN -> f (best_params st) <> XNaN.
Proof.
  intros f params n iters st H E Hn. destruct (C30_greedy_tune f params n iters H) as [st' [E' [P _]]].
  rewrite E in E'. injection E' as <-. destruct P as [[-> _]|[_ [_ [P _]]]]; [exact Hn|]. intros F. rewrite F in P. discriminate.
Qed.
Print Assumptions C30_nan_not_selected.

(* each step moves one parameter of the best store to the queried values *)
Theorem C30_step : forall f n st iter i k p, store_ok (best_params st) ->
  nth_error (tunables (best_params st)) i = Some (k, p) ->
  greedy_step f n st (iter, i) =
  Ok (fold_left (greedy_pick f) (map (fun v => moved_to k p v (best_params st)) (step_values n (iter, i) p)) st).
Proof. exact greedy_step_spec. Qed.
Print Assumptions C30_step.

(* the queries: n on each side between the value and the bounds, 2 n on one side if
   the value is at a bound; +-1e8 stand for infinite bounds *)
Theorem C30_queries : forall v lo hi n, (lo < v < hi)%R -> n <> 1 ->
  exists below above, get_queries (XFin v) (XFin lo) (XFin hi) n = map XFin (below ++ above) /\
    length below = n /\ length above = n /\
    Forall (fun q => lo < q < v)%R below /\ Forall (fun q => v < q < hi)%R above.
Proof. exact queries_interior. Qed.
Print Assumptions C30_queries.
Theorem C30_queries_lower : forall v hi n, (v < hi)%R ->
  exists above, get_queries (XFin v) (XFin v) (XFin hi) n = map XFin above /\ length above = 2 * n /\ Forall (fun q => v < q < hi)%R above.
Proof. exact queries_at_lower. Qed.
Print Assumptions C30_queries_lower.
Theorem C30_queries_upper : forall v lo n, (lo < v)%R ->
  exists below, get_queries (XFin v) (XFin lo) (XFin v) n = map XFin below /\ length below = 2 * n /\ Forall (fun q => lo < q < v)%R below.
Proof. exact queries_at_upper. Qed.
Print Assumptions C30_queries_upper.
Theorem C30_queries_infinite : forall v lo hi n, get_queries v lo hi n =
  get_queries v (if xisinf lo then XFin (-100000000) else lo) (if xisinf hi then XFin 100000000 else hi) n.
Proof. exact queries_infinite. Qed.
Print Assumptions C30_queries_infinite.

(* one query in each direction: the exponent -5 is used as the ratio, so they are on
   the wrong sides, five ranges away *)
Theorem C30_single_query_refuted : forall v lo hi, (lo < v < hi)%R ->
  get_queries (XFin v) (XFin lo) (XFin hi) 1 = [XFin (v + 5 * (v - lo)); XFin (v - 5 * (hi - v))].
Proof. exact queries_single. Qed.
Print Assumptions C30_single_query_refuted.

(* a store with a tunable parameter in [0, 1] and a fixed one *)
Definition ex_p (v : R) : parameter := Param (XFin v) (UniformPrior (XFin 0) (XFin 1)).
Definition ex_store (v : R) : store := [("a", ex_p v); ("b", Param (XFin 3) FixedPrior)]%string.
Lemma ex_store_ok v : (0 <= v <= 1)%R -> store_ok (ex_store v).
Proof.
  intros Hv. split; [|split; [|split]].
  - repeat constructor.
  - repeat constructor; cbn; xcase; try reflexivity; lra.
  - constructor; [|constructor]. split; cbn; xcase; try reflexivity; lra.
  - constructor; [|constructor]. cbn. xcase; try reflexivity; lra.
Qed.
Lemma ex_store_valid v : (0 <= v <= 1)%R -> params_are_valid (ex_store v) = true.
Proof.
  intros Hv. apply params_are_valid_spec. repeat constructor. unfold is_valid, within_bounds. cbn. xcase; try reflexivity; lra.
Qed.

Example C30_ex : forall f, f (ex_store (1/2)) = XFin 7 -> exists st,
  greedy_tune f (ex_store (1/2)) 4 10 = Ok st /\ xleb (f (best_params st)) (XFin 7) = true.
Proof.
  intros f Hf. rewrite <- Hf. apply C30_no_worse.
  - apply ex_store_ok. lra.
  - lia.
  - discriminate.
  - rewrite Hf. discriminate.
  - rewrite Hf. discriminate.
Qed.
Example C30_queries_ex : exists q1 q2 q3 q4,
  get_queries (XFin (1/2)) (XFin 0) (XFin 1) 2 = [XFin q1; XFin q2; XFin q3; XFin q4] /\
  (0 < q1 < 1/2 /\ 0 < q2 < 1/2 /\ 1/2 < q3 < 1 /\ 1/2 < q4 < 1)%R.
Proof.
  destruct (C30_queries (1/2) 0 1 2 ltac:(lra) ltac:(lia)) as [b [a [E [L1 [L2 [F1 F2]]]]]].
  destruct b as [|b1 [|b2 [|]]]; try discriminate. destruct a as [|a1 [|a2 [|]]]; try discriminate.
  exists b1, b2, a1, a2. split; [exact E|]. inversion F1 as [|? ? ? F1']; subst. inversion F1'; subst.
  inversion F2 as [|? ? ? F2']; subst. inversion F2'; subst. auto.
Qed.

(* ---- gradients ---- *)

(* of a vector: forward differences *)
Theorem C31_vector : forall f params f_val i v, nth_error params i = Some v ->
  length (compute_gradient_vector f params f_val) = length params /\
  nth_error (compute_gradient_vector f params f_val) i =
    Some (xscale 1000000 (xsub (f (set_nth params i (xadd v (XFin (/ 1000000))))) f_val)).
Proof. exact gradient_vector_spec. Qed.
Print Assumptions C31_vector.

(* of a store: one entry per tunable parameter, each from the objective with that
   parameter alone moved up by a step *and clamped*, never moved down *)
Theorem C31_gradient : forall f s f_val, store_ok s -> params_are_valid s = true ->
  compute_gradient f s f_val = Ok (map (fd_entry f s f_val) (tunables s)).
Proof. exact gradient_spec. Qed.
Print Assumptions C31_gradient.

(* the objective is only evaluated at valid stores *)
Theorem C31_valid : forall s i k p v, store_ok s -> params_are_valid s = true ->
  nth_error (tunables s) i = Some (k, p) -> v <> XNaN -> params_are_valid (moved_to k p v s) = true.
Proof. exact moved_valid. Qed.
Print Assumptions C31_valid.

(* at an active bound a descent step does not leave the box *)
Theorem C31_upper : forall f s f_val kp, let p := snd kp in
  xleb (seen p (ub p)) (seen p (p_value p)) = true -> xltb (fd_entry f s f_val kp) (XFin 0) = false.
Proof. exact entry_upper. Qed.
Print Assumptions C31_upper.
Theorem C31_lower : forall f s f_val kp, let p := snd kp in
  xleb (seen p (p_value p)) (seen p (lb p)) = true -> xltb (XFin 0) (fd_entry f s f_val kp) = false.
Proof. exact entry_lower. Qed.
Print Assumptions C31_lower.

(* affine objectives: the slope, if the step stays inside *)
Theorem C31_affine : forall f s k p v l u c a, store_ok s -> In (k, p) (tunables s) -> is_log_scale (p_prior p) = false ->
  p_value p = XFin v -> lb p = XFin l -> ub p = XFin u -> (l < v)%R -> (v + (u - l) / 100000000 <= u)%R ->
  affine_in f k p s c a -> fd_entry f s (f s) (k, p) = XFin a.
Proof.
  intros f s k p v l u c a Hok Hin Hlog Hv Hl Hu H1 H2 Ha.
  assert (l < u)%R as Hlt by nra.
  pose proof (entry_affine f s k p v l u c a Hok Hin Hlog Hv Hl Hu ltac:(split; nra) Hlt Ha) as Hr. cbv zeta in Hr.
  rewrite Rmin_left in Hr by lra.
  replace (a * (v + / 100000000 * (u - l) - v) / (/ 100000000 * (u - l)))%R with a in Hr by (field; lra).
  unfold fd_entry. cbn [snd]. rewrite Hr. unfold seen. rewrite Hlog, Hv, Hl, Hu. cbn.
  destruct (Rleb_spec u v); [nra|]. destruct (Rleb_spec v l); [lra|]. reflexivity.
Qed.
Print Assumptions C31_affine.

(* at the upper bound the code means to step down, but set_tunable_params_values
   clamps by default, so the store is not moved and the entry is 0 for every
   objective: a minimiser is told it is at a minimum *)
Theorem C31_stuck_at_upper_refuted : forall f s k p x, store_ok s -> params_are_valid s = true -> In (k, p) (tunables s) ->
  p_value p = ub p -> f s = XFin x -> fd_step p <> 0%R -> fd_entry f s (f s) (k, p) = XFin 0.
Proof.
  intros f s k p x Hok Hv Hin H1 H2 H3. apply (entry_at_upper f s k p x); try assumption.
  pose proof Hok as [_ [Hc [_ Hb]]]. rewrite Forall_forall in Hc, Hb. apply fd_step_pos; [apply (Hb (k, p)), Hin|].
  apply (Hc (k, p)). apply filter_In in Hin. tauto.
Qed.
Print Assumptions C31_stuck_at_upper_refuted.

(* within a step of the upper bound the slope is underestimated *)
Theorem C31_near_upper_refuted : forall f s k p v l u c a, store_ok s -> In (k, p) (tunables s) -> is_log_scale (p_prior p) = false ->
  p_value p = XFin v -> lb p = XFin l -> ub p = XFin u -> (l < v)%R -> (v < u < v + (u - l) / 100000000)%R ->
  affine_in f k p s c a -> (0 < a)%R ->
  exists g, fd_entry f s (f s) (k, p) = XFin g /\ g = (a * ((u - v) / ((u - l) / 100000000)))%R /\ (g < a)%R.
Proof.
  intros f s k p v l u c a Hok Hin Hlog Hv Hl Hu H1 H2 Ha Hpos.
  pose proof (entry_affine f s k p v l u c a Hok Hin Hlog Hv Hl Hu ltac:(split; lra) ltac:(lra) Ha) as Hr. cbv zeta in Hr.
  rewrite Rmin_right in Hr by lra.
  exists (a * (u - v) / (/ 100000000 * (u - l)))%R. split; [|split].
  - unfold fd_entry. cbn [snd]. rewrite Hr. unfold seen. rewrite Hlog, Hv, Hl, Hu. cbn.
    destruct (Rleb_spec u v); [lra|]. destruct (Rleb_spec v l); [lra|]. reflexivity.
  - field. lra.
  - apply (Rmult_lt_reg_r (/ 100000000 * (u - l))); [lra|]. unfold Rdiv. rewrite Rmult_assoc, Rinv_l by lra. nra.
Qed.
Print Assumptions C31_near_upper_refuted.

(* the objective a + 0: at 1/2 its gradient is 1, at the upper bound 0 *)
Definition ex_obj (s : store) : xr := match mfind "a"%string s with Some p => p_value p | None => XNaN end.
Lemma ex_obj_affine v : affine_in ex_obj "a" (ex_p v) (ex_store v) 0 1.
Proof. intros y. unfold ex_obj. rewrite StdMapProofs.mfind_massign_eq by (repeat constructor). cbn. f_equal. lra. Qed.
Example C31_ex : compute_gradient ex_obj (ex_store (1/2)) (XFin (1/2)) = Ok [XFin 1] /\
  compute_gradient ex_obj (ex_store 1) (XFin 1) = Ok [XFin 0].
Proof.
  split.
  - rewrite C31_gradient; [|apply ex_store_ok; lra|apply ex_store_valid; lra]. cbn [tunables ex_store filter snd negb param_fixed p_prior ex_p is_fixed map].
    f_equal. f_equal. change (XFin (1/2)) with (ex_obj (ex_store (1/2))).
    apply (C31_affine ex_obj (ex_store (1/2)) "a" (ex_p (1/2)) (1/2) 0 1 0 1); try reflexivity; try lra; [apply ex_store_ok; lra|left; reflexivity|apply ex_obj_affine].
  - rewrite C31_gradient; [|apply ex_store_ok; lra|apply ex_store_valid; lra]. cbn [tunables ex_store filter snd negb param_fixed p_prior ex_p is_fixed map].
    f_equal. f_equal. change (XFin 1) with (ex_obj (ex_store 1)).
    apply (C31_stuck_at_upper_refuted ex_obj (ex_store 1) "a" (ex_p 1) 1); try reflexivity; [apply ex_store_ok; lra|apply ex_store_valid; lra|left; reflexivity|].
    unfold fd_step, seen. cbn. lra.
Qed.

(* ---- the tuners ---- *)

(* for vectors within the bounds given to the optimizer, the objective is evaluated
   at a valid store with those values, NaN becoming +infinity; the assertion on
   invalid parameters does not fire *)
Theorem C65_objective : forall objective s with_gradient x, store_ok s -> params_are_valid s = true -> in_bounds s x ->
  exists s', set_tunable_params_values s x true = Ok s' /\ params_are_valid s' = true /\
    param_wrapped_objective objective s with_gradient x =
    Ok (if xisnan (objective s') then XPos else objective s',
        if with_gradient then map (fd_entry objective s' (objective s')) (tunables s') else []).
Proof. exact wrapped_objective_spec. Qed.
Print Assumptions C65_objective.

(* the tuned parameters: the optimizer's values, valid, everything else as before *)
Theorem C65_result : forall optimize dimension s, store_ok s -> params_are_valid s = true ->
  dimension = length (tunables s) ->
  (forall x0 x, optimize x0 = Ok x -> in_bounds s x) ->
  match optimize (tp_values (tp_of (tunables s))) with
  | Ok x => exists s', run_optimizer optimize dimension s = Ok s' /\ params_are_valid s' = true /\ same_shape s s' /\
      exists tp, get_tunable_parameters s' = Ok tp /\ tp_values tp = x
  | Abort => run_optimizer optimize dimension s = Abort
  | Throw => run_optimizer optimize dimension s = Throw
  | UB => run_optimizer optimize dimension s = UB
  end.
Proof. exact run_optimizer_spec. Qed.
Print Assumptions C65_result.

Theorem C65_dimension : forall optimize dimension s, store_ok s -> dimension <> length (tunables s) ->
  run_optimizer optimize dimension s = Abort.
Proof. exact run_optimizer_dimension. Qed.
Print Assumptions C65_dimension.

Theorem C65_mean : forall rs, rs <> [] ->
  mean_aggregator (map XFin rs) = XFin (fold_right Rplus 0%R rs / INR (length rs)).
Proof. exact mean_aggregator_spec. Qed.
Print Assumptions C65_mean.
Theorem C65_mean_of_none : mean_aggregator [] = XNaN.
Proof. exact mean_aggregator_none. Qed.
Print Assumptions C65_mean_of_none.

Example C65_ex : exists s', run_optimizer (fun _ => Ok [XFin (1/4)]) 1 (ex_store (1/2)) = Ok s' /\ params_are_valid s' = true.
Proof.
  assert (in_bounds (ex_store (1/2)) [XFin (1/4)]) as Hb.
  { constructor; [|constructor]. cbn. xcase; try (split; reflexivity); lra. }
  pose proof (C65_result (fun _ => Ok [XFin (1/4)]) 1 (ex_store (1/2)) (ex_store_ok (1/2) ltac:(lra)) (ex_store_valid (1/2) ltac:(lra)) eq_refl
    (fun _ x E => match E in _ = y return match y with Ok x' => in_bounds (ex_store (1/2)) x' | _ => True end with eq_refl => Hb end)) as H.
  cbv beta in H. destruct H as [s' [E [V _]]]. exists s'. auto.
Qed.

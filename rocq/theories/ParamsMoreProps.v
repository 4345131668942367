(* C25, continued: setters that may meet unknown names, several values at once, and the log likelihood of the priors. *)
From Coq Require Import Reals String Lra.
From Verif Require Import Base BaseProofs StdMapModel StdMapProofs StringKeyModel MapUtilsModel MapUtilsProofs
  ExtRealModel ExtRealProofs PriorModel ParamsModel ParamsSpec ParamsProofs ParamsProofs2.

(* set_param_values changes the values of exactly the given names and keeps every prior; an unknown name asserts *)
Theorem C25_set_values : forall (h : handler) (values : smap string xr), separate h -> NoDup (mkeys values) ->
  ((forall k, In k (mkeys values) -> In k (mkeys (get_params h))) ->
   exists h', h_set_param_values values h = Ok h' /\ separate h' /\ mkeys (get_params h') = mkeys (get_params h) /\
     forall k, mfind k (get_params h') = option_map (override_values values k) (mfind k (get_params h))) /\
  ((exists k, In k (mkeys values) /\ ~ In k (mkeys (get_params h))) -> h_set_param_values values h = Abort).
Proof.
  intros h values Hs Hnd. destruct (separate_wf h Hs) as [W _]. pose proof (h_set_param_values_spec h values Hs Hnd) as Hp.
  destruct (forallb (fun kv => mcontains (fst kv) (get_params h)) values) eqn:Ef.
  - split; [intros _; exact Hp|]. intros [k [H1 H2]]. exfalso. rewrite forallb_forall in Ef.
    apply in_map_iff in H1 as [[k' p] [<- Hin]]. apply H2. apply mcontains_spec; [exact W|]. exact (Ef _ Hin).
  - split; [|intros _; exact Hp]. intros Hall. exfalso.
    assert (forallb (fun kp => mcontains (fst kp) (get_params h)) values = true); [|congruence].
    apply forallb_forall. intros [k p] Hin. cbn. apply mcontains_spec; [exact W|]. apply Hall. apply in_map_iff. exists (k, p). auto.
Qed.
Print Assumptions C25_set_values.

(* the same on a plain store, and without the assertion: unknown names are skipped, and the result tells whether there was
   something to set and all of it was known *)
Theorem C25_set_values_if_exists : forall (values : smap string xr) (s : store), wf_map s -> NoDup (mkeys values) ->
  let r := set_param_values_if_exists values s in
  fst r = (0 <? length values) && forallb (fun kv => mcontains (fst kv) s) values /\
  wf_map (snd r) /\ mkeys (snd r) = mkeys s /\
  (forall k, mfind k (snd r) = option_map (override_values values k) (mfind k s)) /\
  set_param_values values s = (if forallb (fun kv => mcontains (fst kv) s) values then Ok (snd r) else Abort).
Proof.
  intros values s Hw Hnd r. destruct (set_param_values_if_exists_spec values s Hw Hnd) as (A & B & C & D).
  repeat split; try assumption. exact (set_param_values_spec values s Hw).
Qed.
Print Assumptions C25_set_values_if_exists.

(* on a model: one name *)
Theorem C25_set_if_exists : forall (h : handler) name, separate h ->
  (forall param, match mfind name (get_params h) with
   | None => h_set_param_if_exists name param h = Ok (false, h)
   | Some p => exists h', h_set_param_if_exists name param h = Ok (true, h') /\ separate h' /\
                 get_params h' = massign name param (get_params h)
   end) /\
  (forall value, match mfind name (get_params h) with
   | None => h_set_param_value_if_exists name value h = Ok (false, h)
   | Some p => exists h', h_set_param_value_if_exists name value h = Ok (true, h') /\ separate h' /\
                 get_params h' = massign name (Param value (p_prior p)) (get_params h)
   end).
Proof. exact h_set_if_exists_spec. Qed.
Print Assumptions C25_set_if_exists.

(* on a model: several names *)
Theorem C25_set_all_if_exists : forall (h : handler), separate h ->
  (forall (values : smap string xr), NoDup (mkeys values) ->
   exists h', h_set_param_values_if_exists values h =
      Ok ((0 <? length values) && forallb (fun kv => mcontains (fst kv) (get_params h)) values, h') /\
    separate h' /\ mkeys (get_params h') = mkeys (get_params h) /\
    forall k, mfind k (get_params h') = option_map (override_values values k) (mfind k (get_params h))) /\
  (forall (input : store), NoDup (mkeys input) ->
   exists h', h_set_params_if_exists input h =
      Ok ((0 <? length input) && forallb (fun kv => mcontains (fst kv) (get_params h)) input, h') /\
    separate h' /\ mkeys (get_params h') = mkeys (get_params h) /\
    forall k, mfind k (get_params h') = option_map (override input k) (mfind k (get_params h))).
Proof.
  intros h Hs. split; intros x Hx; [exact (h_set_param_values_if_exists_spec h x Hs Hx)|exact (h_set_params_if_exists_spec h x Hs Hx)].
Qed.
Print Assumptions C25_set_all_if_exists.

(* the log likelihood of the priors is the sum over the parameters; minus infinity as soon as one value is impossible, and NaN
   as soon as one is NaN *)
Theorem C25_prior_log_likelihood : forall (s : store),
  (forall f : parameter -> R, (forall k p, In (k, p) s -> log_pdf (p_prior p) (p_value p) = XFin (f p)) ->
   parameter_prior_log_likelihood s = XFin (fold_right Rplus 0%R (map (fun kp => f (snd kp)) s))) /\
  (forall k p, In (k, p) s -> log_pdf (p_prior p) (p_value p) = XNeg ->
   (forall k' p', In (k', p') s -> log_pdf (p_prior p') (p_value p') = XNeg \/ exists v, log_pdf (p_prior p') (p_value p') = XFin v) ->
   parameter_prior_log_likelihood s = XNeg) /\
  (forall k p, In (k, p) s -> log_pdf (p_prior p) (p_value p) = XNaN -> parameter_prior_log_likelihood s = XNaN).
Proof.
  intros s. split; [intros f; exact (prior_sum_finite s f)|]. split; [intros k p; exact (prior_sum_neg s k p)|intros k p; exact (prior_sum_nan s k p)].
Qed.
Print Assumptions C25_prior_log_likelihood.

Definition more_handler : handler :=
  Compose (Leaf [("a"%string, Param (XFin 5) UninformativePrior)]) (Leaf [("c"%string, Param (XFin 6) FixedPrior)]).
Example C25_more_meets : separate more_handler /\ NoDup (mkeys [("a"%string, XFin 1); ("b"%string, XFin 2)]) /\
  (exists h', h_set_param_values_if_exists [("a"%string, XFin 1); ("b"%string, XFin 2)] more_handler = Ok (false, h') /\
     mfind "a"%string (get_params h') = Some (Param (XFin 1) UninformativePrior)) /\
  parameter_prior_log_likelihood (get_params more_handler) = XFin 0.
Proof.
  assert (Hs : separate more_handler).
  { unfold more_handler. cbn [separate]. unfold disjoint.
    repeat match goal with
    | |- _ /\ _ => split
    | |- wf_map _ => repeat constructor
    | |- ~ _ => intro
    | |- forall _, _ => intro
    end;
    repeat match goal with H : In _ _ |- _ => vm_compute in H end; intuition congruence. }
  assert (Hn : NoDup (mkeys [("a"%string, XFin 1); ("b"%string, XFin 2)])).
  { repeat constructor; cbn; intuition congruence. }
  split; [exact Hs|]. split; [exact Hn|]. split.
  - destruct (proj1 (C25_set_all_if_exists more_handler Hs) _ Hn) as (h' & H1 & _ & _ & H2).
    exists h'. split; [exact H1|]. rewrite H2. reflexivity.
  - rewrite (proj1 (C25_prior_log_likelihood (get_params more_handler)) (fun _ => 0%R)).
    + cbn. f_equal. lra.
    + intros k p [[= <- <-]|[[= <- <-]|[]]]; reflexivity.
Qed.

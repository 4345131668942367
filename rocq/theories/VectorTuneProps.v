(* C92: tuning a function of a vector, tuning a model *)
From Coq Require Import Reals Lra String Permutation.
From Verif Require Import Base StdMapModel StringKeyModel ExtRealModel ExtRealProofs PriorModel
  ParamsModel ParamsSpec ParamsProofs TuningModel TuningSpec TuningProofs VectorTuneModel VectorTuneProofs.
Open Scope nat_scope.
Open Scope list_scope.

Definition not_nan (l : list xr) : Prop := Forall (fun v => v <> XNaN) l.
(* what is assumed of an optimizer: a result of the size of the start, without NaN *)
Definition sane (opt : optimizer) : Prop :=
  forall f x0 x, opt f x0 = Ok x -> length x = length x0 /\ not_nan x.

(* with up to ten variables the optimizer starts at the given values, and its result is returned *)
Theorem C92_vector : forall opt wg objective values, not_nan values -> sane opt -> length values <= 10 ->
  tune_vector opt wg objective values = opt (vector_objective objective wg) values.
Proof. intros opt wg objective values Hn Ho Hl. rewrite tune_vector_spec by assumption. rewrite start_ten by exact Hl. reflexivity. Qed.
Print Assumptions C92_vector.

(* with any number it starts at some permutation of them *)
Theorem C92_vector_any : forall opt wg objective values, not_nan values -> sane opt ->
  exists x0, Permutation x0 values /\ tune_vector opt wg objective values = opt (vector_objective objective wg) x0.
Proof. intros. exists (start values). split; [apply start_perm|apply tune_vector_spec; assumption]. Qed.
Print Assumptions C92_vector_any.

(* finding: with more than ten variables GenericTuner does not start at the given values: they are named "0", "1", ...,
   and kept in the order of the names, in which "10" comes before "2", so the third variable starts at the eleventh value *)
Theorem C92_start_refuted : forall opt wg objective values v, not_nan values -> sane opt -> nth_error values 10 = Some v ->
  exists x0, nth_error x0 2 = Some v /\ tune_vector opt wg objective values = opt (vector_objective objective wg) x0.
Proof. intros. exists (start values). split; [apply start_third; assumption|apply tune_vector_spec; assumption]. Qed.
Print Assumptions C92_start_refuted.

(* what the optimizer is given: the objective itself, +infinity for NaN, and forward differences for the gradient *)
Theorem C92_objective : forall objective wg x,
  fst (vector_objective objective wg x) = (if xisnan (objective x) then XPos else objective x) /\
  fst (vector_objective objective wg x) <> XNaN /\
  length (snd (vector_objective objective true x)) = length x /\
  forall i v, nth_error x i = Some v -> nth_error (snd (vector_objective objective true x)) i =
    Some (xscale 1000000 (xsub (objective (set_nth x i (xadd v (XFin (/ 1000000))))) (objective x))).
Proof.
  intros objective wg x. split; [reflexivity|]. split.
  - cbn. destruct (objective x); cbn; discriminate.
  - cbn [vector_objective snd]. split; [unfold compute_gradient_vector; rewrite map_length; apply seq_length|].
    intros i v H. apply (gradient_vector_spec objective x (objective x) i v H).
Qed.
Print Assumptions C92_objective.

(* an Eigen objective gives the same, but undefined behaviour without variables *)
Theorem C92_eigen : forall opt wg objective values, not_nan values -> sane opt -> values <> [] ->
  tune_eigen opt wg objective values = tune_vector opt wg objective values.
Proof.
  intros opt wg objective values Hn Ho Hv. rewrite tune_eigen_spec. rewrite tune_vector_spec by assumption.
  destruct (opt (vector_objective objective wg) (start values)) as [[|x l]| | |] eqn:E; try reflexivity. exfalso.
  apply Ho in E as [E _]. rewrite (Permutation_length (start_perm values)) in E. destruct values; [congruence|discriminate].
Qed.
Print Assumptions C92_eigen.
(* finding: tune with an objective of an Eigen vector and no variables takes the address of the first element of an
   empty std::vector *)
Theorem C92_eigen_empty_refuted : forall opt wg objective, sane opt -> is_ok (opt (vector_objective objective wg) []) = true ->
  tune_eigen opt wg objective [] = UB.
Proof.
  intros opt wg objective Ho Hk. rewrite tune_eigen_spec, tune_vector_spec by (exact Ho || apply Forall_nil).
  change (start []) with (@nil xr). destruct (opt (vector_objective objective wg) []) as [x| | |] eqn:E; try discriminate.
  apply Ho in E as [E _]. destruct x; [reflexivity|discriminate].
Qed.
Print Assumptions C92_eigen_empty_refuted.

(* tuning a model: wherever the optimizer looks within its bounds, the objective is the aggregate of the metric of the
   model with exactly those parameters on each dataset *)
Theorem C92_model_objective : forall D (metric : D -> handler -> xr) aggregator model datasets x,
  separate model -> store_ok (get_params model) -> params_are_valid (get_params model) = true -> in_bounds (get_params model) x ->
  exists params m, set_tunable_params_values (get_params model) x true = Ok params /\ h_set_params params model = Ok m /\
    separate m /\ get_params m = params /\ params_are_valid params = true /\
    (exists tp, get_tunable_parameters params = Ok tp /\ tp_values tp = x) /\
    model_objective metric aggregator model datasets params = Ok (aggregator (map (fun d => metric d m) datasets)).
Proof. exact @model_objective_spec. Qed.
Print Assumptions C92_model_objective.

(* and the result can be given to the model, which then has the parameters the optimizer found *)
Theorem C92_model : forall optimize model, separate model -> store_ok (get_params model) -> params_are_valid (get_params model) = true ->
  (forall x0 x, optimize x0 = Ok x -> in_bounds (get_params model) x) ->
  match optimize (tp_values (tp_of (tunables (get_params model)))) with
  | Ok x => exists params m, tune_model optimize model = Ok params /\ h_set_params params model = Ok m /\ get_params m = params /\
      exists tp, get_tunable_parameters params = Ok tp /\ tp_values tp = x
  | Abort => tune_model optimize model = Abort
  | Throw => tune_model optimize model = Throw
  | UB => tune_model optimize model = UB
  end.
Proof. exact tune_model_spec. Qed.
Print Assumptions C92_model.

(* an optimizer that stops at once *)
Definition stay : optimizer := fun _ x0 => if forallb (fun v => negb (xisnan v)) x0 then Ok x0 else Throw.
Example C92_sane : sane stay.
Proof.
  intros f x0 x. unfold stay. destruct (forallb (fun v => negb (xisnan v)) x0) eqn:E; [|discriminate]. intros H. injection H as <-.
  split; [reflexivity|]. apply Forall_forall. intros v Hv. rewrite forallb_forall in E. specialize (E v Hv). intros ->. discriminate.
Qed.
Definition twelve : list xr := map (fun i => XFin (INR i)) (seq 0 12).
Example C92_twelve : not_nan twelve /\ nth_error twelve 10 = Some (XFin (INR 10)) /\
  tune_vector stay false (fun _ => XFin 0) twelve = Ok (map (fun i => XFin (INR i)) [0; 1; 10; 11; 2; 3; 4; 5; 6; 7; 8; 9]).
Proof.
  assert (not_nan twelve) as H by (unfold twelve; apply Forall_map, Forall_forall; discriminate).
  split; [exact H|]. split; [reflexivity|]. rewrite (tune_vector_spec stay false (fun _ => XFin 0) twelve H C92_sane). reflexivity.
Qed.
Definition ten : list xr := map (fun i => XFin (INR i)) (seq 0 10).
Example C92_ten : not_nan ten /\ length ten <= 10 /\ tune_vector stay false (fun _ => XFin 0) ten = Ok ten.
Proof.
  assert (not_nan ten) as H by (unfold ten; apply Forall_map, Forall_forall; discriminate).
  split; [exact H|]. split; [cbn; lia|]. rewrite (C92_vector stay false (fun _ => XFin 0) ten H C92_sane) by (cbn; lia). reflexivity.
Qed.
Example C92_empty : is_ok (stay (vector_objective (fun _ => XFin 0) false) []) = true.
Proof. reflexivity. Qed.
(* a model with one parameter in [0, 1] and a fixed one *)
Definition ex_model : handler := Wrap (Leaf [("a"%string, Param (XFin (1/2)) (UniformPrior (XFin 0) (XFin 1))); ("b"%string, Param (XFin 3) FixedPrior)]).
Example C92_model_meets : separate ex_model /\ store_ok (get_params ex_model) /\ params_are_valid (get_params ex_model) = true /\
  in_bounds (get_params ex_model) [XFin (1/4)].
Proof.
  assert (wf_map (get_params ex_model)) as W by (repeat constructor).
  split; [split; [exact W|cbn; intuition discriminate]|].
  assert (Rleb 0 (1/2) = true /\ Rleb (1/2) 1 = true /\ Rleb 0 1 = true /\ Rleb 0 (1/4) = true /\ Rleb (1/4) 1 = true) as [H1 [H2 [H3 [H4 H5]]]].
  { repeat split; match goal with |- Rleb ?a ?b = true => destruct (Rleb_spec a b); [reflexivity|lra] end. }
  assert (Rltb (1/2) 0 = false /\ Rltb 1 (1/2) = false /\ Rltb 0 1 = true) as [L1 [L2 L3]].
  { repeat split; match goal with |- Rltb ?a ?b = _ => destruct (Rltb_spec a b); first [reflexivity|lra] end. }
  split.
  - split; [exact W|]. split; [|split].
    + repeat constructor; cbn; assumption.
    + repeat constructor; cbn; assumption.
    + repeat constructor; cbn; assumption.
  - split.
    + cbn. unfold is_valid, within_bounds. cbn. rewrite H1, H2. reflexivity.
    + repeat constructor; cbn; assumption.
Qed.

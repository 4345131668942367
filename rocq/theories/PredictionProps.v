(* C76: which methods answer a prediction. C77: what a prediction refers to. *)
From Coq Require Import List Arith Lia.
Import ListNotations.
From Verif Require Import Base BaseProofs PredictionModel PredictionSpec PredictionProofs.

Section Dispatch.
Context {N Fit Feature : Type}.
Implicit Type m : methods N Fit Feature.

(* A mean can be asked of every model that predicts anything, a marginal of every model that predicts a marginal or
   a joint, a joint of a model that predicts joints. *)
Theorem C76_available m fit fs :
  (mean m fit fs <> None <-> p_mean m <> None \/ p_marginal m <> None \/ p_joint m <> None) /\
  (prediction_marginal m fit fs <> None <-> p_marginal m <> None \/ p_joint m <> None) /\
  (prediction_joint m fit fs <> None <-> p_joint m <> None).
Proof.
  unfold mean, prediction_marginal, prediction_joint, mean_predictor, marginal_predictor, joint_predictor.
  destruct (p_mean m), (p_marginal m), (p_joint m); intuition congruence.
Qed.
Print Assumptions C76_available.

(* The mean, marginal and joint predictions of a model agree when its methods do; a model with one method only has
   nothing to agree with. *)
Theorem C76_agree m fit fs : consistent m ->
  (forall r, prediction_marginal m fit fs = Some (Ok r) -> mean m fit fs = Some (Ok (m_mean r))) /\
  (forall j, prediction_joint m fit fs = Some (Ok j) -> square (j_covariance j) ->
     mean m fit fs = Some (Ok (j_mean j)) /\
     exists d, prediction_marginal m fit fs = Some (Ok (Marginal (j_mean j) d)) /\
       length d = length (j_covariance j) /\
       forall i row, nth_error (j_covariance j) i = Some row -> nth_error d i = nth_error row i).
Proof.
  intros C. split; [intros r; exact (mean_of_marginal m fit fs r C)|].
  intros j E S. destruct (marginal_of_joint m fit fs j C E S) as [d [E' P]].
  split; [exact (mean_of_marginal m fit fs _ C E')|]. exists d. now split.
Qed.
Print Assumptions C76_agree.
Theorem C76_one_method m :
  (p_mean m = None /\ p_marginal m = None) \/ (p_mean m = None /\ p_joint m = None) \/
  (p_marginal m = None /\ p_joint m = None) -> consistent m.
Proof. intros H fit fs. repeat split; intros ? ? E1 E2; intuition congruence. Qed.
Print Assumptions C76_one_method.

(* The method the model has is the one that answers. *)
Theorem C76_direct m fit x fs :
  (forall f, p_mean m = Some f -> mean m fit (x :: fs) = Some (f fit (x :: fs))) /\
  (forall g, p_marginal m = Some g -> prediction_marginal m fit (x :: fs) = Some (g fit (x :: fs))) /\
  (forall h, p_joint m = Some h -> prediction_joint m fit (x :: fs) = Some (h fit (x :: fs))).
Proof.
  unfold mean, prediction_marginal, prediction_joint, mean_predictor, marginal_predictor, joint_predictor.
  repeat split; intros f ->; reflexivity.
Qed.
Print Assumptions C76_direct.

(* No features: an empty answer, without asking the model. *)
Theorem C76_empty m fit :
  (forall r, mean m fit [] = Some r -> r = Ok []) /\
  (forall r, prediction_marginal m fit [] = Some r -> r = Ok (Marginal [] [])) /\
  (forall r, prediction_joint m fit [] = Some r -> r = Ok (Joint [] [])).
Proof.
  unfold mean, prediction_marginal, prediction_joint.
  repeat split; intros r; [destruct (mean_predictor m)|destruct (marginal_predictor m)|destruct (joint_predictor m)];
    congruence.
Qed.
Print Assumptions C76_empty.

(* get<T>() is the prediction of that type. *)
Theorem C76_get m fit fs v ma j :
  (get MeanType m fit fs = Some (Ok v) <-> exists x, v = AMean x /\ mean m fit fs = Some (Ok x)) /\
  (get MarginalType m fit fs = Some (Ok ma) <->
     exists x, ma = AMarginal x /\ prediction_marginal m fit fs = Some (Ok x)) /\
  (get JointType m fit fs = Some (Ok j) <-> exists x, j = AJoint x /\ prediction_joint m fit fs = Some (Ok x)).
Proof.
  assert (L : forall A (k : A -> answer N) o a,
    lift k o = Some (Ok a) <-> exists x, a = k x /\ o = Some (Ok x)).
  { intros A k o a. destruct o as [[x| | |]|]; cbn; split; try discriminate;
      try (intros [x' [_ E]]; discriminate E).
    - intros [= <-]. now exists x.
    - intros [x' [-> [= ->]]]. reflexivity. }
  cbn [get]. repeat split; try apply L.
Qed.
Print Assumptions C76_get.
End Dispatch.

(* The null model predicts zeros with independent variances of 1.e4, whatever it is fit to, and its three predictions
   agree. *)
Theorem C76_null {N Feature} (zero big : N) (fs : list Feature) :
  mean (null_methods zero big) tt fs = Some (Ok (repeat zero (length fs))) /\
  prediction_marginal (null_methods zero big) tt fs =
    Some (Ok (Marginal (repeat zero (length fs)) (repeat big (length fs)))) /\
  (exists c, prediction_joint (null_methods zero big) tt fs = Some (Ok (Joint (repeat zero (length fs)) c)) /\
     length c = length fs /\
     forall i row, nth_error c i = Some row -> length row = length fs /\
       forall j, nth_error row j = if j <? length fs then Some (if i =? j then big else zero) else None) /\
  consistent (null_methods zero big (Feature := Feature)).
Proof.
  split; [destruct fs; reflexivity|]. split; [destruct fs; reflexivity|]. split; [|apply null_consistent].
  exists (scaled_identity zero big (length fs)). split; [destruct fs; reflexivity|].
  split; [apply length_identity|]. apply null_rows.
Qed.
Print Assumptions C76_null.

(* a case: the null model of three features, in natural numbers *)
Example C76_meets :
  consistent (null_methods 0 10000 (Feature := bool)) /\
  prediction_joint (null_methods 0 10000) tt [true; false] = Some (Ok (Joint [0; 0] [[10000; 0]; [0; 10000]])) /\
  square [[10000; 0]; [0; 10000]].
Proof. split; [apply null_consistent|]. split; [reflexivity|]. intros row [<-|[<-|[]]]; reflexivity. Qed.

Section Lifetime.
Context {Model Fit Feature Data Answer : Type}.
Variable noisy : Feature -> Feature.
Variable update_impl : Model -> Fit -> Data -> Fit.
Variable ask : predict_type -> Model -> Fit -> list Feature -> Answer.
Notation run := (run noisy update_impl).
Notation evaluate := (evaluate ask).

(* model.fit(...).predict(features) can be kept: after any later history it answers from the fit it was made of. *)
Theorem C77_temporary (s : memory Model Fit Feature) m f fs :
  exists s1, run (predict_temporary (length (objects s)) m f fs) s = Ok s1 /\
    forall acts s2 t, run acts s1 = Ok s2 -> evaluate s2 (length (predictions s)) t = Ok (ask t m f fs).
Proof.
  eexists; split.
  - cbn. unfold alive, add_object, place, add_prediction. cbn. rewrite nth_error_end. cbn.
    rewrite set_nth_end, nth_error_end. cbn. rewrite set_nth_end. reflexivity.
  - intros acts s2 t H. unfold PredictionModel.evaluate.
    rewrite (prediction_kept noisy update_impl acts _ s2 _ (Prediction (Owns m f) fs) H); [reflexivity|].
    cbn. apply nth_error_end.
Qed.
Print Assumptions C77_temporary.

(* fit_model.predict(features) of a named FitModel answers from it as long as it is left alone, whatever happens to
   other objects; with measurement noise each feature is made a measurement. *)
Theorem C77_named (s : memory Model Fit Feature) l m f fs : nth_error (objects s) l = Some (Alive m f) ->
  exists s1 s1', act noisy update_impl (Predict l fs) s = Ok s1 /\ act noisy update_impl (PredictNoisy l fs) s = Ok s1' /\
    forall acts s2 t, Forall (leaves l) acts ->
      (run acts s1 = Ok s2 -> evaluate s2 (length (predictions s)) t = Ok (ask t m f fs)) /\
      (run acts s1' = Ok s2 -> evaluate s2 (length (predictions s)) t = Ok (ask t m f (map noisy fs))).
Proof.
  intros E. cbn. unfold alive. rewrite E. cbn. do 2 eexists. split; [reflexivity|]. split; [reflexivity|].
  intros acts s2 t HF. split; intros H; unfold PredictionModel.evaluate.
  - rewrite (prediction_kept _ _ _ _ _ _ _ H (nth_error_end _ _)). unfold alive.
    now rewrite (run_leaves _ _ _ _ _ _ _ HF H E).
  - rewrite (prediction_kept _ _ _ _ _ _ _ H (nth_error_end _ _)). unfold alive.
    now rewrite (run_leaves _ _ _ _ _ _ _ HF H E).
Qed.
Print Assumptions C77_named.

(* Such a prediction answers from the FitModel as it is when asked, and asking after its end is undefined. *)
Theorem C77_evaluated_late (s s2 : memory Model Fit Feature) l m f fs acts t :
  nth_error (objects s) l = Some (Alive m f) -> run (Predict l fs :: acts) s = Ok s2 ->
  (forall m' f', nth_error (objects s2) l = Some (Alive m' f') ->
     evaluate s2 (length (predictions s)) t = Ok (ask t m' f' fs)) /\
  (nth_error (objects s2) l = Some Destroyed -> evaluate s2 (length (predictions s)) t = UB).
Proof.
  intros E. cbn. unfold alive. rewrite E. cbn. intros H. unfold PredictionModel.evaluate.
  rewrite (prediction_kept _ _ _ _ _ _ _ H (nth_error_end _ _)). unfold alive.
  split; [intros m' f' ->|intros ->]; reflexivity.
Qed.
Print Assumptions C77_evaluated_late.

(* update makes a new FitModel and keeps the old one; any number of updates in place give what the same updates in
   a row would. *)
Theorem C77_update (s : memory Model Fit Feature) l m f d : nth_error (objects s) l = Some (Alive m f) ->
  exists s1, act noisy update_impl (Update l d) s = Ok s1 /\
    nth_error (objects s1) (length (objects s)) = Some (Alive m (update_impl m f d)) /\
    forall k, k < length (objects s) -> nth_error (objects s1) k = nth_error (objects s) k.
Proof.
  intros E. cbn. unfold alive. rewrite E. cbn. eexists; split; [reflexivity|]. cbn.
  split; [apply nth_error_end|]. intros k Hk. now apply nth_error_app1.
Qed.
Print Assumptions C77_update.
Theorem C77_update_in_place (s : memory Model Fit Feature) l m f ds : nth_error (objects s) l = Some (Alive m f) ->
  exists s1, run (map (UpdateInPlace l) ds) s = Ok s1 /\
    nth_error (objects s1) l = Some (Alive m (fold_left (update_impl m) ds f)) /\
    (forall k, k <> l -> nth_error (objects s1) k = nth_error (objects s) k) /\
    predictions s1 = predictions s.
Proof.
  revert s f; induction ds as [|d ds IH]; intros s f E.
  - exists s. now repeat split.
  - cbn. unfold alive. rewrite E. cbn.
    assert (Hl : l < length (objects s)) by (apply nth_error_Some; congruence).
    destruct (IH (place s l (Alive m (update_impl m f d))) (update_impl m f d)) as [s1 [H1 [H2 [H3 H4]]]].
    { cbn. now apply nth_error_set_nth_eq. }
    exists s1. split; [exact H1|]. split; [exact H2|]. split; [|exact H4].
    intros k Hk. rewrite H3 by exact Hk. cbn. apply nth_error_set_nth_neq. congruence.
Qed.
Print Assumptions C77_update_in_place.

(* model.fit(...).predict_with_measurement_noise(features) cannot be kept: it refers to the temporary FitModel, so
   after the expression every evaluation of it is undefined. *)
Theorem C77_noisy_temporary_refuted (s : memory Model Fit Feature) m f fs :
  exists s1, run (predict_temporary_noisy (length (objects s)) m f fs) s = Ok s1 /\
    forall acts s2 t, run acts s1 = Ok s2 -> evaluate s2 (length (predictions s)) t = UB.
Proof.
  eexists; split.
  - cbn. unfold alive, add_object, place, add_prediction. cbn. rewrite nth_error_end. cbn.
    rewrite nth_error_end. cbn. rewrite set_nth_end. reflexivity.
  - intros acts s2 t H. unfold PredictionModel.evaluate.
    rewrite (prediction_kept noisy update_impl acts _ s2 _ (Prediction (RefersTo (length (objects s))) (map noisy fs)) H)
      by (cbn; apply nth_error_end).
    unfold alive. rewrite (run_destroyed noisy update_impl (length (objects s)) acts _ s2 H)
      by (cbn; apply nth_error_end).
    reflexivity.
Qed.
Print Assumptions C77_noisy_temporary_refuted.
End Lifetime.

(* A prediction of a named FitModel is not a snapshot: an update in place changes the answers of predictions made
   before it. *)
Theorem C77_snapshot_refuted : exists s1 s2 : memory unit nat nat,
  let noisy := fun x => x in
  let update := fun (_ : unit) f d => f + d in
  let ask := fun (_ : predict_type) (_ : unit) f (fs : list nat) => map (fun x => x + f) fs in
  PredictionModel.run noisy update [Construct tt 1; Predict 0 [10]] (Memory [] []) = Ok s1 /\
  PredictionModel.run noisy update [UpdateInPlace 0 5] s1 = Ok s2 /\
  PredictionModel.evaluate ask s1 0 MeanType = Ok [11] /\ PredictionModel.evaluate ask s2 0 MeanType = Ok [16].
Proof. do 2 eexists. cbn. repeat split. Qed.
Print Assumptions C77_snapshot_refuted.

(* a case: two FitModels, a prediction of the first, then work on the second *)
Example C77_meets : exists s : memory unit nat nat,
  PredictionModel.run (fun x => x) (fun _ f d => f + d)
    [Construct tt 1; Predict 0 [10]; Construct tt 2; UpdateInPlace 1 3; Update 0 4; Destroy 1] (Memory [] []) = Ok s /\
  nth_error (objects s) 0 = Some (Alive tt 1) /\ nth_error (objects s) 2 = Some (Alive tt 5) /\
  Forall (leaves 0) [Construct tt 2; UpdateInPlace 1 3; Update 0 4; Destroy 1 : action unit nat nat nat].
Proof. eexists. cbn. repeat split. repeat constructor; discriminate. Qed.

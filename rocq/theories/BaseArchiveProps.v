(* C66 for models without an archive of their own and for representations of covariances. *)
From Coq Require Import String Reals Lia.
From Verif Require Import Base BaseProofs ExtRealModel StdMapModel StdMapProofs PriorModel ParamsModel ParamsSpec ParamsProofs ParamsProps
  CerealModel CerealSpec CerealProofs BaseArchiveModel.
Open Scope string_scope.
Open Scope list_scope.

(* a model loaded over another with the same parameters, whatever their values, has the saved parameters and insights *)
Theorem C66_model : forall bytes typeid m m0,
  separate (m_handler m) -> separate (m_handler m0) -> wf_map (m_insights m) ->
  mkeys (get_params (m_handler m)) = mkeys (get_params (m_handler m0)) ->
  exists s, save_model bytes typeid m = Ok s /\ exists m', (forall rest, load_model bytes typeid m0 (s ++ rest) = Ok (m', rest)) /\
    get_params (m_handler m') = get_params (m_handler m) /\ m_insights m' = m_insights m.
Proof.
  intros bytes typeid m m0 Hs Hs0 Wi Hk. unfold save_model, load_model.
  destruct (separate_wf _ Hs) as [W _]. destruct (separate_wf _ Hs0) as [W0 _].
  destruct (named_restores bytes "params" _ _ (store_restores bytes typeid _ W)) as [s2 [E2 L2]].
  destruct (named_restores bytes "insights" _ _ (insights_restores bytes _ Wi)) as [s3 [E3 L3]].
  rewrite E2, E3. cbn [bind]. eexists. split; [reflexivity|].
  destruct (proj1 (C25_set_params (m_handler m0) (get_params (m_handler m)) Hs0 (wf_NoDup _ W))) as [h' [Eh [Hs' [F1 F2]]]].
  { intros k Hin. rewrite <- Hk. exact Hin. }
  exists (Model h' (m_insights m)). split.
  - intros rest. rewrite <- app_assoc, L2. cbn [bind fst snd]. rewrite Eh. cbn [bind]. rewrite L3. reflexivity.
  - split; [|reflexivity]. cbn [m_handler]. destruct (separate_wf _ Hs') as [W' _].
    apply map_ext_find; [exact W'|exact W|]. intros k.
    destruct (mfind k (get_params (m_handler m))) as [p|] eqn:Ep.
    + apply F1. apply mfind_In; assumption.
    + rewrite F2; [|apply mfind_None; assumption]. apply mfind_None; [assumption|]. rewrite <- Hk. apply mfind_None; assumption.
Qed.
Print Assumptions C66_model.
(* one without one of the saved parameters is rejected *)
Theorem C66_model_rejects : forall bytes typeid m m0 s rest,
  separate (m_handler m) -> separate (m_handler m0) -> wf_map (m_insights m) ->
  (exists k, In k (mkeys (get_params (m_handler m))) /\ ~ In k (mkeys (get_params (m_handler m0)))) ->
  save_model bytes typeid m = Ok s -> load_model bytes typeid m0 (s ++ rest) = Abort.
Proof.
  intros bytes typeid m m0 s rest Hs Hs0 Wi Hk Es. unfold save_model, load_model in *.
  destruct (separate_wf _ Hs) as [W _].
  destruct (named_restores bytes "params" _ _ (store_restores bytes typeid _ W)) as [s2 [E2 L2]].
  destruct (named_restores bytes "insights" _ _ (insights_restores bytes _ Wi)) as [s3 [E3 L3]].
  rewrite E2, E3 in Es. cbn [bind] in Es. injection Es as <-. rewrite <- app_assoc, L2. cbn [bind fst snd].
  rewrite (proj2 (C25_set_params (m_handler m0) (get_params (m_handler m)) Hs0 (wf_NoDup _ W)) Hk). reflexivity.
Qed.
Print Assumptions C66_model_rejects.

(* the representations *)
Theorem C66_explained : forall bytes text enc dec, base64_ok enc dec -> forall E zc zd gd, zstd_ok zc zd ->
  forall ic id_ igd, zstd_ok ic id_ -> forall unset (outer : ldlt E) (inner : matrix E), wf_ldlt outer -> wf_matrix inner ->
  restores_upto (fun p q => same_ldlt (fst p) (fst q) /\ snd p = snd q)
    (c_explained bytes text enc dec E zc zd gd ic id_ igd unset) (outer, inner).
Proof.
  intros bytes text enc dec Hb E zc zd gd Hz ic id_ igd Hi unset outer inner Wo Wi.
  apply (pair_upto bytes same_ldlt eq).
  - apply named_upto. exact (ldlt_restores bytes text enc dec Hb E zc zd gd Hz ic id_ igd Hi unset outer Wo).
  - apply named_upto. apply restores_eq. exact (dense_restores bytes text enc dec Hb E zc zd gd Hz inner Wi).
Qed.
Print Assumptions C66_explained.
Theorem C66_direct_inverse : forall bytes text enc dec, base64_ok enc dec -> forall E zc zd gd, zstd_ok zc zd ->
  forall inverse : matrix E, wf_matrix inverse -> restores (c_direct_inverse bytes text enc dec E zc zd gd) inverse.
Proof.
  intros bytes text enc dec Hb E zc zd gd Hz inverse W. apply named_restores.
  exact (dense_restores bytes text enc dec Hb E zc zd gd Hz inverse W).
Qed.
Print Assumptions C66_direct_inverse.

(* the names under which the parts are stored, in order *)
Theorem C66_layout : forall bytes typeid text enc dec E zc zd gd ic id_ igd unset,
  (forall m s, save_model bytes typeid m = Ok s -> exists p i,
     save (c_store bytes typeid) (get_params (m_handler m)) = Ok p /\
     save (c_map bytes (c_string bytes) (c_string bytes)) (m_insights m) = Ok i /\
     s = ("params", TOpen) :: p ++ ("insights", TOpen) :: i) /\
  (forall outer inner s, save (c_explained bytes text enc dec E zc zd gd ic id_ igd unset) (outer, inner) = Ok s -> exists o i,
     save (c_ldlt bytes text enc dec E zc zd gd ic id_ igd unset) outer = Ok o /\
     save (c_dense bytes text enc dec E zc zd gd) inner = Ok i /\
     s = ("outer_ldlt", TOpen) :: o ++ ("inner", TOpen) :: i) /\
  (forall inverse s, save (c_direct_inverse bytes text enc dec E zc zd gd) inverse = Ok s -> exists i,
     save (c_dense bytes text enc dec E zc zd gd) inverse = Ok i /\ s = ("inverse", TOpen) :: i).
Proof.
  intros. repeat split.
  - intros m s H. unfold save_model in H. apply bind_ok in H as [s1 [H1 H]]. apply bind_ok in H as [s2 [H2 H]]. injection H as <-.
    apply bind_ok in H1 as [p [Hp H1]]. apply bind_ok in H2 as [i [Hi H2]]. injection H1 as <-. injection H2 as <-.
    exists p, i. repeat split; assumption.
  - intros outer inner s H. apply bind_ok in H as [s1 [H1 H]]. apply bind_ok in H as [s2 [H2 H]]. injection H as <-.
    apply bind_ok in H1 as [p [Hp H1]]. apply bind_ok in H2 as [i [Hi H2]]. injection H1 as <-. injection H2 as <-.
    exists p, i. repeat split; assumption.
  - intros inverse s H. apply bind_ok in H as [i [Hi H]]. injection H as <-. exists i. split; [assumption|reflexivity].
Qed.
Print Assumptions C66_layout.

Definition ex_model (v : R) : model := Model (Leaf [("a", Param (XFin v) (UniformPrior (XFin 0) (XFin 1)))]) [("k", "v")].
Example C66_model_meets : separate (m_handler (ex_model (1/2))) /\ separate (m_handler (ex_model (1/4))) /\ wf_map (m_insights (ex_model (1/2))) /\
  mkeys (get_params (m_handler (ex_model (1/2)))) = mkeys (get_params (m_handler (ex_model (1/4)))) /\
  wf_ldlt (Ldlt nat (Matrix nat 2 2 [1; 2; 3; 4]%nat) (Matrix Z 2 1 [1%Z; 1%Z]) true (Some 5%nat)).
Proof. repeat split; try (repeat constructor; fail); cbn; intros [H|[]]; discriminate. Qed.

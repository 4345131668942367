(* C88: RANSAC of any model with a generic strategy, from the data to the prediction. *)
From Verif Require Import Base BaseProofs StdMapModel StdMapProofs IndexingModel IndexingSpec IndexingProofs DatasetModel
  DatasetSpec DatasetProofs DoubleModel RandomModel RandomProofs RandomProps RansacModel RansacSpec RansacProofs RansacProps
  RansacGenericModel RansacGenericSpec RansacGenericProofs.
From Coq Require Import Permutation.

(* what the observations of a group are, for a grouping function and for leave one out *)
Theorem C88_groups : forall {K X D} {OK : OrdKey K} (f : X -> K) (d : dataset X D), wf_dataset d ->
  indexes (build_indexer f (ds_features d)) d /\
  (forall k, In k (mkeys (build_indexer f (ds_features d))) <-> exists x, In x (ds_features d) /\ f x = k) /\
  forall k, group_rows (build_indexer f (ds_features d)) d k = filter (fun r => keqb (f (fst r)) k) (rows d).
Proof.
  intros K X D OK f d wf. split; [apply partition_indexes, build_indexer_partitions|].
  split; [intros k; apply build_indexer_keys|intros k; apply group_rows_function, wf].
Qed.
Print Assumptions C88_groups.
Theorem C88_groups_loo : forall {X D} (d : dataset X D), wf_dataset d ->
  indexes (build_loo_indexer (ds_features d)) d /\
  mkeys (build_loo_indexer (ds_features d)) = seq 0 (length (rows d)) /\
  forall i, group_rows (build_loo_indexer (ds_features d)) d i = match nth_error (rows d) i with Some r => [r] | None => [] end.
Proof.
  intros X D d wf. assert (mkeys (build_loo_indexer (ds_features d)) = seq 0 (length (ds_features d))) as Hk.
  { rewrite build_loo_indexer_spec. unfold mkeys. rewrite map_map. apply map_id. }
  split.
  - split.
    + unfold wf_map. change (map fst (build_loo_indexer (ds_features d))) with (mkeys (build_loo_indexer (ds_features d))).
      rewrite Hk. apply SSorted_klt_lt, SSorted_seq.
    + intros k l. rewrite build_loo_indexer_spec, find_loo. destruct (_ && _) eqn:E; [|discriminate].
      intros El. injection El as <-. constructor; [|constructor].
      apply Bool.andb_true_iff in E as [_ E]. apply Nat.ltb_lt in E. exact E.
  - split; [rewrite (rows_length d wf); exact Hk|intros i; apply group_rows_loo, wf].
Qed.
Print Assumptions C88_groups_loo.

Section Strategy.
Context {K : Type} {OK : OrdKey K} {X D M P : Type}.
Variable model_fit : dataset X D -> M.
Variable model_predict : M -> list X -> P.
Variable inlier_metric : P -> marginal D -> dbl.
Variable consensus_metric : dataset X D -> dbl.
Variable indexer : smap K (list nat).
Let fns (d : dataset X D) := get_generic_ransac_functions model_fit model_predict inlier_metric consensus_metric d indexer.

(* On groups there are, the functions of the strategy fit the model to the observations of the groups, compare its
   prediction of the features of one group with the targets of that group, and apply the consensus metric to the
   observations of the groups; no candidates are turned down. *)
Theorem C88_functions : forall d, wf_dataset d -> indexes indexer d ->
  (forall ks, incl ks (mkeys indexer) -> exists sub, made_of indexer d ks sub /\
     f_fitter (fns d) ks = Ok (model_fit sub) /\ f_consensus (fns d) ks = Ok (consensus_metric sub) /\
     f_valid (fns d) ks = Ok true) /\
  (forall k fit, In k (mkeys indexer) -> exists one, made_of indexer d [k] one /\
     f_inlier (fns d) k fit = Ok (inlier_metric (model_predict fit (ds_features one)) (ds_targets one))).
Proof.
  intros d wf ix. split; [intros ks|intros k fit]; [apply functions_ok|apply inlier_ok]; assumption.
Qed.
(* A group there is not throws. *)
Theorem C88_unknown : forall d, wf_dataset d -> indexes indexer d ->
  (forall ks, (exists k, In k ks /\ ~ In k (mkeys indexer)) ->
     f_fitter (fns d) ks = Throw /\ f_consensus (fns d) ks = Throw) /\
  (forall k fit, ~ In k (mkeys indexer) -> f_inlier (fns d) k fit = Throw).
Proof.
  intros d wf ix. split; [intros ks|intros k fit]; [apply functions_unknown|apply inlier_unknown]; assumption.
Qed.
(* so that the loop never sees a failing callback *)
Theorem C88_callbacks : forall d, wf_dataset d -> indexes indexer d -> M ->
  exists fitter im cm iv, implements (mkeys indexer) (fns d) fitter im cm iv.
Proof. intros d wf ix. apply callbacks_exist; assumption. Qed.

Context {G : Type}.
Variable uniform : Z -> Z -> G -> Z * G.
Hypothesis engine : in_range_engine uniform.
Hypothesis small : (Z.of_nat (length (mkeys indexer)) < 2 ^ 64)%Z.

Section Fit.
Variables (features : list X) (targets : marginal D).
Let d : dataset X D := DS features targets [].
Hypothesis wf : wf_dataset d.
Hypothesis ix : indexes indexer d.
Variables (fitter : list K -> M) (im : K -> M -> dbl) (cm : list K -> dbl) (iv : list K -> bool).
Hypothesis impl : implements (mkeys indexer) (fns d) fitter im cm iv.
Variables (dfuel : nat) (c : ransac_config) (g : G).

Lemma made : dataset_make features targets = Ok d.
Proof. destruct wf as [W L]. apply dataset_make_wf; assumption. Qed.
Lemma sub_incl it : drawn (mkeys indexer) (random_sample_size c) it -> incl (it_candidates it) (mkeys indexer).
Proof.
  intros [inds [_ [_ S]]] k Hk. apply In_nth_error in Hk as [i Hi]. apply subset_ok_iff in S as [L Pr].
  destruct (nth_error inds i) as [j|] eqn:Ej.
  - destruct (Pr i j Ej) as [_ E]. apply nth_error_In with j. congruence.
  - apply nth_error_None in Ej. assert (nth_error (it_candidates it) i <> None) as Hn by congruence.
    apply nth_error_Some in Hn. lia.
Qed.
Lemma consensus_incl minc thr it : evaluated fitter im cm iv (mkeys indexer) thr (random_sample_size c) minc it ->
  incl (consensus it) (mkeys indexer).
Proof.
  intros He k Hk. destruct (evaluated_partition _ _ _ _ _ _ _ _ _ k He) as [Hp _]. apply Hp.
  apply in_app_or in Hk as [Hk|Hk]; [left; exact Hk|right; left]. apply mcontains_spec; [|exact Hk].
  destruct He as [_ [_ [[W _] _]]]. exact W.
Qed.
Lemma all_evaluated out i failed :
  iters_ok fitter im cm iv (mkeys indexer) (inlier_threshold c) (random_sample_size c) (min_consensus_size c)
    (ro_iterations out) i failed ->
  forall it, In it (ro_iterations out) ->
  evaluated fitter im cm iv (mkeys indexer) (inlier_threshold c) (random_sample_size c) (min_consensus_size c) it.
Proof.
  intros [ev [rj [Hp [He [Hr _]]]]] it Hi. apply (Permutation_in _ Hp) in Hi. apply in_app_or in Hi as [Hi|Hi].
  - rewrite Forall_forall in He. apply He, Hi.
  - exfalso. rewrite Forall_forall in Hr. destruct (Hr it Hi) as [Hd [Hv _]].
    destruct impl as [_ [_ [_ Hiv]]]. specialize (Hiv _ (sub_incl it Hd)). cbn in Hiv. congruence.
Qed.

(* Fitting never fails, provided the sampling of candidates terminates. *)
Theorem C88_total :
  (forall g', random_without_replacement uniform dfuel (mkeys indexer) (random_sample_size c) g' <> None) ->
  exists r, ransac_model model_fit fitter im cm iv uniform dfuel indexer c features targets g = Some (Ok r).
Proof.
  intros Ht. unfold ransac_model. rewrite made.
  destruct (C21_terminates fitter im cm iv uniform dfuel (mkeys indexer) (inlier_threshold c) (random_sample_size c)
    (min_consensus_size c) (max_iterations c) (max_failed_candidates c) g engine small Ht) as [out E].
  unfold ransac_with_config. rewrite E. unfold ransac_fit.
  destruct (ro_code out) eqn:Ec; try (eexists; reflexivity).
  destruct (C21_success _ _ _ _ _ _ _ _ _ _ _ _ _ _ engine small E Ec) as [[He _] _].
  destruct (groups_subset indexer d wf ix _ (consensus_incl _ _ _ He)) as [inds [sub [E1 [E2 _]]]].
  rewrite E1. cbn. rewrite E2. cbn. eexists. reflexivity.
Qed.

(* What the fit is. *)
Theorem C88_fit : forall r,
  ransac_model model_fit fitter im cm iv uniform dfuel indexer c features targets g = Some (Ok r) ->
  (ro_code (rf_output r) <> RANSAC_SUCCESS -> rf_model r = None) /\
  (ro_code (rf_output r) = RANSAC_SUCCESS ->
   let best := ro_best (rf_output r) in
   exists cand sub, made_of indexer d (it_candidates best) cand /\ made_of indexer d (consensus best) sub /\
     rf_model r = Some (model_fit sub) /\
     length (it_candidates best) = random_sample_size c /\ min_consensus_size c <= length (consensus best) /\
     NoDup (consensus best) /\
     (forall k one, In k (mkeys indexer) -> ~ In k (it_candidates best) -> made_of indexer d [k] one ->
        (In k (consensus best) <->
         dleb (inlier_metric (model_predict (model_fit cand) (ds_features one)) (ds_targets one)) (inlier_threshold c) = true)) /\
     (forall it other, In it (ro_iterations (rf_output r)) -> min_consensus_size c <= length (consensus it) ->
        made_of indexer d (consensus it) other ->
        forall m, consensus_metric other = Some m -> exists b, consensus_metric sub = Some b /\ (b <= m)%Z)).
Proof.
  intros r E. unfold ransac_model in E. rewrite made in E.
  unfold ransac_with_config in E.
  destruct (ransac fitter im cm iv uniform dfuel (mkeys indexer) (inlier_threshold c) (random_sample_size c)
    (min_consensus_size c) (max_iterations c) (max_failed_candidates c) g) as [[out| | |]|] eqn:Er; try discriminate.
  injection E as E. apply bind_ok in E as [m [Em E]]. injection E as <-. cbn [rf_model rf_output].
  unfold ransac_fit in Em. split.
  { intros Hc. destruct (ro_code out); try congruence. }
  intros Hc. rewrite Hc in Em. set (best := ro_best out) in *.
  destruct (C21_success _ _ _ _ _ _ _ _ _ _ _ _ _ _ engine small Er Hc) as [Hbest [failed [Hits _]]].
  fold best in Hbest. clearbody best. pose proof Hbest as [He [Hen [l1 [l2 [El [Hl1 Hl2]]]]]].
  pose proof (consensus_incl _ _ _ He) as Hci. pose proof He as [Hd [_ [[W1 [W2 [C1 C2]]] [Hm _]]]].
  pose proof (sub_incl _ Hd) as Hcand.
  destruct (groups_subset indexer d wf ix _ Hci) as [inds [sub [E1 [E2 Hsub]]]].
  destruct (functions_ok model_fit model_predict inlier_metric consensus_metric indexer d wf ix _ Hcand)
    as [cand [Hmc [Ef _]]].
  destruct (functions_ok model_fit model_predict inlier_metric consensus_metric indexer d wf ix _ Hci)
    as [sub' [Hsub' [_ [Ecm _]]]].
  assert (sub' = sub) by (eapply made_of_unique; eassumption). subst sub'.
  destruct impl as [I1 [I2 [I3 I4]]].
  assert (fitter (it_candidates best) = model_fit cand) as Hfit.
  { pose proof (I1 _ Hcand) as H. unfold fns in H. rewrite Ef in H. injection H as <-. reflexivity. }
  assert (forall ks other, incl ks (mkeys indexer) -> made_of indexer d ks other -> cm ks = consensus_metric other) as Hcm.
  { intros ks other Hk Ho. pose proof (I3 _ Hk) as H.
    destruct (functions_ok model_fit model_predict inlier_metric consensus_metric indexer d wf ix _ Hk) as [o' [Ho' [_ [Ec _]]]].
    assert (o' = other) by (eapply made_of_unique; eassumption). subst o'.
    unfold fns in H. rewrite Ec in H. injection H as <-. reflexivity. }
  exists cand, sub. split; [exact Hmc|]. split; [exact Hsub|]. rewrite E1 in Em. cbn in Em.
  rewrite E2 in Em. cbn in Em. split; [congruence|].
  split. { destruct Hd as [ii [_ [Hl S]]]. apply subset_ok_iff in S as [L _]. congruence. }
  split; [exact Hen|].
  split. { apply (evaluated_consensus_NoDup fitter im cm iv (mkeys indexer) (inlier_threshold c) (random_sample_size c) (min_consensus_size c)); [|exact He].
    apply (wf_NoDup indexer), ix. }
  split.
  - intros k one Hk Hnc Ho.
    assert (im k (model_fit cand) = inlier_metric (model_predict (model_fit cand) (ds_features one)) (ds_targets one)) as Him.
    { pose proof (I2 k (model_fit cand) Hk) as H.
      destruct (inlier_ok model_fit model_predict inlier_metric consensus_metric indexer d wf ix k (model_fit cand) Hk) as [o' [Ho' Ei]].
      assert (o' = one) by (eapply made_of_unique; eassumption). subst o'.
      unfold fns in H. rewrite Ei in H. injection H as <-. reflexivity. }
    rewrite <- Him, <- Hfit. split.
    + intros Hin. apply in_app_or in Hin as [Hin|Hin]; [contradiction|].
      apply (mfind_Some_key k _ W1) in Hin as [v Hv]. apply C1 in Hv as [_ [_ [-> Hv]]]. exact Hv.
    + intros Hle. apply in_or_app. right. apply (mfind_Some_key k _ W1). eexists. apply C1. repeat split; assumption.
  - intros it other Hi Hlen Ho m' Em'.
    pose proof (all_evaluated out _ _ Hits it Hi) as Hevi.
    pose proof Hevi as [_ [_ [_ [Hmi _]]]]. specialize (Hmi Hlen). rewrite (Hcm _ other (consensus_incl _ _ _ Hevi) Ho) in Hmi.
    rewrite Em' in Hmi. specialize (Hm Hen). rewrite (Hcm _ sub Hci Hsub) in Hm.
    rewrite El in Hi. apply in_app_or in Hi as [Hi|[Hi|Hi]].
    + destruct (Hl1 it m' Hi Hmi) as [b [Hb Hlt]]. exists b. split; [congruence|lia].
    + subst it. exists m'. split; [congruence|lia].
    + destruct (Hl2 it m' Hi Hmi) as [b [Hb Hlt]]. exists b. split; [congruence|lia].
Qed.

(* Predictions are those of the model fitted to the consensus; without one, an assertion. *)
Theorem C88_predict : forall r at_features,
  ransac_model model_fit fitter im cm iv uniform dfuel indexer c features targets g = Some (Ok r) ->
  (ro_code (rf_output r) = RANSAC_SUCCESS -> exists sub, made_of indexer d (consensus (ro_best (rf_output r))) sub /\
     ransac_model_predict model_predict at_features r = Ok (model_predict (model_fit sub) at_features)) /\
  (ro_code (rf_output r) <> RANSAC_SUCCESS -> ransac_model_predict model_predict at_features r = Abort).
Proof.
  intros r fs E. destruct (C88_fit r E) as [H1 H2]. unfold ransac_model_predict, has_fit_model, get_fit_model_or_assert. split.
  - intros Hc. destruct (H2 Hc) as [cand [sub [_ [Hs [-> _]]]]]. exists sub. split; [exact Hs|reflexivity].
  - intros Hc. rewrite (H1 Hc). reflexivity.
Qed.
End Fit.
End Strategy.
Print Assumptions C88_functions.
Print Assumptions C88_unknown.
Print Assumptions C88_callbacks.
Print Assumptions C88_total.
Print Assumptions C88_fit.
Print Assumptions C88_predict.

(* Targets and features of different sizes are refused. *)
Theorem C88_sizes : forall {K X D M G} {OK : OrdKey K} (model_fit : dataset X D -> M) fitter (im : K -> M -> dbl) cm iv
    (uniform : Z -> Z -> G -> Z * G) dfuel indexer c features targets g,
  ~ wf_dataset (DS features targets []) ->
  ransac_model model_fit fitter im cm iv uniform dfuel indexer c features targets g = Some Abort.
Proof.
  intros. unfold ransac_model, dataset_make, marginal_size, assert_then.
  destruct (length (m_mean targets) =? length (m_var targets)) eqn:E; [|reflexivity]. cbn.
  destruct (length features =? length (m_mean targets)) eqn:E2; [|reflexivity].
  exfalso. apply H. split; apply Nat.eqb_eq; assumption.
Qed.
Print Assumptions C88_sizes.

(* The overloads of ransac that take an indexer agree with the one that takes groups. *)
Theorem C88_overloads : forall {K F G} {OK : OrdKey K} fitter (im : K -> F -> dbl) cm iv (uniform : Z -> Z -> G -> Z * G)
    dfuel (indexer : smap K (list nat)) thr n minc maxi g,
  ransac_indexer fitter im cm iv uniform dfuel indexer thr n minc maxi g =
  ransac_with_config fitter im cm iv uniform dfuel indexer (Config thr n minc maxi maxi) g.
Proof. reflexivity. Qed.
Print Assumptions C88_overloads.

Definition picky (ks : list nat) : bool := negb (list_eqb Nat.eqb ks [0]).
Definition ex_groups : smap nat (list nat) := [(0, [0]); (1, [1]); (2, [2])].
(* finding: the two ways to run RANSAC without saying how many candidate sets may be turned down do not agree: the free
   function allows as many as there are iterations, the model stops at the first one. With the same callbacks, groups,
   sizes and random numbers one succeeds and the other has no fit. *)
Theorem C88_default_failures_refuted :
  exists a b,
  ransac_indexer (fun _ : list nat => tt) (fun _ _ => Some 0%Z) (fun _ => Some 0%Z) picky replay 5 ex_groups (Some 1%Z) 1 1 2 [0; 1; 2]%Z = Some (Ok a) /\
  ransac_with_config (fun _ : list nat => tt) (fun _ _ => Some 0%Z) (fun _ => Some 0%Z) picky replay 5 ex_groups
    (ransac_model_config (Some 1%Z) 1 1 2) [0; 1; 2]%Z = Some (Ok b) /\
  ro_code a = RANSAC_SUCCESS /\ ro_code b = RANSAC_EXCEEDED_MAX_FAILED_CANDIDATES.
Proof. do 2 eexists. split; [reflexivity|]. split; [reflexivity|]. split; reflexivity. Qed.
Print Assumptions C88_default_failures_refuted.
(* With the generic strategies this does not matter, as these turn no candidates down: any number of failures gives the
   same result. *)
Theorem C88_failures_unused : forall {K F G} {OK : OrdKey K} fitter (im : K -> F -> dbl) cm (uniform : Z -> Z -> G -> Z * G)
    dfuel (indexer : smap K (list nat)) thr n minc maxi f1 f2 g,
  ransac_with_config fitter im cm (fun _ => true) uniform dfuel indexer (Config thr n minc maxi f1) g =
  ransac_with_config fitter im cm (fun _ => true) uniform dfuel indexer (Config thr n minc maxi f2) g.
Proof.
  intros. unfold ransac_with_config. cbn [inlier_threshold random_sample_size min_consensus_size max_iterations max_failed_candidates].
  apply ransac_no_rejections.
Qed.
Print Assumptions C88_failures_unused.
(* So the model made from a threshold, sizes and a number of iterations runs the same RANSAC as the free function. *)
Theorem C88_model_agrees : forall {K F G} {OK : OrdKey K} fitter (im : K -> F -> dbl) cm (uniform : Z -> Z -> G -> Z * G)
    dfuel (indexer : smap K (list nat)) thr n minc maxi g,
  ransac_with_config fitter im cm (fun _ => true) uniform dfuel indexer (ransac_model_config thr n minc maxi) g =
  ransac_indexer fitter im cm (fun _ => true) uniform dfuel indexer thr n minc maxi g.
Proof.
  intros. rewrite C88_overloads. apply C88_failures_unused.
Qed.
Print Assumptions C88_model_agrees.

(* a case: the mean of the values as a model, five observations in three groups by the sign of the feature, distances as metrics *)
Definition ex_data : dataset Z Z := DS [-1; 5; -2; 7; 0]%Z (Marg [10; 30; 11; 31; 12]%Z [1; 1; 1; 1; 1]%Z) [].
Definition ex_sign (x : Z) : nat := if (x <? 0)%Z then 0 else if (x =? 0)%Z then 1 else 2.
Definition ex_fit (d : dataset Z Z) : Z := (fold_right Z.add 0 (m_mean (ds_targets d)) / Z.of_nat (length (ds_features d)))%Z.
Definition ex_predict (m : Z) (xs : list Z) : list Z := map (fun _ => m) xs.
Definition ex_inlier (p : list Z) (t : marginal Z) : dbl := Some (fold_right Z.max 0%Z (map (fun ab => Z.abs (fst ab - snd ab)) (combine p (m_mean t)))).
Definition ex_consensus (d : dataset Z Z) : dbl := Some (- Z.of_nat (length (ds_features d)))%Z.
Definition ex_indexer := build_indexer ex_sign (ds_features ex_data).
Definition ex_fns := get_generic_ransac_functions ex_fit ex_predict ex_inlier ex_consensus ex_data ex_indexer.
Definition from_fns {A} (d : A) (o : outcome A) : A := match o with Ok a => a | _ => d end.
Definition ex_run := ransac_model ex_fit (fun ks => from_fns 0%Z (f_fitter ex_fns ks)) (fun k m => from_fns NaN (f_inlier ex_fns k m))
    (fun ks => from_fns NaN (f_consensus ex_fns ks)) (fun _ => true) replay 5 ex_indexer (ransac_model_config (Some 3%Z) 1 2 2)
    (ds_features ex_data) (ds_targets ex_data) [2; 0; 1]%Z.
Lemma ex_run_is : match ex_run with
  | Some (Ok r) => ro_code (rf_output r) = RANSAC_SUCCESS /\ consensus (ro_best (rf_output r)) = [0; 1] /\ rf_model r = Some 11%Z /\
     ransac_model_predict ex_predict [4; 5]%Z r = Ok [11; 11]%Z
  | _ => False end.
Proof. vm_compute. repeat split; reflexivity. Qed.
Example C88_meets :
  wf_dataset ex_data /\ indexes ex_indexer ex_data /\ mkeys ex_indexer = [0; 1; 2] /\
  implements (mkeys ex_indexer) ex_fns (fun ks => from_fns 0%Z (f_fitter ex_fns ks)) (fun k m => from_fns NaN (f_inlier ex_fns k m))
    (fun ks => from_fns NaN (f_consensus ex_fns ks)) (fun _ => true) /\
  exists r, ransac_model ex_fit (fun ks => from_fns 0%Z (f_fitter ex_fns ks)) (fun k m => from_fns NaN (f_inlier ex_fns k m))
    (fun ks => from_fns NaN (f_consensus ex_fns ks)) (fun _ => true) replay 5 ex_indexer (ransac_model_config (Some 3%Z) 1 2 2)
    (ds_features ex_data) (ds_targets ex_data) [2; 0; 1]%Z = Some (Ok r) /\
  ro_code (rf_output r) = RANSAC_SUCCESS /\ consensus (ro_best (rf_output r)) = [0; 1] /\ rf_model r = Some 11%Z /\
  ransac_model_predict ex_predict [4; 5]%Z r = Ok [11; 11]%Z.
Proof.
  assert (wf_dataset ex_data) as wf by (split; reflexivity).
  assert (indexes ex_indexer ex_data) as ix by (apply (C88_groups ex_sign ex_data wf)).
  split; [exact wf|]. split; [exact ix|]. split; [reflexivity|]. split.
  - destruct (C88_functions ex_fit ex_predict ex_inlier ex_consensus ex_indexer ex_data wf ix) as [H1 H2].
    split; [|split; [|split]]; unfold ex_fns.
    + intros ks Hk. destruct (H1 ks Hk) as [s [_ [-> _]]]. reflexivity.
    + intros k f Hk. destruct (H2 k f Hk) as [s [_ ->]]. reflexivity.
    + intros ks Hk. destruct (H1 ks Hk) as [s [_ [_ [-> _]]]]. reflexivity.
    + reflexivity.
  - pose proof ex_run_is as H. fold ex_run.
    destruct ex_run as [[r| | |]|]; try contradiction. destruct H as [H1 [H2 [H3 H4]]].
    exists r. split; [reflexivity|]. repeat split; assumption.
Qed.

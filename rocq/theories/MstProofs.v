From Verif Require Import Base BaseProofs StdMapModel StdMapProofs RandomModel MstModel MstSpec MstGraph.

Section K.
Context {V : Type} `{OrdKey V}.
Implicit Types es : list (edge V).

(* ---- sets of vertices ---- *)
Lemma compute_vertices_snoc es e : compute_vertices (es ++ [e]) =
  sinsert (eb e) (sinsert (ea e) (compute_vertices es)).
Proof. unfold compute_vertices. rewrite fold_left_app. reflexivity. Qed.

Lemma compute_vertices_sorted es : StronglySorted klt (compute_vertices es).
Proof.
  induction es as [|e es IH] using rev_ind; [constructor|]. rewrite compute_vertices_snoc.
  apply sorted_sinsert, sorted_sinsert, IH.
Qed.

Lemma compute_vertices_In es v : In v (compute_vertices es) <-> exists e, In e es /\ (v = ea e \/ v = eb e).
Proof.
  induction es as [|e es IH] using rev_ind; [cbn; firstorder|]. rewrite compute_vertices_snoc.
  rewrite !In_sinsert, IH. split.
  - intros [->|[->|[f [Hf Hv]]]]; [exists e|exists e|exists f]; rewrite in_app_iff; cbn; auto.
  - intros [f [Hf Hv]]. apply in_app_iff in Hf as [Hf|[<-|[]]]; [right; right; exists f; auto|tauto].
Qed.

Lemma create_graph_wf es : wf_graph (create_graph es).
Proof.
  split; [apply compute_vertices_sorted|]. intros e He. cbn.
  split; apply compute_vertices_In; exists e; auto.
Qed.

Lemma add_edge_wf e (g : graph V) : wf_graph g -> wf_graph (add_edge e g).
Proof.
  intros [Hs He]. split; cbn; [apply sorted_sinsert, sorted_sinsert, Hs|].
  intros f Hf. apply in_app_iff in Hf as [Hf|[<-|[]]]; rewrite !In_sinsert; [|tauto].
  specialize (He f Hf). tauto.
Qed.

(* ---- order ---- *)
Lemma edge_ltb_cost (x y : edge V) : edge_ltb y x = false -> (ecost x <= ecost y)%Z.
Proof.
  unfold edge_ltb. cbn. destruct (Z.compare_spec (ecost y) (ecost x)); intros; try discriminate; lia.
Qed.

(* ---- negated costs ---- *)
Lemma conn_negate es u v : conn (map negate_cost es) u v <-> conn es u v.
Proof.
  split; apply conn_sub; intros e He.
  - apply in_map_iff in He as [f [<- Hf]]. apply (conn_edge es f Hf).
  - apply (conn_edge (map negate_cost es) (negate_cost e)). apply in_map, He.
Qed.

Lemma negate_invol (e : edge V) : negate_cost (negate_cost e) = e.
Proof. destruct e as [a b c i]. unfold negate_cost. cbn. rewrite Z.opp_involutive. reflexivity. Qed.

Lemma negate_map_invol es : map negate_cost (map negate_cost es) = es.
Proof. rewrite map_map. erewrite map_ext; [apply map_id|apply negate_invol]. Qed.

Lemma forest_negate es : forest es -> forest (map negate_cost es).
Proof.
  intros Hf l1 e l2 E Hc. apply (Hf (map negate_cost l1) (negate_cost e) (map negate_cost l2)).
  - rewrite <- (negate_map_invol es), E, map_app. reflexivity.
  - rewrite <- map_app. apply conn_negate. exact Hc.
Qed.

Lemma total_negate es : total_cost (map negate_cost es) = (- total_cost es)%Z.
Proof. unfold total_cost. induction es as [|e es IH]; cbn in *; [reflexivity|]. rewrite IH. lia. Qed.

Lemma edges_of_negate es es' : edges_of es es' -> edges_of (map negate_cost es) (map negate_cost es').
Proof.
  intros He e Hi. apply in_map_iff in Hi as [f [<- Hf]]. destruct (He f Hf) as [Hx|Hx]; [left|right].
  - apply in_map, Hx.
  - change (flip (negate_cost f)) with (negate_cost (flip f)). apply in_map, Hx.
Qed.

Lemma up_to_negate t es : length (up_to t (map negate_cost es)) = length (from (- t) es).
Proof.
  unfold up_to, from. induction es as [|e es IH]; cbn; [reflexivity|].
  destruct (Z.leb_spec (- ecost e) t); destruct (Z.leb_spec (- t) (ecost e)); cbn; lia.
Qed.

Lemma wf_negate (g : graph V) : wf_graph g -> wf_graph (negate_costs g).
Proof.
  intros [Hs He]. split; [exact Hs|]. cbn. intros e Hi. apply in_map_iff in Hi as [f [<- Hf]]. apply (He f Hf).
Qed.

(* ---- Kruskal ---- *)
Lemma find_tree_in (vts : list (V * nat)) x : In x (map fst vts) -> exists t, find_tree vts x = Ok t.
Proof.
  induction vts as [|[v t] vts IH]; cbn; [intros []|].
  destruct (keqb v x) eqn:E; [eauto|]. intros [->|Hx]; [|apply IH, Hx].
  rewrite keqb_refl in E. discriminate.
Qed.

Lemma find_tree_out (vts : list (V * nat)) x : ~ In x (map fst vts) -> find_tree vts x = Abort.
Proof.
  induction vts as [|[v t] vts IH]; cbn; [reflexivity|]. intros Hn.
  destruct (keqb v x) eqn:E; [apply keqb_eq in E; subst; tauto|]. apply IH. tauto.
Qed.

Lemma find_tree_merge (vts : list (V * nat)) a b x :
  find_tree (merge_trees a b vts) x = (t <- find_tree vts x ;; Ok (if t =? a then b else t)).
Proof.
  induction vts as [|[v t] vts IH]; cbn; [reflexivity|].
  destruct (Nat.eqb_spec t a) as [->|Hn]; cbn; (destruct (keqb v x); [cbn|exact IH]).
  - rewrite Nat.eqb_refl. reflexivity.
  - destruct (Nat.eqb_spec t a); [contradiction|reflexivity].
Qed.

Lemma merge_trees_fst (vts : list (V * nat)) a b : map fst (merge_trees a b vts) = map fst vts.
Proof. unfold merge_trees. rewrite map_map. apply map_ext. intros [v t]. cbn. destruct (t =? a); reflexivity. Qed.

Lemma find_tree_initial vs s x t : find_tree (combine vs (seq s (length vs))) x = Ok t ->
  exists i, nth_error vs i = Some x /\ t = s + i.
Proof.
  revert s. induction vs as [|v vs IH]; intros s; cbn; [discriminate|].
  destruct (keqb v x) eqn:E.
  - intros [= <-]. apply keqb_eq in E. subst. exists 0. split; [reflexivity|lia].
  - intros Hf. destruct (IH _ Hf) as [i [Hi ->]]. exists (S i). split; [exact Hi|lia].
Qed.

Lemma initial_trees_fst (vs : list V) : map fst (initial_trees vs) = vs.
Proof.
  unfold initial_trees. generalize 0. induction vs as [|v vs IH]; intros s; cbn; [reflexivity|]. rewrite IH. reflexivity.
Qed.

Definition tree_inv (vts : list (V * nat)) es : Prop :=
  forall u v tu tv, find_tree vts u = Ok tu -> find_tree vts v = Ok tv -> (tu = tv <-> conn es u v).

Lemma tree_inv_initial (vs : list V) : NoDup vs -> tree_inv (initial_trees vs) [].
Proof.
  intros Hn u v tu tv Hu Hv. apply find_tree_initial in Hu as [i [Hi ->]]. apply find_tree_initial in Hv as [j [Hj ->]].
  cbn. split.
  - intros <-. rewrite Hi in Hj. injection Hj as ->. apply conn_refl.
  - intros Hc. apply conn_isolated in Hc; [|intros e []]. subst v.
    apply (proj1 (NoDup_nth_error vs) Hn); [apply nth_error_Some; congruence|congruence].
Qed.

Lemma kruskal_run rest : forall vts (out : graph V),
  (forall e, In e rest -> In (ea e) (map fst vts) /\ In (eb e) (map fst vts)) ->
  (forall e, In e (g_edges out) -> In (ea e) (map fst vts) /\ In (eb e) (map fst vts)) ->
  tree_inv vts (g_edges out) -> forest (g_edges out) -> g_vertices out = compute_vertices (g_edges out) ->
  StronglySorted (fun x y => (ecost x <= ecost y)%Z) rest ->
  (forall e f, In e (g_edges out) -> In f rest -> (ecost e <= ecost f)%Z) ->
  exists vts' out' new skipped, foldM kruskal_step rest (vts, out) = Ok (vts', out') /\
    g_edges out' = g_edges out ++ new /\ Permutation (new ++ skipped) rest /\
    forest (g_edges out') /\ g_vertices out' = compute_vertices (g_edges out') /\
    (forall e, In e rest -> conn (up_to (ecost e) (g_edges out')) (ea e) (eb e)).
Proof.
  induction rest as [|e rest IH]; intros vts out Hr Ho Hi Hf Hv Hs Hc.
  - exists vts, out, [], []. cbn. rewrite app_nil_r. repeat split; auto. intros e [].
  - inversion Hs as [|? ? Hs' Hfa]; subst. rewrite Forall_forall in Hfa.
    destruct (Hr e (or_introl eq_refl)) as [Ha Hb].
    destruct (find_tree_in vts (ea e) Ha) as [ta Hta]. destruct (find_tree_in vts (eb e) Hb) as [tb Htb].
    cbn [foldM]. unfold kruskal_step at 1. rewrite Hta, Htb. cbn [bind].
    pose proof (Hi _ _ _ _ Hta Htb) as Hab.
    destruct (Nat.eqb_spec ta tb) as [Et|Et]; cbn [bind].
    + destruct (IH vts out) as [vts' [out' [new [skipped [H1 [H2 [H3 [H4 [H5 H6]]]]]]]]]; auto.
      * intros f Hfi. apply Hr. right; exact Hfi.
      * intros f g Hfi Hg. apply Hc; [exact Hfi|right; exact Hg].
      * exists vts', out', new, (e :: skipped). repeat split; auto.
        -- apply Permutation_sym, Permutation_cons_app, Permutation_sym, H3.
        -- intros f [<-|Hfi]; [|apply H6, Hfi]. apply Hab in Et. eapply conn_incl; [|exact Et].
           intros g Hg. apply filter_In. split; [rewrite H2; apply in_app_iff; auto|].
           specialize (Hc g e Hg (or_introl eq_refl)). lia.
    + assert (~ conn (g_edges out) (ea e) (eb e)) as Hn by tauto.
      destruct (IH (merge_trees ta tb vts) (add_edge e out)) as [vts' [out' [new [skipped [H1 [H2 [H3 [H4 [H5 H6]]]]]]]]]; auto.
      * intros f Hfi. rewrite merge_trees_fst. apply Hr. right; exact Hfi.
      * cbn. intros f Hfi. rewrite merge_trees_fst. apply in_app_iff in Hfi as [Hfi|[<-|[]]]; auto.
      * intros u v tu tv Hu Hv'. rewrite find_tree_merge in Hu, Hv'.
        destruct (find_tree vts u) as [xu| | |] eqn:Eu; try discriminate.
        destruct (find_tree vts v) as [xv| | |] eqn:Ev; try discriminate.
        cbn in Hu, Hv'. injection Hu as <-. injection Hv' as <-. cbn.
        pose proof (Hi _ _ _ _ Eu Ev) as Huv. pose proof (Hi _ _ _ _ Eu Hta) as Hua.
        pose proof (Hi _ _ _ _ Eu Htb) as Hub. pose proof (Hi _ _ _ _ Hta Ev) as Hav.
        pose proof (Hi _ _ _ _ Htb Ev) as Hbv.
        assert (forall x y, conn (g_edges out) x y -> conn (g_edges out ++ [e]) x y) as Hinc
          by (intros x y; apply conn_incl; intros z Hz; apply in_app_iff; auto).
        assert (conn (g_edges out ++ [e]) (ea e) (eb e)) as He by (apply conn_edge, in_app_iff; right; left; reflexivity).
        split.
        -- destruct (Nat.eqb_spec xu ta) as [->|Hxu]; destruct (Nat.eqb_spec xv ta) as [->|Hxv]; intros E.
           ++ apply Hinc. tauto.
           ++ eapply conn_trans; [apply Hinc, Hua; reflexivity|]. eapply conn_trans; [exact He|]. apply Hinc. tauto.
           ++ eapply conn_trans; [apply Hinc, Hub; exact E|]. eapply conn_trans; [apply conn_sym; exact He|]. apply Hinc. tauto.
           ++ apply Hinc. tauto.
        -- intros Hcn. apply conn_snoc in Hcn as [Hcn|[[Hc1 Hc2]|[Hc1 Hc2]]].
           ++ apply Huv in Hcn. rewrite Hcn. reflexivity.
           ++ apply Hua in Hc1. apply Hbv in Hc2. subst. rewrite Nat.eqb_refl.
              destruct (Nat.eqb_spec xv ta); congruence.
           ++ apply Hub in Hc1. apply Hav in Hc2. subst. rewrite Nat.eqb_refl.
              destruct (Nat.eqb_spec tb xv); congruence.
      * apply forest_snoc; auto.
      * cbn [g_vertices g_edges add_edge]. rewrite compute_vertices_snoc, Hv. reflexivity.
      * cbn. intros f g Hfi Hg. apply in_app_iff in Hfi as [Hfi|[<-|[]]]; [apply Hc; [exact Hfi|right; exact Hg]|].
        apply Hfa, Hg.
      * cbn [g_edges add_edge] in H2.
        exists vts', out', (e :: new), skipped. repeat split; auto.
        -- rewrite H2, <- app_assoc. reflexivity.
        -- cbn. constructor. exact H3.
        -- intros f [<-|Hfi]; [|apply H6, Hfi]. apply conn_edge, filter_In. split; [|lia].
           rewrite H2, !in_app_iff. left; right; left; reflexivity.
Qed.

Lemma sorted_costs (l : list (edge V)) : StronglySorted (fun x y => edge_ltb y x = false) l ->
  StronglySorted (fun x y => (ecost x <= ecost y)%Z) l.
Proof.
  induction 1 as [|a l Hs IH Hf]; constructor; [exact IH|]. eapply Forall_impl; [|exact Hf].
  intros b. apply edge_ltb_cost.
Qed.

Lemma kruskal_spec sort (g : graph V) : sort_contract sort -> wf_graph g ->
  exists out skipped, minimum_spanning_forest sort g = Ok out /\
    Permutation (g_edges out ++ skipped) (g_edges g) /\
    g_vertices out = compute_vertices (g_edges out) /\
    spanning_forest_of (g_edges out) (g_edges g) /\
    (forall F, forest F -> edges_of F (g_edges g) -> forall t, length (up_to t F) <= length (up_to t (g_edges out))) /\
    (forall F, edges_of F (g_edges g) -> spanning_forest_of F (g_edges g) ->
       (total_cost (g_edges out) <= total_cost F)%Z).
Proof.
  intros Hsort [Hsv Hwf]. unfold minimum_spanning_forest.
  destruct (Hsort (g_edges g)) as [Hp Hss].
  assert (exists out skipped, (match g_edges g with
     | [] => Ok empty_graph
     | _ => st <- foldM kruskal_step (sort (g_edges g)) (initial_trees (g_vertices g), empty_graph) ;; Ok (snd st)
     end) = Ok out /\ Permutation (g_edges out ++ skipped) (sort (g_edges g)) /\
     forest (g_edges out) /\ g_vertices out = compute_vertices (g_edges out) /\
     (forall e, In e (sort (g_edges g)) -> conn (up_to (ecost e) (g_edges out)) (ea e) (eb e))) as
     [out [skipped [H1 [H2 [H3 [H4 H5]]]]]].
  { destruct (g_edges g) as [|e0 es0] eqn:Eg.
    - exists empty_graph, []. apply Permutation_sym, Permutation_nil in Hp. rewrite Hp. cbn. repeat split; auto.
      + intros l1 e l2 E. destruct l1; discriminate.
      + intros e [].
    - rewrite <- Eg in *. clear e0 es0 Eg.
      destruct (kruskal_run (sort (g_edges g)) (initial_trees (g_vertices g)) empty_graph)
        as [vts' [out' [new [skipped [H1 [H2 [H3 [H4 [H5 H6]]]]]]]]].
      + intros e He. rewrite initial_trees_fst. apply Hwf. eapply Permutation_in; eauto.
      + intros e [].
      + apply tree_inv_initial, sorted_NoDup, Hsv.
      + intros l1 e l2 E. destruct l1; discriminate.
      + reflexivity.
      + apply sorted_costs, Hss.
      + intros e f [].
      + exists out', skipped. rewrite H1. cbn in H2. cbn [bind snd]. rewrite H2 in *. auto. }
  exists out, skipped. split; [exact H1|]. split; [eapply Permutation_trans; eauto|]. split; [exact H4|].
  assert (forall e, In e (g_edges g) -> conn (up_to (ecost e) (g_edges out)) (ea e) (eb e)) as H6
    by (intros e He; apply H5; eapply Permutation_in; [apply Permutation_sym, Hp|exact He]).
  assert (forall F, edges_of F (g_edges g) -> forall e, In e F -> conn (up_to (ecost e) (g_edges out)) (ea e) (eb e)) as H7.
  { intros F HF e He. destruct (HF e He) as [Hg|Hg]; [apply H6, Hg|]. apply conn_sym. apply (H6 (flip e) Hg). }
  assert (forall u v, conn (g_edges g) u v <-> conn (g_edges out) u v) as H8.
  { intros u v. split.
    - apply conn_sub. intros e He. eapply conn_incl; [|apply H6, He]. intros x Hx. apply filter_In in Hx. tauto.
    - apply conn_incl. intros e He. eapply Permutation_in; [exact Hp|]. eapply Permutation_in; [exact H2|].
      apply in_app_iff. auto. }
  split; [split; assumption|]. split.
  - intros F HF HFe. apply greedy_counts; [exact HF|apply H7, HFe].
  - intros F HFe [HF Hsp]. apply greedy_total; [exact HF|exact H3|apply H7, HFe|].
    intros e He. apply Hsp, H8, conn_edge, He.
Qed.

Lemma permutation_negate es es' : Permutation es es' -> Permutation (map negate_cost es) (map negate_cost es').
Proof. apply Permutation_map. Qed.

Lemma compute_vertices_negate es : compute_vertices (map negate_cost es) = compute_vertices es.
Proof.
  induction es as [|e es IH] using rev_ind; [reflexivity|]. rewrite map_app. cbn [map].
  rewrite !compute_vertices_snoc, IH. reflexivity.
Qed.

Lemma kruskal_max_spec sort (g : graph V) : sort_contract sort -> wf_graph g ->
  exists out skipped, maximum_spanning_forest sort g = Ok out /\
    Permutation (g_edges out ++ skipped) (g_edges g) /\
    g_vertices out = compute_vertices (g_edges out) /\
    spanning_forest_of (g_edges out) (g_edges g) /\
    (forall F, forest F -> edges_of F (g_edges g) -> forall t, length (from t F) <= length (from t (g_edges out))) /\
    (forall F, edges_of F (g_edges g) -> spanning_forest_of F (g_edges g) ->
       (total_cost F <= total_cost (g_edges out))%Z).
Proof.
  intros Hsort Hwf. destruct (kruskal_spec sort (negate_costs g) Hsort (wf_negate g Hwf)) as
    [out [skipped [H1 [H2 [H3 [[H4 H5] [H6 H7]]]]]]].
  exists (negate_costs out), (map negate_cost skipped). unfold maximum_spanning_forest. rewrite H1. cbn [bind g_edges g_vertices negate_costs].
  cbn [negate_costs g_edges] in *.
  split; [reflexivity|]. split.
  { rewrite <- map_app. rewrite <- (negate_map_invol (g_edges g)). apply permutation_negate, H2. }
  split; [rewrite compute_vertices_negate; exact H3|]. split.
  { split; [apply forest_negate, H4|]. intros u v. rewrite conn_negate, <- H5, conn_negate. reflexivity. }
  split.
  - intros F HF HFe t. specialize (H6 (map negate_cost F) (forest_negate F HF) (edges_of_negate _ _ HFe) (- t)%Z).
    rewrite up_to_negate, Z.opp_involutive in H6.
    rewrite <- (negate_map_invol (g_edges out)), up_to_negate, Z.opp_involutive in H6. exact H6.
  - intros F HFe [HF Hsp]. specialize (H7 (map negate_cost F) (edges_of_negate _ _ HFe)).
    rewrite total_negate in *.
    assert (total_cost (g_edges out) <= - total_cost F)%Z; [|lia]. apply H7. split; [apply forest_negate, HF|].
    intros u v. rewrite !conn_negate. apply Hsp.
Qed.

(* an edge with an end outside of the vertices *)
Lemma kruskal_step_cases st (e : edge V) : In (ea e) (map fst (fst st)) -> In (eb e) (map fst (fst st)) ->
  exists st', kruskal_step st e = Ok st' /\ map fst (fst st') = map fst (fst st).
Proof.
  destruct st as [vts out]. cbn [fst]. intros Ha Hb.
  destruct (find_tree_in _ _ Ha) as [ta Hta]. destruct (find_tree_in _ _ Hb) as [tb Htb].
  unfold kruskal_step. rewrite Hta, Htb. cbn [bind]. destruct (ta =? tb); eexists; split; try reflexivity.
  cbn. apply merge_trees_fst.
Qed.

Lemma kruskal_abort rest : forall st, (exists e, In e rest /\ (~ In (ea e) (map fst (fst st)) \/ ~ In (eb e) (map fst (fst st)))) ->
  foldM (@kruskal_step V _) rest st = Abort.
Proof.
  induction rest as [|e rest IH]; intros st [f [Hf Hn]]; [destruct Hf|]. cbn [foldM].
  destruct (in_dec keq_dec (ea e) (map fst (fst st))) as [Ha|Ha].
  - destruct (in_dec keq_dec (eb e) (map fst (fst st))) as [Hb|Hb].
    + destruct (kruskal_step_cases st e Ha Hb) as [st' [-> Hk]]. cbn [bind]. apply IH. exists f.
      destruct Hf as [<-|Hf]; [tauto|]. rewrite Hk. auto.
    + destruct st as [vts out]. unfold kruskal_step. cbn [fst] in *. destruct (find_tree_in _ _ Ha) as [ta ->].
      rewrite (find_tree_out vts (eb e) Hb). reflexivity.
  - destruct st as [vts out]. unfold kruskal_step. cbn [fst] in *. rewrite (find_tree_out vts (ea e) Ha). reflexivity.
Qed.

Lemma kruskal_missing_vertex sort (g : graph V) : sort_contract sort ->
  (exists e, In e (g_edges g) /\ (~ In (ea e) (g_vertices g) \/ ~ In (eb e) (g_vertices g))) ->
  minimum_spanning_forest sort g = Abort.
Proof.
  intros Hsort [e [He Hn]]. unfold minimum_spanning_forest. destruct (g_edges g) as [|e0 es0] eqn:Eg; [destruct He|].
  rewrite <- Eg in *. rewrite kruskal_abort; [reflexivity|]. exists e. cbn. rewrite initial_trees_fst. split; [|exact Hn].
  eapply Permutation_in; [apply Permutation_sym, Hsort|exact He].
Qed.
End K.

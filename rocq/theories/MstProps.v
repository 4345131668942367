(* Properties C19 and C20 of properties.jsonl. *)
From Verif Require Import Base StdMapModel StdMapProofs MstModel MstSpec MstGraph MstProofs PrimProofs.

(* ---- instances of the two library functions, showing that the contracts can be met ---- *)
Section Instances.
Context {V : Type} `{OrdKey V}.
Lemma edge_le_iff (x y : edge V) : edge_ltb y x = false <->
  (ecost x < ecost y)%Z \/ (ecost x = ecost y /\ (klt (ea x) (ea y) \/
    (ea x = ea y /\ (klt (eb x) (eb y) \/ eb x = eb y)))).
Proof.
  unfold edge_ltb. change (kcmp (ecost y) (ecost x)) with (ecost y ?= ecost x)%Z.
  destruct (Z.compare_spec (ecost y) (ecost x)) as [E|E|E].
  - destruct (kcmp (ea y) (ea x)) eqn:Ea.
    + apply kcmp_eq in Ea. destruct (kltb_spec (eb y) (eb x)) as [Hl|Hl].
      * split; [discriminate|]. intros [Hc|[_ [Hc|[_ [Hc|Hc]]]]]; [lia| | |].
        -- rewrite Ea in Hc. exfalso; eapply klt_irrefl; eauto.
        -- exfalso. eapply klt_irrefl, klt_trans; eauto.
        -- rewrite Hc in Hl. exfalso; eapply klt_irrefl; eauto.
      * split; [intros _|auto]. right. split; [auto|]. right. split; [auto|].
        destruct (klt_total (eb x) (eb y)) as [Hx|[Hx|Hx]]; auto. contradiction.
    + split; [discriminate|]. intros [Hc|[_ [Hc|[Hc _]]]]; [lia| |].
      * exfalso. eapply klt_irrefl, klt_trans; eauto.
      * rewrite Hc, kcmp_refl in Ea. discriminate.
    + split; [intros _|auto]. right. split; [auto|]. left. unfold klt. rewrite kcmp_antisym, Ea. reflexivity.
  - split; [discriminate|]. intros [Hc|[Hc _]]; lia.
  - split; auto.
Qed.
Lemma edge_le_trans (x y z : edge V) : edge_ltb y x = false -> edge_ltb z y = false -> edge_ltb z x = false.
Proof.
  rewrite !edge_le_iff. intros Hx Hy.
  destruct Hx as [Hx|[Hx1 [Hx|[Hx2 Hx]]]]; destruct Hy as [Hy|[Hy1 [Hy|[Hy2 Hy]]]];
    try (left; lia); right; (split; [congruence|]).
  - left. eapply klt_trans; eauto.
  - left. congruence.
  - left. congruence.
  - right. split; [congruence|]. destruct Hx as [Hx| ->]; destruct Hy as [Hy| Hy]; auto.
    + left. eapply klt_trans; eauto.
    + left. congruence.
Qed.
Lemma edge_le_total (x y : edge V) : edge_ltb y x = true -> edge_ltb x y = false.
Proof.
  intros E. destruct (edge_ltb x y) eqn:E2; [|reflexivity]. exfalso.
  assert (~ (edge_ltb y x = false)) as Hn by congruence. rewrite edge_le_iff in Hn.
  assert (~ (edge_ltb x y = false)) as Hn2 by congruence. rewrite edge_le_iff in Hn2.
  destruct (Z.lt_total (ecost x) (ecost y)) as [Hc|[Hc|Hc]]; [tauto| |tauto].
  destruct (klt_total (ea x) (ea y)) as [Ha|[Ha|Ha]]; [tauto| |apply Hn2; right; split; [congruence|tauto]].
  destruct (klt_total (eb x) (eb y)) as [Hb|[Hb|Hb]]; [tauto|tauto|].
  apply Hn2. right. split; [congruence|]. right. split; [congruence|tauto].
Qed.
Fixpoint insert_edge (e : edge V) (l : list (edge V)) : list (edge V) :=
  match l with [] => [e] | f :: l' => if edge_ltb f e then f :: insert_edge e l' else e :: l end.
Definition sort_edges (l : list (edge V)) := fold_right insert_edge [] l.
Definition pop_edge (q : list (edge V)) : option (edge V * list (edge V)) :=
  match rev (sort_edges q) with [] => None | e :: q' => Some (e, q') end.
Lemma insert_edge_perm e l : Permutation (insert_edge e l) (e :: l).
Proof.
  induction l as [|f l IH]; cbn; [auto|]. destruct (edge_ltb f e); [|auto].
  eapply Permutation_trans; [apply perm_skip, IH|apply perm_swap].
Qed.
Lemma insert_edge_sorted e l : StronglySorted (fun x y => edge_ltb y x = false) l ->
  StronglySorted (fun x y => edge_ltb y x = false) (insert_edge e l).
Proof.
  induction 1 as [|f l Hs IH Hf]; cbn; [repeat constructor|]. rewrite Forall_forall in Hf.
  destruct (edge_ltb f e) eqn:E; constructor; auto; try (constructor; [exact Hs|]); apply Forall_forall; auto.
  - intros x Hx. apply (Permutation_in _ (insert_edge_perm e l)) in Hx as [<-|Hx]; [|auto].
    apply edge_le_total, E.
  - intros x [<-|Hx]; [exact E|]. eapply edge_le_trans; [exact E|]. apply Hf, Hx.
Qed.
Lemma sort_edges_contract : sort_contract sort_edges.
Proof.
  intros es. unfold sort_edges. induction es as [|e es [IH1 IH2]]; cbn; [split; constructor|]. split.
  - eapply Permutation_trans; [apply insert_edge_perm|]. apply perm_skip, IH1.
  - apply insert_edge_sorted, IH2.
Qed.
Lemma pop_edge_contract : pop_contract pop_edge.
Proof.
  intros q. unfold pop_edge. destruct (sort_edges_contract q) as [Hp Hs].
  destruct (rev (sort_edges q)) as [|e q'] eqn:E.
  - apply (f_equal (@rev _)) in E. rewrite rev_involutive in E. rewrite E in Hp. apply Permutation_nil in Hp. exact Hp.
  - assert (Permutation q (e :: q')) as Hq.
    { rewrite <- E. eapply Permutation_trans; [apply Permutation_sym, Hp|apply Permutation_rev]. }
    split; [exact Hq|]. apply (f_equal (@rev _)) in E. rewrite rev_involutive in E. cbn in E. rewrite E in Hs.
    intros f Hf. apply (Permutation_in _ Hq) in Hf as [<-|Hf].
    + apply edge_le_iff. tauto.
    + apply in_rev in Hf. clear -Hs Hf. induction (rev q') as [|x l IH]; [destruct Hf|]. cbn in Hs.
      inversion Hs as [|? ? Hs' Hfa]; subst. destruct Hf as [<-|Hf]; [|apply IH; auto].
      rewrite Forall_forall in Hfa. apply Hfa, in_app_iff. right; left; reflexivity.
Qed.
End Instances.

(* Edges are ordered by cost, then by the first and then by the second vertex; edges that differ in none of these are not ordered. *)
Theorem C19_edge_order {V} `{OrdKey V} (x y : edge V) :
  (edge_ltb x y = true <->
   (ecost x < ecost y)%Z \/ (ecost x = ecost y /\ (klt (ea x) (ea y) \/ (ea x = ea y /\ klt (eb x) (eb y))))) /\
  (edge_ltb x y = false -> edge_ltb y x = false -> ecost x = ecost y /\ ea x = ea y /\ eb x = eb y).
Proof.
  split.
  - unfold edge_ltb. change (kcmp (ecost x) (ecost y)) with (ecost x ?= ecost y)%Z.
    destruct (Z.compare_spec (ecost x) (ecost y)) as [E|E|E].
    + destruct (kcmp (ea x) (ea y)) eqn:Ea.
      * apply kcmp_eq in Ea. destruct (kltb_spec (eb x) (eb y)) as [Hl|Hl].
        -- split; auto.
        -- split; [discriminate|]. intros [Hc|[_ [Hc|[_ Hc]]]]; [lia| |contradiction].
           rewrite Ea in Hc. exfalso; eapply klt_irrefl; eauto.
      * split; auto.
      * split; [discriminate|]. unfold klt. rewrite Ea. intros [Hc|[_ [Hc|[Hc _]]]]; [lia|discriminate|].
        rewrite Hc, kcmp_refl in Ea. discriminate.
    + split; auto.
    + split; [discriminate|]. intros [Hc|[Hc _]]; lia.
  - assert (Has : forall a b : V, klt a b -> klt b a -> False).
    { intros a b Hab Hba. exact (klt_irrefl a (klt_trans a b a Hab Hba)). }
    assert (Hne : forall a b : V, klt a b -> a = b -> False).
    { intros a b Hab ->. exact (klt_irrefl b Hab). }
    rewrite !edge_le_iff. intros [A|[A [B|[B [C|C]]]]] [D|[D [E|[E [F|F]]]]]; try lia; auto;
      exfalso; eauto using eq_sym.
Qed.
Print Assumptions C19_edge_order.
Example C19_edge_order_meets :
  edge_ltb (Edge 1 2 5 0) (Edge 1 3 5 1) = true /\ edge_ltb (Edge 1 3 5 1) (Edge 1 2 5 0) = false /\
  edge_ltb (Edge 1 3 5 1) (Edge 2 1 5 2) = true /\ edge_ltb (Edge 2 1 5 2) (Edge 1 1 6 3) = true /\
  edge_ltb (Edge 1 2 5 0) (Edge 1 2 5 4) = false /\ edge_ltb (Edge 1 2 5 4) (Edge 1 2 5 0) = false.
Proof. repeat split; reflexivity. Qed.

(* ---- C19 ---- *)

(* for every graph, including self loops, parallel edges, ties and several
   components, and however std::sort orders equivalent edges *)
Theorem C19_minimum_spanning_forest : forall (V : Type) (H : OrdKey V)
    (sort : list (edge V) -> list (edge V)) (g : graph V),
  sort_contract sort -> wf_graph g ->
  exists out skipped, minimum_spanning_forest sort g = Ok out /\
    Permutation (g_edges out ++ skipped) (g_edges g) /\
    g_vertices out = compute_vertices (g_edges out) /\
    spanning_forest_of (g_edges out) (g_edges g) /\
    (forall F, forest F -> edges_of F (g_edges g) ->
       forall t, length (up_to t F) <= length (up_to t (g_edges out))) /\
    (forall F, edges_of F (g_edges g) -> spanning_forest_of F (g_edges g) ->
       (total_cost (g_edges out) <= total_cost F)%Z).
Proof. exact @kruskal_spec. Qed.
Print Assumptions C19_minimum_spanning_forest.

Theorem C19_maximum_spanning_forest : forall (V : Type) (H : OrdKey V)
    (sort : list (edge V) -> list (edge V)) (g : graph V),
  sort_contract sort -> wf_graph g ->
  exists out skipped, maximum_spanning_forest sort g = Ok out /\
    Permutation (g_edges out ++ skipped) (g_edges g) /\
    g_vertices out = compute_vertices (g_edges out) /\
    spanning_forest_of (g_edges out) (g_edges g) /\
    (forall F, forest F -> edges_of F (g_edges g) ->
       forall t, length (from t F) <= length (from t (g_edges out))) /\
    (forall F, edges_of F (g_edges g) -> spanning_forest_of F (g_edges g) ->
       (total_cost F <= total_cost (g_edges out))%Z).
Proof. exact @kruskal_max_spec. Qed.
Print Assumptions C19_maximum_spanning_forest.

(* graphs built with create_graph and add_edge meet the hypothesis *)
Theorem C19_create_graph_wf : forall (V : Type) (H : OrdKey V) (es : list (edge V)),
  wf_graph (create_graph es) /\ g_edges (create_graph es) = es /\
  forall v, In v (g_vertices (create_graph es)) <-> exists e, In e es /\ (v = ea e \/ v = eb e).
Proof. intros. split; [apply create_graph_wf|]. split; [reflexivity|]. apply compute_vertices_In. Qed.
Print Assumptions C19_create_graph_wf.
Theorem C19_add_edge_wf : forall (V : Type) (H : OrdKey V) (e : edge V) (g : graph V),
  wf_graph g -> wf_graph (add_edge e g) /\ g_edges (add_edge e g) = g_edges g ++ [e].
Proof. intros. split; [apply add_edge_wf; assumption|reflexivity]. Qed.
Print Assumptions C19_add_edge_wf.

(* an edge whose end is not a vertex of the graph fails an assertion *)
Theorem C19_missing_vertex : forall (V : Type) (H : OrdKey V)
    (sort : list (edge V) -> list (edge V)) (g : graph V), sort_contract sort ->
  (exists e, In e (g_edges g) /\ (~ In (ea e) (g_vertices g) \/ ~ In (eb e) (g_vertices g))) ->
  minimum_spanning_forest sort g = Abort.
Proof. exact @kruskal_missing_vertex. Qed.
Print Assumptions C19_missing_vertex.

(* two components, parallel edges, a self loop and a tie *)
Definition ex_edges : list (edge nat) :=
  [Edge 1 2 5 0; Edge 2 3 1 1; Edge 1 3 5 2; Edge 2 1 2 3; Edge 4 4 0 4; Edge 4 5 7 5].
Definition ends {V} (es : list (edge V)) := map (fun e => (ea e, eb e, ecost e)) es.
Example C19_ex : sort_contract (@sort_edges nat _) /\ wf_graph (create_graph ex_edges) /\
  match minimum_spanning_forest sort_edges (create_graph ex_edges) with
  | Ok out => ends (g_edges out) = [(2, 3, 1%Z); (2, 1, 2%Z); (4, 5, 7%Z)] /\ g_vertices out = [1; 2; 3; 4; 5]
  | _ => False
  end /\
  match maximum_spanning_forest sort_edges (create_graph ex_edges) with
  | Ok out => ends (g_edges out) = [(4, 5, 7%Z); (1, 2, 5%Z); (1, 3, 5%Z)]
  | _ => False
  end.
Proof. split; [apply sort_edges_contract|]. split; [apply create_graph_wf|]. vm_compute. auto. Qed.

(* ---- C20 ---- *)
Theorem C20_maximum_spanning_tree : forall (V : Type) (H : OrdKey V)
    (pop : list (edge V) -> option (edge V * list (edge V))) (g : graph V),
  pop_contract pop -> wf_graph g -> no_self_loops g -> connected g ->
  (Z.of_nat (length (g_vertices g)) <= 2 ^ 64)%Z -> g_edges g <> [] ->
  exists out, maximum_spanning_tree pop g = Some (Ok out) /\
    edges_of (g_edges out) (g_edges g) /\ spanning_forest_of (g_edges out) (g_edges g) /\
    g_vertices out = g_vertices g /\
    (forall F, forest F -> edges_of F (g_edges g) ->
       forall t, length (from t F) <= length (from t (g_edges out))) /\
    (forall F, edges_of F (g_edges g) -> spanning_forest_of F (g_edges g) ->
       (total_cost F <= total_cost (g_edges out))%Z).
Proof. exact @prim_connected. Qed.
Print Assumptions C20_maximum_spanning_tree.

Theorem C20_minimum_spanning_tree : forall (V : Type) (H : OrdKey V)
    (pop : list (edge V) -> option (edge V * list (edge V))) (g : graph V),
  pop_contract pop -> wf_graph g -> no_self_loops g -> connected g ->
  (Z.of_nat (length (g_vertices g)) <= 2 ^ 64)%Z -> g_edges g <> [] ->
  exists out, minimum_spanning_tree pop g = Some (Ok out) /\
    edges_of (g_edges out) (g_edges g) /\ spanning_forest_of (g_edges out) (g_edges g) /\
    g_vertices out = g_vertices g /\
    (forall F, forest F -> edges_of F (g_edges g) ->
       forall t, length (up_to t F) <= length (up_to t (g_edges out))) /\
    (forall F, edges_of F (g_edges g) -> spanning_forest_of F (g_edges g) ->
       (total_cost (g_edges out) <= total_cost F)%Z).
Proof. exact @prim_min_connected. Qed.
Print Assumptions C20_minimum_spanning_tree.

(* on any graph without self loops: the tree of the component of a most
   expensive edge *)
Theorem C20_component : forall (V : Type) (H : OrdKey V)
    (pop : list (edge V) -> option (edge V * list (edge V))) (g : graph V),
  pop_contract pop -> wf_graph g -> no_self_loops g ->
  (Z.of_nat (length (g_vertices g)) <= 2 ^ 64)%Z -> g_edges g <> [] ->
  exists out s m, maximum_spanning_tree pop g = Some (Ok out) /\
    In m (g_edges g) /\ ea m = s /\ (forall e, In e (g_edges g) -> (ecost e <= ecost m)%Z) /\
    edges_of (g_edges out) (g_edges g) /\ forest (g_edges out) /\
    (forall v, In v (g_vertices out) <-> conn (g_edges g) s v) /\
    (forall v, conn (g_edges g) s v <-> conn (g_edges out) s v) /\
    (forall F, edges_of F (g_edges g) -> forest F -> (forall v, conn (g_edges g) s v <-> conn F s v) ->
       (forall e, In e F -> conn (g_edges g) s (ea e)) -> (total_cost F <= total_cost (g_edges out))%Z).
Proof. exact @prim_component. Qed.
Print Assumptions C20_component.

Theorem C20_empty : forall (V : Type) (H : OrdKey V)
    (pop : list (edge V) -> option (edge V * list (edge V))) (vs : list V),
  maximum_spanning_tree pop (Graph [] vs) = Some (Ok (Graph [] [])).
Proof. reflexivity. Qed.
Print Assumptions C20_empty.

Definition ex_connected : list (edge nat) :=
  [Edge 1 2 5 0; Edge 2 3 1 1; Edge 1 3 5 2; Edge 2 1 2 3; Edge 3 4 7 4; Edge 4 1 6 5].
Example C20_ex : pop_contract (@pop_edge nat _) /\ wf_graph (create_graph ex_connected) /\
  no_self_loops (create_graph ex_connected) /\ connected (create_graph ex_connected) /\
  match maximum_spanning_tree pop_edge (create_graph ex_connected) with
  | Some (Ok out) => ends (g_edges out) = [(3, 4, 7%Z); (4, 1, 6%Z); (1, 2, 5%Z)]
  | _ => False
  end /\
  match minimum_spanning_tree pop_edge (create_graph ex_connected) with
  | Some (Ok out) => ends (g_edges out) = [(2, 3, 1%Z); (2, 1, 2%Z); (1, 4, 6%Z)]
  | _ => False
  end.
Proof.
  split; [apply pop_edge_contract|]. split; [apply create_graph_wf|]. split.
  { intros e Hi. cbn in Hi. repeat (destruct Hi as [<-|Hi]; [discriminate|]). destruct Hi. }
  split; [|vm_compute; auto].
  assert (forall v, In v [1; 2; 3; 4] -> conn ex_connected 1 v) as H1.
  { assert (conn ex_connected 1 2) by (apply (conn_edge ex_connected (Edge 1 2 5 0)); cbn; auto).
    assert (conn ex_connected 1 3) by (apply (conn_edge ex_connected (Edge 1 3 5 2)); cbn; auto).
    assert (conn ex_connected 4 1) by (apply (conn_edge ex_connected (Edge 4 1 6 5)); cbn; auto 10).
    intros v [<-|[<-|[<-|[<-|[]]]]]; auto using conn_refl, conn_sym. }
  intros u v Hu Hv. eapply conn_trans; [apply conn_sym|]; apply H1; assumption.
Qed.

(* With a self loop as the most expensive edge, the result is not a spanning
   tree: the self loop is taken and a vertex is left out. *)
Theorem C20_self_loop_refuted : exists (g : graph nat) out,
  wf_graph g /\ connected g /\ maximum_spanning_tree pop_edge g = Some (Ok out) /\
  ~ forest (g_edges out) /\ exists v, In v (g_vertices g) /\ ~ In v (g_vertices out).
Proof.
  exists (create_graph [Edge 1 1 9 0; Edge 1 2 5 1]), (Graph [Edge 1 1 9 0] [1]).
  split; [apply create_graph_wf|]. split.
  { assert (conn [Edge 1 1 9 0; Edge 1 2 5 1] 1 2) as H12
      by (apply (conn_edge [Edge 1 1 9 0; Edge 1 2 5 1] (Edge 1 2 5 1)); cbn; auto).
    intros u v [<-|[<-|[]]] [<-|[<-|[]]]; auto using conn_refl, conn_sym. }
  split; [vm_compute; reflexivity|]. split.
  - intros Hf. apply (Hf [] (Edge 1 1 9 0) [] eq_refl). apply conn_refl.
  - exists 2. split; [vm_compute; auto|]. cbn. intros [E|[]]. discriminate.
Qed.
Print Assumptions C20_self_loop_refuted.

(* On a disconnected graph "maximum spanning tree" covers one component only. *)
Theorem C20_disconnected_refuted : exists (g : graph nat) out,
  wf_graph g /\ no_self_loops g /\ maximum_spanning_tree pop_edge g = Some (Ok out) /\
  ~ spanning_forest_of (g_edges out) (g_edges g).
Proof.
  exists (create_graph [Edge 1 2 9 0; Edge 3 4 5 1]), (Graph [Edge 1 2 9 0] [1; 2]).
  split; [apply create_graph_wf|]. split.
  { intros e [<-|[<-|[]]]; discriminate. }
  split; [vm_compute; reflexivity|]. intros [_ Hs].
  assert (conn [Edge 1 2 9 0; Edge 3 4 5 1] 3 4) as H34
    by (apply (conn_edge [Edge 1 2 9 0; Edge 3 4 5 1] (Edge 3 4 5 1)); cbn; auto).
  apply Hs in H34. apply conn_isolated in H34; [discriminate|].
  intros e [<-|[]]. cbn. split; discriminate.
Qed.
Print Assumptions C20_disconnected_refuted.

(* Proofs for C19: what Kruskal's algorithm returns depends neither on the order of
   the edges of the graph nor on how std::sort orders equivalent edges. *)
From Verif Require Import Base StdMapModel StdMapProofs MstModel MstSpec MstGraph MstProofs MstProps.

(* the same edges (up to identity) and the same vertices *)
Definition same_graph {V} (g g' : graph V) : Prop :=
  ends (g_edges g) = ends (g_edges g') /\ g_vertices g = g_vertices g'.

(* the same outcome *)
Definition same_outcome {V} (x y : outcome (graph V)) : Prop :=
  match x, y with
  | Ok g, Ok g' => same_graph g g'
  | Throw, Throw => True
  | Abort, Abort => True
  | UB, UB => True
  | _, _ => False
  end.

Section Order.
Context {V : Type} `{OrdKey V}.

Definition label (e : edge V) : V * V * Z := (ea e, eb e, ecost e).

Lemma label_ltb (x x' y y' : edge V) : label x = label x' -> label y = label y' -> edge_ltb x y = edge_ltb x' y'.
Proof. unfold label, edge_ltb. intros Hx Hy. injection Hx as -> -> ->. injection Hy as -> -> ->. reflexivity. Qed.

Lemma edge_le_antisym (x y : edge V) : edge_ltb x y = false -> edge_ltb y x = false -> label x = label y.
Proof.
  intros Hx Hy. destruct (proj2 (C19_edge_order x y) Hx Hy) as [Ec [Ea Eb]]. unfold label. congruence.
Qed.

Lemma sorted_head (x : edge V) l (z : V * V * Z) : StronglySorted (fun x y => edge_ltb y x = false) (x :: l) ->
  In z (map label (x :: l)) -> exists e, label e = z /\ edge_ltb e x = false.
Proof.
  intros Hs Hz. apply in_map_iff in Hz as [e [<- He]]. exists e. split; [reflexivity|].
  inversion Hs as [|? ? _ Hf]; subst. destruct He as [<-|He]; [apply edge_le_iff; tauto|].
  rewrite Forall_forall in Hf. apply Hf, He.
Qed.

Lemma sorted_labels (l : list (edge V)) : forall l',
  StronglySorted (fun x y => edge_ltb y x = false) l -> StronglySorted (fun x y => edge_ltb y x = false) l' ->
  Permutation (map label l) (map label l') -> map label l = map label l'.
Proof.
  induction l as [|x l IH]; intros l' Hs Hs' Hp.
  - apply Permutation_nil in Hp. rewrite Hp. reflexivity.
  - destruct l' as [|y l']; [apply Permutation_sym, Permutation_nil in Hp; discriminate|].
    assert (Hxy : label x = label y).
    { destruct (sorted_head y l' (label x) Hs') as [e [He1 He2]].
      { apply (Permutation_in _ Hp). left; reflexivity. }
      destruct (sorted_head x l (label y) Hs) as [f [Hf1 Hf2]].
      { apply (Permutation_in _ (Permutation_sym Hp)). left; reflexivity. }
      apply edge_le_antisym.
      - rewrite <- (label_ltb e x y y He1 eq_refl). exact He2.
      - rewrite <- (label_ltb f y x x Hf1 eq_refl). exact Hf2. }
    cbn [map] in *. rewrite Hxy in *. f_equal. apply IH.
    + inversion Hs; assumption.
    + inversion Hs'; assumption.
    + eapply Permutation_cons_inv, Hp.
Qed.

Lemma kruskal_labels (l : list (edge V)) : forall l' vts (o o' : graph V),
  map label l = map label l' -> same_graph o o' ->
  same_outcome (st <- foldM kruskal_step l (vts, o) ;; Ok (snd st)) (st <- foldM kruskal_step l' (vts, o') ;; Ok (snd st)).
Proof.
  induction l as [|x l IH]; intros [|y l'] vts o o' Hl Ho; try discriminate; [exact Ho|].
  cbn [map] in Hl. injection Hl as Ea Eb Ec Hl. cbn [foldM]. unfold kruskal_step at 1 3. rewrite Ea, Eb.
  destruct (find_tree vts (ea y)) as [ta| | |]; try exact I. cbn [bind].
  destruct (find_tree vts (eb y)) as [tb| | |]; try exact I. cbn [bind].
  destruct (ta =? tb); cbn [bind]; apply IH; auto.
  destruct Ho as [He Hv]. split.
  - unfold add_edge, ends in *. cbn [g_edges]. rewrite !map_app, He. cbn [map]. congruence.
  - unfold add_edge. cbn [g_vertices]. congruence.
Qed.

Lemma forest_order_irrelevant sort sort' (g g' : graph V) : sort_contract sort -> sort_contract sort' ->
  g_vertices g = g_vertices g' -> Permutation (ends (g_edges g)) (ends (g_edges g')) ->
  same_outcome (minimum_spanning_forest sort g) (minimum_spanning_forest sort' g').
Proof.
  intros Hs Hs' Hv Hp. destruct (Hs (g_edges g)) as [P1 S1]. destruct (Hs' (g_edges g')) as [P2 S2].
  assert (Hl : map label (sort (g_edges g)) = map label (sort' (g_edges g'))).
  { apply sorted_labels; auto. eapply Permutation_trans; [apply Permutation_map, P1|].
    eapply Permutation_trans; [exact Hp|]. apply Permutation_map, Permutation_sym, P2. }
  unfold minimum_spanning_forest. rewrite <- Hv.
  assert (Hk := kruskal_labels _ _ (initial_trees (g_vertices g)) empty_graph empty_graph Hl (conj eq_refl eq_refl)).
  destruct (g_edges g) as [|x l], (g_edges g') as [|y l'].
  - split; reflexivity.
  - apply Permutation_nil in Hp. discriminate.
  - apply Permutation_sym, Permutation_nil in Hp. discriminate.
  - exact Hk.
Qed.

Lemma ends_negate (l : list (edge V)) :
  ends (map negate_cost l) = map (fun t : V * V * Z => (fst t, (- snd t)%Z)) (ends l).
Proof. unfold ends. rewrite !map_map. reflexivity. Qed.

Lemma max_forest_order_irrelevant sort sort' (g g' : graph V) : sort_contract sort -> sort_contract sort' ->
  g_vertices g = g_vertices g' -> Permutation (ends (g_edges g)) (ends (g_edges g')) ->
  same_outcome (maximum_spanning_forest sort g) (maximum_spanning_forest sort' g').
Proof.
  intros Hs Hs' Hv Hp. unfold maximum_spanning_forest.
  assert (Hk : same_outcome (minimum_spanning_forest sort (negate_costs g)) (minimum_spanning_forest sort' (negate_costs g'))).
  { apply forest_order_irrelevant; auto. cbn [negate_costs g_edges]. rewrite !ends_negate. apply Permutation_map, Hp. }
  destruct (minimum_spanning_forest sort (negate_costs g)) as [o| | |],
           (minimum_spanning_forest sort' (negate_costs g')) as [o'| | |]; try exact Hk.
  destruct Hk as [He Hw]. split; [|exact Hw]. cbn [negate_costs g_edges]. rewrite !ends_negate, He. reflexivity.
Qed.

Lemma kruskal_subsequence (R : edge V -> edge V -> Prop) l : forall vts (o : graph V) st,
  foldM kruskal_step l (vts, o) = Ok st -> StronglySorted R l -> StronglySorted R (g_edges o) ->
  (forall x y, In x (g_edges o) -> In y l -> R x y) -> StronglySorted R (g_edges (snd st)).
Proof.
  induction l as [|e l IH]; intros vts o st Hst Hl Ho Hc; cbn [foldM] in Hst.
  - injection Hst as <-. exact Ho.
  - inversion Hl as [|? ? Hl' Hf]; subst. rewrite Forall_forall in Hf. unfold kruskal_step at 1 in Hst.
    destruct (find_tree vts (ea e)) as [ta| | |]; try discriminate. cbn [bind] in Hst.
    destruct (find_tree vts (eb e)) as [tb| | |]; try discriminate. cbn [bind] in Hst.
    destruct (ta =? tb); cbn [bind] in Hst.
    + apply (IH _ _ _ Hst Hl' Ho). intros x y Hx Hy. apply Hc; [exact Hx|right; exact Hy].
    + apply (IH _ _ _ Hst Hl').
      * unfold add_edge. cbn [g_edges]. clear -Ho Hc. induction (g_edges o) as [|z es IHe]; [repeat constructor|].
        inversion Ho as [|? ? Ho' Hfo]; subst. cbn [app]. constructor.
        -- apply IHe; auto. intros x y Hx. apply Hc. right; exact Hx.
        -- apply Forall_app. split; [exact Hfo|]. constructor; [|constructor]. apply Hc; left; reflexivity.
      * unfold add_edge. cbn [g_edges]. intros x y Hx Hy. apply in_app_iff in Hx as [Hx|[<-|[]]].
        -- apply Hc; [exact Hx|right; exact Hy].
        -- apply Hf, Hy.
Qed.

Lemma forest_sorted sort (g out : graph V) : sort_contract sort -> minimum_spanning_forest sort g = Ok out ->
  StronglySorted (fun x y => edge_ltb y x = false) (g_edges out).
Proof.
  intros Hs. unfold minimum_spanning_forest. destruct (g_edges g) as [|x l] eqn:E.
  - injection 1 as <-. constructor.
  - rewrite <- E. destruct (foldM kruskal_step _ _) as [st| | |] eqn:F; try discriminate.
    injection 1 as <-. eapply kruskal_subsequence; [exact F|apply (proj2 (Hs _))|constructor|intros ? ? []].
Qed.
End Order.

(* Property C19 of properties.jsonl: the order of the edges of a graph does not matter. *)
From Verif Require Import Base StdMapModel StdMapProofs MstModel MstSpec MstGraph MstProofs MstProps MstOrder.

(* first x then y, by the first and then by the second vertex *)
Definition vertices_le {V} `{OrdKey V} (x y : edge V) : Prop :=
  klt (ea x) (ea y) \/ (ea x = ea y /\ (klt (eb x) (eb y) \/ eb x = eb y)).

Lemma sorted_impl {A} (R S : A -> A -> Prop) l : (forall x y, R x y -> S x y) -> StronglySorted R l -> StronglySorted S l.
Proof. intros Hrs. induction 1; constructor; auto. eapply Forall_impl; [|eassumption]. auto. Qed.

Lemma sorted_map {A B} (f : A -> B) (R : B -> B -> Prop) l :
  StronglySorted (fun x y => R (f x) (f y)) l -> StronglySorted R (map f l).
Proof. induction 1; cbn; constructor; auto. apply Forall_map. assumption. Qed.

(* the same edges in any order, sorted in any way that respects operator<, give the
   same forest, edge by edge, or the same failure *)
Theorem C19_order_irrelevant : forall (V : Type) (H : OrdKey V)
    (sort sort' : list (edge V) -> list (edge V)) (g g' : graph V),
  sort_contract sort -> sort_contract sort' ->
  g_vertices g = g_vertices g' -> Permutation (ends (g_edges g)) (ends (g_edges g')) ->
  same_outcome (minimum_spanning_forest sort g) (minimum_spanning_forest sort' g') /\
  same_outcome (maximum_spanning_forest sort g) (maximum_spanning_forest sort' g').
Proof. intros. split; [apply forest_order_irrelevant|apply max_forest_order_irrelevant]; assumption. Qed.
Print Assumptions C19_order_irrelevant.

(* the edges come cheapest first (dearest first for the maximum), ties by the vertices *)
Theorem C19_forest_sorted : forall (V : Type) (H : OrdKey V)
    (sort : list (edge V) -> list (edge V)) (g out : graph V), sort_contract sort ->
  (minimum_spanning_forest sort g = Ok out ->
   StronglySorted (fun x y => (ecost x < ecost y)%Z \/ (ecost x = ecost y /\ vertices_le x y)) (g_edges out)) /\
  (maximum_spanning_forest sort g = Ok out ->
   StronglySorted (fun x y => (ecost x > ecost y)%Z \/ (ecost x = ecost y /\ vertices_le x y)) (g_edges out)).
Proof.
  intros V H sort g out Hs. split; intros Hm.
  - eapply sorted_impl; [|exact (forest_sorted sort g out Hs Hm)]. intros x y Hxy. apply edge_le_iff, Hxy.
  - unfold maximum_spanning_forest in Hm. destruct (minimum_spanning_forest sort (negate_costs g)) as [o| | |] eqn:E; try discriminate.
    injection Hm as <-. cbn [negate_costs g_edges]. apply sorted_map.
    eapply sorted_impl; [|exact (forest_sorted sort _ o Hs E)]. intros x y Hxy. apply edge_le_iff in Hxy.
    unfold vertices_le, negate_cost. cbn. destruct Hxy as [Hc|[Hc Hv]]; [left; lia|right; split; [lia|exact Hv]].
Qed.
Print Assumptions C19_forest_sorted.

(* a graph, its edges reversed, and a sort that is not stable *)
Definition sort_reversed (es : list (edge nat)) := sort_edges (rev es).
Lemma sort_reversed_contract : sort_contract sort_reversed.
Proof.
  intros es. destruct (sort_edges_contract (rev es)) as [Hp Hs]. split; [|exact Hs].
  eapply Permutation_trans; [exact Hp|apply Permutation_sym, Permutation_rev].
Qed.
Definition tied_edges : list (edge nat) :=
  [Edge 1 2 5 0; Edge 1 2 5 1; Edge 2 3 5 2; Edge 1 3 5 3; Edge 3 4 1 4].
Example C19_order_irrelevant_meets :
  sort_contract sort_reversed /\
  g_vertices (create_graph tied_edges) = g_vertices (create_graph (rev tied_edges)) /\
  Permutation (ends (g_edges (create_graph tied_edges))) (ends (g_edges (create_graph (rev tied_edges)))) /\
  match minimum_spanning_forest sort_edges (create_graph tied_edges),
        minimum_spanning_forest sort_reversed (create_graph tied_edges) with
  | Ok out, Ok out' => ends (g_edges out) = [(3, 4, 1%Z); (1, 2, 5%Z); (1, 3, 5%Z)] /\
                       map eid (g_edges out) <> map eid (g_edges out')
  | _, _ => False
  end.
Proof.
  split; [exact sort_reversed_contract|]. split; [reflexivity|]. split.
  - cbn [create_graph g_edges]. unfold ends. apply Permutation_map, Permutation_rev.
  - vm_compute. split; [reflexivity|discriminate].
Qed.

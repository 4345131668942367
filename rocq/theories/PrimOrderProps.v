(* Property C20 of properties.jsonl: the order of the edges of a graph does not matter. *)
From Verif Require Import Base StdMapModel StdMapProofs MstModel MstSpec MstGraph MstProofs PrimProofs MstProps MstOrder PrimOrder.

(* the same edges in any order, with any priority queue that respects operator<, give
   the same tree, edge by edge, or the same failure; self loops and several components
   included *)
Theorem C20_order_irrelevant : forall (V : Type) (H : OrdKey V)
    (pop pop' : list (edge V) -> option (edge V * list (edge V))) (g g' : graph V) r r',
  pop_contract pop -> pop_contract pop' ->
  g_vertices g = g_vertices g' -> Permutation (ends (g_edges g)) (ends (g_edges g')) ->
  (maximum_spanning_tree pop g = Some r -> maximum_spanning_tree pop' g' = Some r' -> same_outcome r r') /\
  (minimum_spanning_tree pop g = Some r -> minimum_spanning_tree pop' g' = Some r' -> same_outcome r r').
Proof.
  intros V H pop pop' g g' r r' Hp Hp' Hv Hg. split.
  - apply (tree_order_irrelevant pop pop' Hp Hp' g g' r r' Hv Hg).
  - apply (min_tree_order_irrelevant pop pop' g g' r r' Hp Hp' Hv Hg).
Qed.
Print Assumptions C20_order_irrelevant.

(* a queue that returns the last of several equivalent edges *)
Definition pop_reversed (q : list (edge nat)) := pop_edge (rev q).
Lemma pop_reversed_contract : pop_contract pop_reversed.
Proof.
  intros q. unfold pop_reversed. pose proof (pop_edge_contract (rev q)) as Hc.
  destruct (pop_edge (rev q)) as [[e q']|].
  - destruct Hc as [Hp Hm]. split.
    + eapply Permutation_trans; [apply Permutation_rev|exact Hp].
    + intros f Hf. apply Hm. apply in_rev in Hf. exact Hf.
  - apply (f_equal (@rev _)) in Hc. rewrite rev_involutive in Hc. exact Hc.
Qed.
Definition tied_tree : list (edge nat) :=
  [Edge 1 2 5 0; Edge 1 2 5 1; Edge 2 3 5 2; Edge 1 3 5 3; Edge 3 4 1 4; Edge 4 4 0 5].
Example C20_order_irrelevant_meets :
  pop_contract (@pop_edge nat _) /\ pop_contract pop_reversed /\
  g_vertices (create_graph tied_tree) = g_vertices (create_graph (rev tied_tree)) /\
  Permutation (ends (g_edges (create_graph tied_tree))) (ends (g_edges (create_graph (rev tied_tree)))) /\
  match maximum_spanning_tree pop_edge (create_graph tied_tree),
        maximum_spanning_tree pop_reversed (create_graph tied_tree),
        maximum_spanning_tree pop_edge (create_graph (rev tied_tree)) with
  | Some (Ok out), Some (Ok out'), Some (Ok out'') =>
      ends (g_edges out) = [(2, 3, 5%Z); (3, 1, 5%Z); (3, 4, 1%Z)] /\
      ends (g_edges out') = ends (g_edges out) /\ ends (g_edges out'') = ends (g_edges out)
  | _, _, _ => False
  end.
Proof.
  split; [apply pop_edge_contract|]. split; [exact pop_reversed_contract|]. split; [reflexivity|]. split.
  - cbn [create_graph g_edges]. unfold ends. apply Permutation_map, Permutation_rev.
  - vm_compute. split; [reflexivity|split; reflexivity].
Qed.

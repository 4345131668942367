(* Vocabulary for C19 and C20: connectivity, forests, cost. *)
From Verif Require Import Base StdMapModel MstModel.
From Coq Require Export Relations Permutation.

Section Spec.
Context {V : Type} `{OrdKey V}.

(* the edges es connect u and v (in any direction, through any path) *)
Definition joined (es : list (edge V)) (u v : V) : Prop :=
  exists e, In e es /\ ea e = u /\ eb e = v.
Definition conn (es : list (edge V)) : V -> V -> Prop := clos_refl_sym_trans V (joined es).

(* no cycle: the endpoints of an edge are not connected by the other edges *)
Definition forest (es : list (edge V)) : Prop :=
  forall l1 e l2, es = l1 ++ e :: l2 -> ~ conn (l1 ++ l2) (ea e) (eb e).

(* a forest connecting what es connects *)
Definition spanning_forest_of (out es : list (edge V)) : Prop :=
  forest out /\ forall u v, conn es u v <-> conn out u v.

(* each edge of es is an edge of es', possibly with its ends exchanged *)
Definition edges_of (es es' : list (edge V)) : Prop :=
  forall e, In e es -> In e es' \/ In (flip e) es'.

Definition total_cost (es : list (edge V)) : Z := fold_right Z.add 0%Z (map ecost es).

Definition up_to (t : Z) (es : list (edge V)) := filter (fun e => ecost e <=? t)%Z es.
Definition from (t : Z) (es : list (edge V)) := filter (fun e => t <=? ecost e)%Z es.

(* the invariant of graphs built by create_graph and add_edge *)
Definition wf_graph (g : graph V) : Prop :=
  StronglySorted klt (g_vertices g) /\
  forall e, In e (g_edges g) -> In (ea e) (g_vertices g) /\ In (eb e) (g_vertices g).

Definition no_self_loops (g : graph V) : Prop := forall e, In e (g_edges g) -> ea e <> eb e.
Definition connected (g : graph V) : Prop :=
  forall u v, In u (g_vertices g) -> In v (g_vertices g) -> conn (g_edges g) u v.

(* std::sort, std::priority_queue *)
Definition sort_contract (sort : list (edge V) -> list (edge V)) : Prop :=
  forall es, Permutation (sort es) es /\ StronglySorted (fun x y => edge_ltb y x = false) (sort es).
Definition pop_contract (pop : list (edge V) -> option (edge V * list (edge V))) : Prop :=
  forall q, match pop q with
            | None => q = []
            | Some (e, q') => Permutation q (e :: q') /\ forall e', In e' q -> edge_ltb e e' = false
            end.
End Spec.

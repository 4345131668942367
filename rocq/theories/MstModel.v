(* Model of graph/minimum_spanning_tree.hpp. Costs are finite doubles, which are
   integer multiples of 2^-1074: they are modelled by Z (only comparisons,
   negation and, in the specification, exact sums are used). *)
From Verif Require Import Base StdMapModel RandomModel.

Section Mst.
Context {V : Type} `{OrdKey V}.

(* Edge, graph/minimum_spanning_tree.hpp:18-38 *)
Record edge := Edge { ea : V; eb : V; ecost : Z; eid : nat }.

(* Edge::operator<, graph/minimum_spanning_tree.hpp:22-25 *)
Definition edge_ltb (x y : edge) : bool :=
  match kcmp (ecost x) (ecost y) with
  | Lt => true
  | Gt => false
  | Eq => match kcmp (ea x) (ea y) with
          | Lt => true
          | Gt => false
          | Eq => kltb (eb x) (eb y)
          end
  end.

(* compute_vertices, graph/minimum_spanning_tree.hpp:40-49 *)
Definition compute_vertices (edges : list edge) : list V :=
  fold_left (fun vs e => sinsert (eb e) (sinsert (ea e) vs)) edges [].

(* Graph, graph/minimum_spanning_tree.hpp:51-54 *)
Record graph := Graph { g_edges : list edge; g_vertices : list V }.
Definition empty_graph : graph := Graph [] [].

(* create_graph, graph/minimum_spanning_tree.hpp:56-62 *)
Definition create_graph (edges : list edge) : graph := Graph edges (compute_vertices edges).

(* add_edge, graph/minimum_spanning_tree.hpp:64-69 *)
Definition add_edge (e : edge) (g : graph) : graph :=
  Graph (g_edges g ++ [e]) (sinsert (eb e) (sinsert (ea e) (g_vertices g))).

(* contains_vertex, graph/minimum_spanning_tree.hpp:71-74 *)
Definition contains_vertex (g : graph) (v : V) : bool := smem v (g_vertices g).

Definition flip (e : edge) : edge := Edge (eb e) (ea e) (ecost e) (eid e).

(* construct_or_push, graph/minimum_spanning_tree.hpp:81-89 *)
Definition construct_or_push (output : smap V (list edge)) (key : V) (e : edge)
  : smap V (list edge) :=
  match mfind key output with
  | None => massign key [e] output
  | Some es => massign key (es ++ [e]) output
  end.

(* adjacency_map, graph/minimum_spanning_tree.hpp:76-98 *)
Definition adjacency_map (g : graph) : smap V (list edge) :=
  fold_left (fun m e => construct_or_push (construct_or_push m (ea e) e) (eb e) (flip e))
            (g_edges g) [].

(* std::max_element: the first of the largest *)
Definition max_element (first : edge) (rest : list edge) : edge :=
  fold_left (fun best e => if edge_ltb best e then e else best) rest first.

(* The priority queue of maximum_spanning_tree is a bag of edges; [pop] is
   top() followed by pop(). Which of several equivalent largest edges comes first is
   not specified: see pop_contract in MstSpec. *)
Variable pop : list edge -> option (edge * list edge).

(* The while loop, graph/minimum_spanning_tree.hpp:142-157; None: not finished
   after fuel iterations. *)
Fixpoint prim_loop (fuel : nat) (adjacency : smap V (list edge)) (maximum_required_edges : Z)
    (queue : list edge) (output : graph) : option (outcome graph) :=
  match fuel with
  | 0 => None
  | S fuel' =>
      match pop queue with
      | None => Some (Ok output)
      | Some (next_edge, queue') =>
          if (Z.of_nat (length (g_edges output)) <? maximum_required_edges)%Z then
            if contains_vertex output (eb next_edge) then
              prim_loop fuel' adjacency maximum_required_edges queue' output
            else
              let output' := add_edge next_edge output in
              match mfind (eb next_edge) adjacency with
              | None => Some Throw
              | Some es =>
                  prim_loop fuel' adjacency maximum_required_edges
                    (queue' ++ filter (fun e => negb (contains_vertex output' (eb e))) es) output'
              end
          else Some (Ok output)
      end
  end.

(* maximum_spanning_tree, graph/minimum_spanning_tree.hpp:120-159. The fuel is the
   number of edges that can ever be queued, plus one. *)
Definition maximum_spanning_tree (g : graph) : option (outcome graph) :=
  let adjacency := adjacency_map g in
  match g_edges g with
  | [] => Some (Ok empty_graph)
  | e0 :: es0 =>
      let first_edge := max_element e0 es0 in
      match mfind (ea first_edge) adjacency with
      | None => Some Throw
      | Some es =>
          let queue := filter (fun e => negb (contains_vertex empty_graph (eb e))) es in
          prim_loop (S (length queue + list_sum (map (fun kv => length (snd kv)) adjacency)))
            adjacency (wrap64 (Z.of_nat (length (g_vertices g)) - 1)) queue empty_graph
      end
  end.

Definition negate_cost (e : edge) : edge := Edge (ea e) (eb e) (- ecost e) (eid e).
Definition negate_costs (g : graph) : graph := Graph (map negate_cost (g_edges g)) (g_vertices g).

(* minimum_spanning_tree, graph/minimum_spanning_tree.hpp:241-253 *)
Definition minimum_spanning_tree (g : graph) : option (outcome graph) :=
  option_map (fun r => out <- r ;; Ok (negate_costs out)) (maximum_spanning_tree (negate_costs g)).

(* std::sort on edges; see sort_contract in MstSpec. *)
Variable sort : list edge -> list edge.

(* KruskalAlgoRunner's constructor, graph/minimum_spanning_tree.hpp:177-185: the
   vertices with their tree ids. *)
Definition initial_trees (vs : list V) : list (V * nat) := combine vs (seq 0 (length vs)).

(* find_vertex_or_assert, graph/minimum_spanning_tree.hpp:208-213 *)
Fixpoint find_tree (vts : list (V * nat)) (x : V) : outcome nat :=
  match vts with
  | [] => Abort
  | (v, t) :: vts' => if keqb v x then Ok t else find_tree vts' x
  end.

(* merge_trees, graph/minimum_spanning_tree.hpp:215-221 *)
Definition merge_trees (old_tree new_tree : nat) (vts : list (V * nat)) : list (V * nat) :=
  map (fun vt => if snd vt =? old_tree then (fst vt, new_tree) else vt) vts.

(* one iteration of KruskalAlgoRunner::run, graph/minimum_spanning_tree.hpp:189-196 *)
Definition kruskal_step (st : list (V * nat) * graph) (e : edge)
  : outcome (list (V * nat) * graph) :=
  let (vts, output) := st in
  ta <- find_tree vts (ea e) ;;
  tb <- find_tree vts (eb e) ;;
  if ta =? tb then Ok (vts, output)
  else Ok (merge_trees ta tb vts, add_edge e output).

(* minimum_spanning_forest, graph/minimum_spanning_tree.hpp:187-198, 227-235 *)
Definition minimum_spanning_forest (g : graph) : outcome graph :=
  match g_edges g with
  | [] => Ok empty_graph
  | _ => st <- foldM kruskal_step (sort (g_edges g)) (initial_trees (g_vertices g), empty_graph) ;;
         Ok (snd st)
  end.

(* maximum_spanning_forest, graph/minimum_spanning_tree.hpp:255-267 *)
Definition maximum_spanning_forest (g : graph) : outcome graph :=
  out <- minimum_spanning_forest (negate_costs g) ;; Ok (negate_costs out).
End Mst.
Arguments edge : clear implicits.
Arguments graph : clear implicits.

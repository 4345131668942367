(* The columns of a feature in CSV output: utils/csv_utils.hpp:63-119. The XML document that cereal writes for a feature and
   rapidxml parses is the input of this model: cereal and rapidxml are external. *)
From Coq Require Import String.
From Verif Require Import Base StdMapModel StringKeyModel.

(* rapidxml::xml_node: type() == node_element, name(), value() and the children in the order of next_sibling() *)
Inductive xml_node := Node (is_element : bool) (name value : string) (children : list xml_node).
Definition node_is_element (n : xml_node) : bool := let 'Node b _ _ _ := n in b.
Definition node_children (n : xml_node) : list xml_node := let 'Node _ _ _ cs := n in cs.

(* value.size() > 0 *)
Definition nonempty (s : string) : bool := match s with EmptyString => false | _ => true end.
(* csv_utils.hpp:80-83 *)
Definition joined_name (prepend_parent : bool) (name key : string) : string :=
  if prepend_parent then (name ++ "." ++ key)%string else key.
(* flatten_xml_serialization, csv_utils.hpp:67-91 *)
Fixpoint flatten_xml_serialization (prepend_parent : bool) (node : xml_node) : smap string string :=
  match node with
  | Node _ name value children =>
      if nonempty value then massign name value []
      else
        (fix loop (children : list xml_node) (output : smap string string) : smap string string :=
           match children with
           | [] => output
           | child :: rest =>
               loop rest
                 (if node_is_element child
                  then massign_all (map (fun pair => (joined_name prepend_parent name (fst pair), snd pair))
                                        (flatten_xml_serialization true child)) output
                  else output)
           end) children []
  end.
(* to_map(feature), csv_utils.hpp:108-119: doc.first_node()->first_node(); a missing node is a null pointer *)
Definition to_map_document (doc : xml_node) : outcome (smap string string) :=
  match node_children doc with
  | [] => UB
  | archive :: _ => match node_children archive with [] => UB | first_node :: _ => Ok (flatten_xml_serialization false first_node) end
  end.

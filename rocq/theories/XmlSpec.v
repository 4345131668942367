(* The fields of a feature and the names of their columns: vocabulary of C100. *)
From Coq Require Import String Ascii.
From Verif Require Import Base XmlModel.

(* the elements with a value, in document order, each with the names on the way to it *)
Fixpoint leaves (node : xml_node) : list (list string * string) :=
  match node with
  | Node _ name value children =>
      match value with
      | EmptyString =>
          (fix below (children : list xml_node) : list (list string * string) :=
             match children with
             | [] => []
             | Node true _ _ _ as child :: rest => map (fun leaf => (name :: fst leaf, snd leaf)) (leaves child) ++ below rest
             | Node false _ _ _ :: rest => below rest
             end) children
      | _ => [([name], value)]
      end
  end.
(* a field of a feature is in the column named by the way to it, joined with dots, without the name of the feature; a feature
   that is a single value is in a column with its own name *)
Definition column (path : list string) : string :=
  match path with
  | [] => EmptyString
  | [name] => name
  | _ :: below => String.concat "." below
  end.
(* the last of the values written to a column *)
Definition last_written (table : list (list string * string)) (k : string) : option string :=
  fold_left (fun found leaf => if String.eqb (column (fst leaf)) k then Some (snd leaf) else found) table None.

(* no name contains a dot and no two elements below the same one have the same name *)
Fixpoint dot_free (s : string) : bool :=
  match s with EmptyString => true | String c s => negb (Ascii.eqb c ".") && dot_free s end.
Definition element_names (children : list xml_node) : list string :=
  flat_map (fun c => match c with Node true name _ _ => [name] | _ => [] end) children.
Inductive proper : xml_node -> Prop :=
| Proper b name value children : dot_free name = true -> NoDup (element_names children) -> Forall proper children ->
    proper (Node b name value children).

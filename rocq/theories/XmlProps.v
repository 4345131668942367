(* Property C100: the columns of a feature in CSV output. *)
From Coq Require Import String.
From Verif Require Import Base BaseProofs StdMapModel StdMapProofs StringKeyModel DatasetModel CsvModel XmlModel XmlSpec XmlProofs.
Open Scope string_scope.

(* the document of an archive with one feature *)
Definition document (feature : xml_node) (others : list xml_node) : xml_node :=
  Node true "" "" (Node true "cereal" "" (feature :: others) :: nil).
(* a station with a position and a name *)
Definition station (x y name : string) : xml_node :=
  Node true "value0" "" [Node true "position" "" [Node true "x" x []; Node true "y" y []]; Node true "name" name []].

(* For every document the map of a feature has the value of the last element written to each column, and no other columns. *)
Theorem C100_columns : forall feature others, exists m, to_map_document (document feature others) = Ok m /\ wf_map m /\
  forall k, mfind k m = last_written (leaves feature) k.
Proof.
  intros feature others. exists (flatten_xml_serialization false feature). split; [reflexivity|].
  split; [apply flatten_spec|]. intros k. apply flatten_last_written.
Qed.
Print Assumptions C100_columns.
Example C100_columns_meets : leaves (station "1" "2" "a") =
    [(["value0"; "position"; "x"], "1"); (["value0"; "position"; "y"], "2"); (["value0"; "name"], "a")] /\
  to_map_document (document (station "1" "2" "a") []) = Ok [("name", "a"); ("position.x", "1"); ("position.y", "2")].
Proof. split; reflexivity. Qed.

(* When names have no dots and elements next to each other have different names, every element with a value has its own column. *)
Theorem C100_exact : forall feature others, proper feature -> exists m, to_map_document (document feature others) = Ok m /\
  (forall k v, mfind k m = Some v <-> exists path, In (path, v) (leaves feature) /\ column path = k) /\
  forall path path' v v', In (path, v) (leaves feature) -> In (path', v') (leaves feature) -> column path = column path' -> path = path' /\ v = v'.
Proof.
  intros feature others H. exists (flatten_xml_serialization false feature). split; [reflexivity|].
  split; [apply flatten_exact, H|]. intros path path' v v'. apply column_inj, H.
Qed.
Print Assumptions C100_exact.
Example C100_exact_meets : proper (station "1" "2" "a").
Proof.
  repeat match goal with
  | |- proper _ => constructor
  | |- Forall _ _ => constructor
  | |- dot_free _ = true => reflexivity
  | |- NoDup _ => cbn; constructor
  | |- ~ In _ _ => cbn; intuition discriminate
  end.
Qed.

(* The row written for such a feature keeps the columns of the feature that are not called like those of the target and the
   prediction. *)
Theorem C100_row : forall D (to_string : D -> string) feature target target_variance prediction prediction_variance path v,
  proper feature -> In (path, v) (leaves feature) ->
  ~ In (column path) ["target"; "target_variance"; "prediction"; "prediction_variance"] ->
  mfind (column path) (to_map_values (flatten_xml_serialization false) to_string feature target target_variance prediction
    prediction_variance) = Some v.
Proof.
  intros D to_string feature t tv q qv path v Hp Hin Hn. unfold to_map_values.
  pose proof (proj1 (flatten_spec feature false)) as Hw. cbn [In] in Hn.
  repeat (rewrite mfind_massign_neq; [|repeat apply wf_massign; exact Hw|intros E; rewrite E in Hn; tauto]).
  apply flatten_exact; [exact Hp|]. exists path. split; [exact Hin|reflexivity].
Qed.
Print Assumptions C100_row.
Example C100_row_meets : In (["value0"; "position"; "x"], "1") (leaves (station "1" "2" "a")) /\
  ~ In (column ["value0"; "position"; "x"]) ["target"; "target_variance"; "prediction"; "prediction_variance"].
Proof. split; [left; reflexivity|]. cbn. intuition discriminate. Qed.

(* finding: a field that holds an empty string has no column, so that features with the same fields have different columns *)
Theorem C100_empty_refuted : exists x y name, ~ In "name" (mkeys (flatten_xml_serialization false (station x y name))) /\
  In "name" (mkeys (flatten_xml_serialization false (station x y "a"))).
Proof. exists "1", "2", "". split; cbn; intuition discriminate. Qed.
Print Assumptions C100_empty_refuted.
(* finding: fields called a.b and b in a share a column; the first one is lost *)
Theorem C100_dot_refuted : exists feature path path' v v',
  In (path, v) (leaves feature) /\ In (path', v') (leaves feature) /\ path <> path' /\
  (forall k, mfind k (flatten_xml_serialization false feature) <> Some v).
Proof.
  exists (Node true "value0" "" [Node true "a.b" "1" []; Node true "a" "" [Node true "b" "2" []]]), ["value0"; "a.b"], ["value0"; "a"; "b"], "1", "2".
  split; [left; reflexivity|]. split; [right; left; reflexivity|]. split; [discriminate|].
  intros k E. apply mfind_In_keys in E. cbn in E. destruct E as [E|[]]. discriminate.
Qed.
Print Assumptions C100_dot_refuted.
(* finding: a field of a feature that is called target is overwritten by the target of the dataset *)
Theorem C100_reserved_refuted : forall D (to_string : D -> string) v target target_variance prediction prediction_variance,
  v <> "" ->
  exists feature, proper feature /\ In (["value0"; "target"], v) (leaves feature) /\
  mfind "target" (to_map_values (flatten_xml_serialization false) to_string feature target target_variance prediction
    prediction_variance) = Some (to_string target).
Proof.
  intros D to_string v t tv q qv Hv. exists (Node true "value0" "" [Node true "target" v []]).
  split; [repeat constructor; cbn; intuition discriminate|].
  split; [destruct v; [congruence|left; reflexivity]|].
  destruct v as [|c v]; [congruence|]. reflexivity.
Qed.
Print Assumptions C100_reserved_refuted.

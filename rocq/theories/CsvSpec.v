(* Vocabulary for C26 and C27. *)
From Coq Require Import Reals String Ascii.
From Verif Require Import Base StdMapModel StringKeyModel ExtRealModel ParamsModel ParamsSpec CsvModel.

(* pieces joined by a separator *)
Fixpoint join (c : ascii) (ts : list text) : text :=
  match ts with
  | [] => []
  | [t] => t
  | t :: ts' => t ++ c :: join c ts'
  end.

(* one line *)
Definition csv_line (fields : list text) : text := join comma fields ++ [newline].

(* everything between separators: one more piece than there are separators *)
Fixpoint split_on (c : ascii) (t : text) : list text :=
  match t with
  | [] => [[]]
  | a :: t' => if Ascii.eqb a c then [] :: split_on c t'
               else match split_on c t' with
                    | [] => [[a]]
                    | p :: ps => (a :: p) :: ps
                    end
  end.

(* what a reader of the file sees: the fields of each (newline terminated) line *)
Definition csv_table (t : text) : list (list text) :=
  map (split_on comma) (removelast (split_on newline t)).

Definition clean (t : text) : Prop := ~ In comma t /\ ~ In newline t.

(* the value of a column, empty if it is missing *)
Definition field (row : smap string string) (col : string) : text :=
  match mfind col row with Some v => chars v | None => [] end.

(* a stream that has not failed with its put position at the end *)
Definition at_end (s : ostream) : Prop := os_fail s = false /\ os_pos s = length (os_buf s).

(* the stream after appending *)
Definition appended (s : ostream) (t : text) : ostream :=
  OS (os_buf s ++ t) (length (os_buf s ++ t)) false.

(* the columns the sampler adds *)
Definition reserved : list string := ["iteration"; "log_probability"; "ensemble_index"]%string.
Definition clean_names (s : store) : Prop :=
  forall k, In k (mkeys s) -> clean (chars k) /\ chars k <> [] /\ ~ In k reserved.

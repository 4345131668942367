(* Reading printed parameters: vocabulary of C101. *)
From Coq Require Import String Ascii.
From Verif Require Import Base StdMapModel StringKeyModel ExtRealModel PriorModel ParamsModel CsvModel PrettyModel.

(* the rest of a text after a prefix *)
Fixpoint after (prefix t : text) : option text :=
  match prefix, t with
  | [], _ => Some t
  | a :: prefix, b :: t => if Ascii.eqb a b then after prefix t else None
  | _, [] => None
  end.
(* what comes before the first of a character, and the rest after it *)
Fixpoint until (c : ascii) (t : text) : option (text * text) :=
  match t with
  | [] => None
  | b :: t => if Ascii.eqb b c then Some ([], t) else option_map (fun p => (b :: fst p, snd p)) (until c t)
  end.
Definition obind {A B} (o : option A) (f : A -> option B) : option B := match o with Some a => f a | None => None end.
(* a line {"name", value}, *)
Definition read_entry (line : text) : option (text * text) :=
  obind (after (chars "    {" ++ [quote]) line) (fun t =>
  obind (until quote t) (fun name_t =>
  obind (after (chars ", ") (snd name_t)) (fun t =>
  obind (until "}" t) (fun value_t =>
  match snd value_t with ["," ]%char => Some (fst name_t, fst value_t) | _ => None end)))).
Fixpoint read_all {A B} (read : A -> option B) (l : list A) : option (list B) :=
  match l with [] => Some [] | x :: l => obind (read x) (fun y => option_map (cons y) (read_all read l)) end.
(* the entries between a line { and a line }; *)
Definition read_params (t : text) : option (list (text * text)) :=
  match split_string t newline with
  | first :: rest =>
      match after (chars "{") first, after (chars "};") (last rest []) with
      | Some [], Some [] => read_all read_entry (removelast rest)
      | _, _ => None
      end
  | [] => None
  end.

(* names and numbers that do not interfere with the syntax *)
Definition plain_name (name : string) : Prop := ~ In quote (chars name) /\ ~ In newline (chars name).
Definition plain_number (number : string) : Prop := ~ In "}"%char (chars number) /\ ~ In newline (chars number).

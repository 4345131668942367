(* Call traces of covariance functions: covariance_functions/call_trace.hpp. *)
From Coq Require Import Reals String Ascii.
From Verif Require Import Base ExtRealModel.
Open Scope string_scope.
Open Scope nat_scope.
Open Scope list_scope.

Section Trace.
Variable to_string : R -> string.                   (* std::to_string *)
Variable show : R -> string.                        (* std::ostream << double *)

(* a covariance function as call_trace.hpp sees it, called with a pair of features: a sum, a product or anything else, which has a
   name, the name of a default constructed one, and a value if it is defined for features of these types *)
Inductive cov := Leaf (name default_name : string) (value : option R) | Sum (l r : cov) | Product (l r : cov).

(* covariance_functions/covariance_function.hpp:85-103, 231-233, 340-342 *)
Fixpoint get_name (c : cov) : string :=
  match c with
  | Leaf n _ _ => n
  | Sum l r => "(" ++ get_name l ++ "+" ++ get_name r ++ ")"
  | Product l r => "(" ++ get_name l ++ "*" ++ get_name r ++ ")"
  end.
(* the same for SumOfCovarianceFunctions<LHS, RHS>() *)
Fixpoint default_name (c : cov) : string :=
  match c with
  | Leaf _ n _ => n
  | Sum l r => "(" ++ default_name l ++ "+" ++ default_name r ++ ")"
  | Product l r => "(" ++ default_name l ++ "*" ++ default_name r ++ ")"
  end.
(* covariance_functions/covariance_function.hpp:264-296, 353-390: the value, None where the call does not compile *)
Fixpoint call (c : cov) : option R :=
  match c with
  | Leaf _ _ v => v
  | Sum l r =>
    match call l, call r with
    | Some x, Some y => Some (x + y)%R
    | Some x, None => Some x
    | None, v => v
    end
  | Product l r =>
    match call l, call r with
    | Some x, Some y => Some (if Reqb x 0 then x else x * y)%R
    | Some x, None => Some x
    | None, v => v
    end
  end.

Definition call_and_value := (string * string)%type.
Definition LEVEL_DELIMITER := " |  ".
(* call_trace.hpp:24-29 *)
Definition set_third (s : string) (c : ascii) : string :=
  match s with String a (String b (String _ rest)) => String a (String b (String c rest)) | _ => s end.
Definition add_operator (cv : call_and_value) (c : ascii) : outcome call_and_value :=
  assert_then (3 <=? String.length (fst cv)) (
  assert_then (3 <=? String.length (snd cv)) (
  Ok (set_third (fst cv) c, set_third (snd cv) c))).
(* call_trace.hpp:31-34 *)
Definition add_delimiter (cv : call_and_value) : call_and_value := ((LEVEL_DELIMITER ++ fst cv)%string, (LEVEL_DELIMITER ++ snd cv)%string).
(* call_trace.hpp:41-49 *)
Definition append_child_call_trace (parent child : list call_and_value) (c : ascii) : outcome (list call_and_value) :=
  match map add_delimiter child with
  | [] => UB
  | front :: rest => front' <- add_operator front c ;; Ok (parent ++ front' :: rest)
  end.
(* call_trace.hpp:125-149, 180-204 *)
Definition eval (c : cov) : string := match call c with Some v => show v | None => "UNDEFINED" end.
(* call_trace.hpp:107-120, 151-165, 206-220 *)
Fixpoint get_trace (c : cov) : outcome (list call_and_value) :=
  match c with
  | Leaf n _ v => Ok [(n, match v with Some x => to_string x | None => "UNDEFINED" end)]
  | Sum l r =>
    lhs_calls <- get_trace l ;;
    calls <- append_child_call_trace [(default_name c, eval c)] lhs_calls "+" ;;
    rhs_calls <- get_trace r ;;
    append_child_call_trace calls rhs_calls "+"
  | Product l r =>
    lhs_calls <- get_trace l ;;
    calls <- append_child_call_trace [(default_name c, eval c)] lhs_calls "*" ;;
    rhs_calls <- get_trace r ;;
    append_child_call_trace calls rhs_calls "*"
  end.

(* std::setw(n) << std::left << s *)
Fixpoint spaces (n : nat) : string := match n with O => "" | S n' => String " " (spaces n') end.
Definition setw (n : nat) (s : string) : string := (s ++ spaces (n - String.length s))%string.
(* call_trace.hpp:51-72: the lines that are printed *)
Definition print_call_trace (call_trace : list call_and_value) : list string :=
  let max_value_length := fold_left (fun m cv => if m <? String.length (snd cv) then String.length (snd cv) else m) call_trace 0 in
  let max_width := max_value_length + 2 in
  let row v f := (setw max_width v ++ setw 100 f)%string in
  row "VALUE" "FUNCTION" :: row "-----" "--------" :: map (fun cv => row (snd cv) (fst cv)) call_trace.
End Trace.

(* Printing of parameters, core/parameters.hpp:69-115, as text. *)
From Coq Require Import String Ascii.
From Verif Require Import Base StdMapModel StringKeyModel ExtRealModel PriorModel ParamsModel CsvModel.

Section Pretty.
Variable scientific : xr -> string.  (* ss << x with setprecision(12) and std::scientific *)
Variable print : xr -> string.       (* ss << x with the default format *)
Definition endl : text := [newline].
Definition quote : ascii := "034".
Definition space : ascii := " ".

(* pretty_params, parameters.hpp:69-80 *)
Definition pretty_params_line (pair : string * parameter) : text :=
  chars "    {" ++ [quote] ++ chars (fst pair) ++ [quote] ++ chars ", " ++ chars (scientific (p_value (snd pair))) ++ chars "}," ++ endl.
Definition pretty_params (params : store) : text :=
  (chars "{" ++ endl) ++ concat (map pretty_params_line params) ++ (chars "};" ++ endl).

(* pretty_priors, parameters.hpp:82-91 *)
Definition pretty_priors_line (pair : string * parameter) : text :=
  chars "    " ++ [quote] ++ chars (fst pair) ++ [quote] ++ chars ": " ++ chars (prior_name print (p_prior (snd pair))) ++ endl.
Definition pretty_priors (params : store) : text := (chars "PRIORS:" ++ endl) ++ concat (map pretty_priors_line params).

(* std::left << std::setw(width) << t *)
Definition padded (width : nat) (t : text) : text := t ++ repeat space (width - length t).
(* std::max_element: the first of the largest ones, end() (None) for an empty range *)
Fixpoint max_element {A} (less : A -> A -> bool) (largest : A) (l : list A) : A :=
  match l with [] => largest | x :: l => max_element less (if less largest x then x else largest) l end.
(* parameters.hpp:103-113: is_valid() is printed as 1 or 0 *)
Definition details_line (max_name_length : nat) (pair : string * parameter) : text :=
  let prior := p_prior (snd pair) in
  chars "    " ++ padded (max_name_length + 1) (chars (fst pair)) ++
  chars " value: " ++ padded 12 (chars (print (p_value (snd pair)))) ++
  chars " valid: " ++ padded 3 (chars (if is_valid (snd pair) then "1" else "0")) ++
  chars " prior: " ++ padded 15 (chars (prior_name print prior)) ++ chars " bounds: [" ++
  chars (print (lower_bound prior)) ++ chars ", " ++ chars (print (upper_bound prior)) ++ chars "]" ++ endl.
(* pretty_param_details, parameters.hpp:93-115: max_element(...)->first dereferences end() of an empty store *)
Definition pretty_param_details (params : store) : outcome text :=
  match params with
  | [] => UB
  | first :: rest =>
      let compare_size (x y : string * parameter) := length (chars (fst x)) <? length (chars (fst y)) in
      let max_name_length := length (chars (fst (max_element compare_size first rest))) in
      Ok (concat (map (details_line max_name_length) params))
  end.
End Pretty.

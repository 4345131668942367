(* Property C101: printed parameters can be read. *)
From Coq Require Import Reals String Ascii.
From Verif Require Import Base BaseProofs StdMapModel StringKeyModel ExtRealModel PriorModel ParamsModel CsvModel
  PrettyModel PrettySpec PrettyProofs.

Definition example_store : store :=
  [("length"%string, Param (XFin 1) PositivePrior); ("sigma"%string, Param (XFin (-1)) PositivePrior)].

(* pretty_params: the entries are read back, all of them and in the order of the names *)
Theorem C101_read_back : forall (scientific : xr -> string) (params : store),
  Forall (fun pair => plain_name (fst pair) /\ plain_number (scientific (p_value (snd pair)))) params ->
  read_params (pretty_params scientific params) =
  Some (map (fun pair => (chars (fst pair), chars (scientific (p_value (snd pair))))) params).
Proof. exact read_back. Qed.
Print Assumptions C101_read_back.
Example C101_read_back_meets :
  Forall (fun pair => plain_name (fst pair) /\ plain_number ((fun _ => "1.000000000000e+00"%string) (p_value (snd pair)))) example_store.
Proof. repeat constructor; cbn; intuition discriminate. Qed.
(* so that different names or different printed values are printed differently *)
Theorem C101_injective : forall (scientific : xr -> string) (params params' : store),
  Forall (fun pair => plain_name (fst pair) /\ plain_number (scientific (p_value (snd pair)))) params ->
  Forall (fun pair => plain_name (fst pair) /\ plain_number (scientific (p_value (snd pair)))) params' ->
  pretty_params scientific params = pretty_params scientific params' ->
  map (fun pair => (fst pair, scientific (p_value (snd pair)))) params =
  map (fun pair => (fst pair, scientific (p_value (snd pair)))) params'.
Proof.
  intros scientific params params' H H' E.
  pose proof (C101_read_back scientific params H) as R. rewrite E, (C101_read_back scientific params' H') in R. injection R as R.
  apply (f_equal (map (fun p => (string_of_list_ascii (fst p), string_of_list_ascii (snd p))))) in R.
  rewrite !map_map in R. unfold chars in R. cbn [fst snd] in R.
  assert (A : forall l : store, map (fun pair => (string_of_list_ascii (list_ascii_of_string (fst pair)),
      string_of_list_ascii (list_ascii_of_string (scientific (p_value (snd pair)))))) l =
    map (fun pair => (fst pair, scientific (p_value (snd pair)))) l).
  { intros l. apply map_ext. intros pair. rewrite !string_of_list_ascii_of_string. reflexivity. }
  rewrite !A in R.
  symmetry. exact R.
Qed.
Print Assumptions C101_injective.

(* pretty_priors: a heading and one line for each parameter *)
Theorem C101_priors : forall (print : xr -> string) (params : store),
  Forall (fun pair => plain_name (fst pair) /\ ~ In newline (chars (prior_name print (p_prior (snd pair))))) params ->
  split_string (pretty_priors print params) newline =
  chars "PRIORS:" :: map (fun pair => chars "    " ++ [quote] ++ chars (fst pair) ++ [quote] ++ chars ": " ++
                                      chars (prior_name print (p_prior (snd pair)))) params.
Proof. exact priors_lines. Qed.
Print Assumptions C101_priors.
Example C101_priors_meets :
  Forall (fun pair => plain_name (fst pair) /\ ~ In newline (chars (prior_name (fun _ => "1"%string) (p_prior (snd pair))))) example_store.
Proof. repeat constructor; cbn; intuition discriminate. Qed.

(* pretty_param_details: one line for each parameter; the values start in the same column, after the longest name, and are
   followed by 1 when they are within the bounds of their prior and 0 when they are not *)
Theorem C101_details : forall (print : xr -> string) (params : store), params <> [] ->
  exists column lines,
    pretty_param_details print params = Ok (concat lines) /\
    Forall2 (fun pair line => exists heading spaces rest,
      line = heading ++ chars " value: " ++ chars (print (p_value (snd pair))) ++ repeat space spaces ++ chars " valid: " ++
        chars (if xleb (lower_bound (p_prior (snd pair))) (p_value (snd pair)) && xleb (p_value (snd pair)) (upper_bound (p_prior (snd pair)))
               then "1" else "0") ++ rest /\
      length heading = column /\
      exists blanks, heading = chars "    " ++ chars (fst pair) ++ repeat space (S blanks)) params lines /\
    exists pair, In pair params /\ column = 4 + length (chars (fst pair)) + 1.
Proof. exact details_aligned. Qed.
Print Assumptions C101_details.
Example C101_details_meets : example_store <> [].
Proof. discriminate. Qed.

(* finding: printing the details of a model without parameters dereferences the end of the store *)
Theorem C101_details_empty_refuted : forall print : xr -> string, pretty_param_details print [] = UB.
Proof. reflexivity. Qed.
Print Assumptions C101_details_empty_refuted.

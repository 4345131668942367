From Coq Require Import String Ascii.
From Verif Require Import Base BaseProofs StdMapModel StringKeyModel ExtRealModel PriorModel ParamsModel CsvModel CsvSpec CsvProofs
  PrettyModel PrettySpec.

Lemma after_app p t : after p (p ++ t) = Some t.
Proof. induction p as [|a p IH]; cbn; [reflexivity|]. rewrite Ascii.eqb_refl. exact IH. Qed.
Lemma until_app c t u : ~ In c t -> until c (t ++ c :: u) = Some (t, u).
Proof.
  induction t as [|a t IH]; intros H; cbn.
  - rewrite Ascii.eqb_refl. reflexivity.
  - rewrite eqb_false_in by (intros ->; apply H; left; reflexivity). rewrite IH by (intros Hc; apply H; right; exact Hc). reflexivity.
Qed.
Section Proofs.
Variables scientific print : xr -> string.
Definition entry (pair : string * parameter) : text :=
  chars "    {" ++ [quote] ++ chars (fst pair) ++ [quote] ++ chars ", " ++ chars (scientific (p_value (snd pair))) ++ chars "},".
Lemma line_entry pair : pretty_params_line scientific pair = entry pair ++ [newline].
Proof. unfold pretty_params_line, entry, endl. rewrite <- !app_assoc. reflexivity. Qed.
Lemma read_entry_ok pair : plain_name (fst pair) -> plain_number (scientific (p_value (snd pair))) ->
  read_entry (entry pair) = Some (chars (fst pair), chars (scientific (p_value (snd pair)))).
Proof.
  intros [Q1 Q2] [N1 N2]. unfold read_entry, entry. rewrite app_assoc, after_app. cbn [obind app].
  rewrite until_app by exact Q1. cbn [obind snd]. rewrite after_app. cbn [obind].
  change (chars "},") with ("}"%char :: [","%char]). rewrite until_app by exact N1. reflexivity.
Qed.
Lemma entry_line pair : plain_name (fst pair) -> plain_number (scientific (p_value (snd pair))) -> ~ In newline (entry pair).
Proof.
  intros [Q1 Q2] [N1 N2]. unfold entry. rewrite !in_app_iff. intros [H|[H|[H|[H|[H|[H|H]]]]]]; try tauto;
  cbn in H; repeat (destruct H as [H|H]; [discriminate H|]); exact H.
Qed.
Lemma lines_ok (ls : list text) : Forall (fun l => ~ In newline l) ls -> split_string (concat (map (fun l => l ++ [newline]) ls)) newline = ls.
Proof.
  unfold split_string. induction 1 as [|l ls H _ IH]; [reflexivity|]. cbn [map concat]. rewrite <- app_assoc. cbn [app].
  rewrite getlines_app by exact H. rewrite IH. reflexivity.
Qed.
Lemma pretty_params_lines params : Forall (fun pair => plain_name (fst pair) /\ plain_number (scientific (p_value (snd pair)))) params ->
  split_string (pretty_params scientific params) newline = chars "{" :: map entry params ++ [chars "};"].
Proof.
  intros H. unfold pretty_params, endl.
  replace ((chars "{" ++ [newline]) ++ concat (map (pretty_params_line scientific) params) ++ chars "};" ++ [newline])
    with (concat (map (fun l => l ++ [newline]) (chars "{" :: map entry params ++ [chars "};"]))).
  - apply lines_ok. constructor; [cbn; intuition discriminate|]. apply Forall_app. split.
    + apply Forall_forall. intros l Hl. apply in_map_iff in Hl. destruct Hl as [pair [<- Hp]]. rewrite Forall_forall in H.
      destruct (H _ Hp). apply entry_line; assumption.
    + constructor; [cbn; intuition discriminate|constructor].
  - cbn [map concat]. rewrite map_app, concat_app, map_map. rewrite (map_ext _ _ line_entry). cbn [map concat]. rewrite app_nil_r. reflexivity.
Qed.
Lemma read_back params : Forall (fun pair => plain_name (fst pair) /\ plain_number (scientific (p_value (snd pair)))) params ->
  read_params (pretty_params scientific params) =
  Some (map (fun pair => (chars (fst pair), chars (scientific (p_value (snd pair))))) params).
Proof.
  intros H. unfold read_params. rewrite pretty_params_lines by exact H.
  rewrite last_last, removelast_last.
  change (after (chars "{") (chars "{")) with (Some (@nil ascii)). change (after (chars "};") (chars "};")) with (Some (@nil ascii)). cbv iota.
  induction H as [|pair params [H1 H2] _ IH]; [reflexivity|].
  cbn [map read_all]. rewrite read_entry_ok by assumption. cbn [obind]. rewrite IH. reflexivity.
Qed.

Definition name_length (pair : string * parameter) : nat := length (chars (fst pair)).
Lemma max_element_spec (l : list (string * parameter)) : forall first,
  let m := max_element (fun x y => length (chars (fst x)) <? length (chars (fst y))) first l in
  In m (first :: l) /\ Forall (fun p => name_length p <= name_length m) (first :: l).
Proof.
  induction l as [|x l IH]; intros first; cbn -[In Nat.ltb]; [split; [left; reflexivity|constructor; [lia|constructor]]|].
  destruct (Nat.ltb_spec (length (chars (fst first))) (length (chars (fst x)))) as [Hlt|Hge].
  - destruct (IH x) as [I1 I2]. split; [right; exact I1|]. constructor; [|exact I2].
    inversion I2; subst. unfold name_length in *. lia.
  - destruct (IH first) as [I1 I2]. split; [destruct I1 as [I1|I1]; [left; exact I1|right; right; exact I1]|].
    inversion I2; subst. constructor; [assumption|]. constructor; [|assumption]. unfold name_length in *. lia.
Qed.
Lemma details_ok params : params <> [] -> exists longest,
  (exists pair, In pair params /\ name_length pair = longest) /\ Forall (fun p => name_length p <= longest) params /\
  pretty_param_details print params = Ok (concat (map (details_line print longest) params)).
Proof.
  destruct params as [|first rest]; [congruence|]. intros _.
  destruct (max_element_spec rest first) as [M1 M2]. cbn zeta in *.
  eexists. split; [exists (max_element (fun x y => length (chars (fst x)) <? length (chars (fst y))) first rest); split; [exact M1|reflexivity]|].
  split; [exact M2|reflexivity].
Qed.
Lemma aligned longest pair : name_length pair <= longest -> exists value_and_rest,
  details_line print longest pair = chars "    " ++ (chars (fst pair) ++ repeat space (longest + 1 - name_length pair)) ++ chars " value: " ++
    chars (print (p_value (snd pair))) ++ value_and_rest /\
  length (chars "    " ++ (chars (fst pair) ++ repeat space (longest + 1 - name_length pair))) = 5 + longest.
Proof.
  intros H. eexists. split.
  - unfold details_line, padded. fold (name_length pair). rewrite <- !app_assoc. reflexivity.
  - rewrite !app_length, repeat_length. unfold name_length in *. cbn [length chars list_ascii_of_string]. lia.
Qed.
Lemma priors_lines params :
  Forall (fun pair => plain_name (fst pair) /\ ~ In newline (chars (prior_name print (p_prior (snd pair))))) params ->
  split_string (pretty_priors print params) newline =
  chars "PRIORS:" :: map (fun pair => chars "    " ++ [quote] ++ chars (fst pair) ++ [quote] ++ chars ": " ++
                                      chars (prior_name print (p_prior (snd pair)))) params.
Proof.
  intros H. unfold pretty_priors, endl. set (line := fun pair : string * parameter => _).
  replace ((chars "PRIORS:" ++ [newline]) ++ concat (map (pretty_priors_line print) params))
    with (concat (map (fun l => l ++ [newline]) (chars "PRIORS:" :: map line params))).
  - apply lines_ok. constructor; [cbn; intuition discriminate|].
    apply Forall_forall. intros l Hl. apply in_map_iff in Hl. destruct Hl as [pair [<- Hp]]. rewrite Forall_forall in H.
    destruct (H _ Hp) as [[_ H1] H2]. unfold line. rewrite !in_app_iff. intros [A|[A|[A|[A|[A|A]]]]]; try tauto;
    cbn in A; repeat (destruct A as [A|A]; [discriminate A|]); exact A.
  - cbn [map concat]. f_equal. rewrite map_map. f_equal. apply map_ext. intros pair.
    unfold line, pretty_priors_line, endl. rewrite <- !app_assoc. reflexivity.
Qed.
Lemma details_aligned params : params <> [] ->
  exists column lines,
    pretty_param_details print params = Ok (concat lines) /\
    Forall2 (fun pair line => exists heading spaces rest,
      line = heading ++ chars " value: " ++ chars (print (p_value (snd pair))) ++ repeat space spaces ++ chars " valid: " ++
        chars (if xleb (lower_bound (p_prior (snd pair))) (p_value (snd pair)) && xleb (p_value (snd pair)) (upper_bound (p_prior (snd pair)))
               then "1" else "0") ++ rest /\
      length heading = column /\
      exists blanks, heading = chars "    " ++ chars (fst pair) ++ repeat space (S blanks)) params lines /\
    exists pair, In pair params /\ column = 4 + length (chars (fst pair)) + 1.
Proof.
  intros Hn. destruct (details_ok params Hn) as [longest [[best [Hb El]] [Hle E]]].
  exists (4 + longest + 1), (map (details_line print longest) params). split; [exact E|]. split.
  - clear E Hb Hn. induction Hle as [|pair params Hp _ IH]; [constructor|]. cbn [map]. constructor; [|exact IH].
    exists (chars "    " ++ chars (fst pair) ++ repeat space (longest + 1 - name_length pair)).
    eexists. eexists. split; [|split].
    + unfold details_line, padded. fold (name_length pair). unfold is_valid, within_bounds. rewrite <- !app_assoc. reflexivity.
    + rewrite !app_length, repeat_length. unfold name_length in *. cbn [length chars list_ascii_of_string]. lia.
    + exists (longest - name_length pair). replace (longest + 1 - name_length pair) with (S (longest - name_length pair)) by lia. reflexivity.
  - exists best. split; [exact Hb|]. unfold name_length in El. lia.
Qed.
End Proofs.

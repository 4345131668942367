(* Properties C26 and C27 of properties.jsonl. *)
From Coq Require Import Reals String Ascii Sorted Lra.
From Verif Require Import Base BaseProofs StdMapModel StdMapProofs StringKeyModel MapUtilsModel
  ExtRealModel ExtRealProofs PriorModel ParamsModel ParamsSpec ParamsProofs DatasetModel CsvModel CsvSpec CsvProofs.

(* ---- C26 ---- *)
(* a row is appended as one line with one field per column *)
Theorem C26_write_row : forall s row columns, at_end s -> columns <> [] ->
  write_row s row columns = appended s (csv_line (map (field row) columns)) /\
  write_header s columns = appended s (csv_line (map chars columns)).
Proof. intros. split; [apply write_row_spec|apply write_header_spec]; assumption. Qed.
Print Assumptions C26_write_row.

(* lines of fields without separators are read back: same number of lines, same
   fields *)
Theorem C26_table : forall lines : list (list text),
  Forall (fun fields => fields <> [] /\ Forall clean fields) lines ->
  csv_table (concat (map csv_line lines)) = lines.
Proof. exact csv_table_lines. Qed.
Print Assumptions C26_table.

(* the row of element i: metadata of the predictions hides metadata of the dataset,
   which hides the target and prediction columns, which hide the feature's columns *)
Theorem C26_row : forall X D (feature_to_map : X -> smap string string) (to_string : D -> string) d p i,
  sizes_agree d p = true -> length (m_mean (ds_targets d)) = length (ds_features d) ->
  i < length (ds_features d) ->
  (forall x, wf_map (feature_to_map x)) -> wf_map (ds_metadata d) -> wf_map (cp_metadata p) ->
  exists x t tv q qv row,
    nth_error (ds_features d) i = Some x /\ nth_error (m_mean (ds_targets d)) i = Some t /\
    nth_error (m_var (ds_targets d)) i = Some tv /\ nth_error (m_mean (cp_dist p)) i = Some q /\
    nth_error (m_var (cp_dist p)) i = Some qv /\
    to_map feature_to_map to_string d p i = Ok row /\ wf_map row /\
    forall k, mfind k row =
      match mfind k (cp_metadata p) with
      | Some v => Some v
      | None => match mfind k (ds_metadata d) with
                | Some v => Some v
                | None => if keqb k "prediction_variance"%string then Some (to_string qv)
                          else if keqb k "prediction"%string then Some (to_string q)
                          else if keqb k "target_variance"%string then Some (to_string tv)
                          else if keqb k "target"%string then Some (to_string t)
                          else mfind k (feature_to_map x)
                end
      end.
Proof. intros X D f t. exact (to_map_spec f t). Qed.
Print Assumptions C26_row.

(* The whole file: a header naming every key of every row once, in order, and one
   line per element in dataset order; all lines have the same number of fields;
   every value is in the column with its name. *)
Theorem C26_write_to_csv : forall X D (feature_to_map : X -> smap string string) (to_string : D -> string)
    (d : dataset X D) p s hdr,
  sizes_agree d p = true -> length (m_mean (ds_targets d)) = length (ds_features d) ->
  ds_features d <> [] -> at_end s ->
  (forall x, wf_map (feature_to_map x)) -> wf_map (ds_metadata d) -> wf_map (cp_metadata p) ->
  exists rows columns t,
    Forall2 (fun i row => to_map feature_to_map to_string d p i = Ok row) (seq 0 (length (ds_features d))) rows /\
    write_to_csv feature_to_map to_string s d p hdr = Ok (appended s t) /\
    StronglySorted klt columns /\
    (forall k, In k columns <-> exists row, In row rows /\ In k (mkeys row)) /\
    ((forall k, In k columns -> clean (chars k)) ->
     (forall row k v, In row rows -> mfind k row = Some v -> clean (chars v)) ->
     csv_table t = (if hdr then [map chars columns] else []) ++ map (fun row => map (field row) columns) rows).
Proof.
  intros X D f ts d p s hdr Hs Hl Hne He Wf Wd Wp.
  destruct (rows_exist f ts d p Hs Hl) as [rows Hrows].
  destruct (write_to_csv_spec f ts d p s hdr rows Hne He Wf Wd Wp Hrows) as [Hc E].
  exists rows, (sof_list (concat (map mkeys rows))). eexists. split; [apply mapM_ok, Hrows|]. split; [exact E|].
  split; [apply sof_list_sorted|]. split.
  - intros k. rewrite sof_list_In, in_concat. split.
    + intros [l [H1 H2]]. apply in_map_iff in H1 as [row [<- H1]]. eauto.
    + intros [row [H1 H2]]. exists (mkeys row). split; [apply in_map, H1|exact H2].
  - intros Hk Hv. apply csv_table_lines. apply Forall_app. split.
    + destruct hdr; constructor; [|constructor]. split; [destruct (sof_list (concat (map mkeys rows))); [congruence|discriminate]|].
      apply Forall_forall. intros c Hin. apply in_map_iff in Hin as [k [<- Hin]]. apply Hk, Hin.
    + apply Forall_forall. intros l Hin. apply in_map_iff in Hin as [row [<- Hin]].
      split; [destruct (sof_list (concat (map mkeys rows))); [congruence|discriminate]|].
      apply Forall_forall. intros c Hc'. apply in_map_iff in Hc' as [k [<- _]]. unfold field.
      destruct (mfind k row) as [v|] eqn:Ek; [eapply Hv; eauto|]. split; intros [].
Qed.
Print Assumptions C26_write_to_csv.

(* predictions of another size are rejected *)
Theorem C26_size_mismatch : forall X D (feature_to_map : X -> smap string string) (to_string : D -> string)
    (d : dataset X D) p s hdr,
  sizes_agree d p = false -> ds_features d <> [] ->
  write_to_csv feature_to_map to_string s d p hdr = Abort.
Proof.
  intros X D f ts d p s hdr Hs Hne. unfold write_to_csv, get_column_names.
  destruct (ds_features d) as [|x l]; [congruence|]. cbn [length seq foldM].
  rewrite (to_map_abort f ts d p 0 Hs). reflexivity.
Qed.
Print Assumptions C26_size_mismatch.

(* a matrix: one line per row, without a final newline *)
Theorem C26_matrix : forall D (format : D -> string) (x : list (list D)) cols s,
  Forall (fun r => length r = cols) x -> at_end s ->
  write_matrix_to_csv format s x cols =
  appended s (join newline (map (fun row => join comma (map (fun v => chars (format v)) row)) x)).
Proof. intros D. exact write_matrix_spec. Qed.
Print Assumptions C26_matrix.
Example C26_matrix_ex : write_matrix_to_csv (fun s => s) (OS [] 0 false) [["1"; "2"]; ["3"; "4"]]%string 2 =
  appended (OS [] 0 false) (chars "1,2" ++ [newline] ++ chars "3,4").
Proof. reflexivity. Qed.

Definition ex_feature (x : nat) : smap string string :=
  if x =? 0 then [("a"%string, "u"%string)] else [("b"%string, "w"%string)].
Definition ex_ds : dataset nat string :=
  DS [0; 1] (Marg ["1"; "2"] ["3"; "4"])%string [("m"%string, "x"%string)].
Definition ex_pred : csv_prediction string := CP (Marg ["5"; "6"] ["7"; "8"])%string [].
Example C26_ex :
  write_to_csv ex_feature (fun s => s) (OS [] 0 false) ex_ds ex_pred true =
  Ok (appended (OS [] 0 false)
       (chars "a,b,m,prediction,prediction_variance,target,target_variance" ++ [newline] ++
        chars "u,,x,5,7,1,3" ++ [newline] ++ chars ",w,x,6,8,2,4" ++ [newline])).
Proof. reflexivity. Qed.

(* an empty dataset has no columns: on a new stream the header sets failbit so that
   everything written later is lost, on a used one it overwrites the last
   character *)
Theorem C26_empty_dataset_refuted :
  (exists (d : dataset nat string) p s,
     ds_features d = [] /\ sizes_agree d p = true /\ at_end s /\
     write_to_csv ex_feature (fun s => s) (OS [] 0 false) d p true = Ok (OS [] 0 true) /\
     forall t, os_put (OS [] 0 true) t = OS [] 0 true) /\
  (exists (d : dataset nat string) p s s',
     ds_features d = [] /\ sizes_agree d p = true /\ at_end s /\
     write_to_csv ex_feature (fun s => s) s d p true = Ok s' /\
     os_buf s = chars "ab" /\ os_buf s' = chars "a" ++ [newline]).
Proof.
  split.
  - exists (DS [] (Marg [] []) []), (CP (Marg [] []) []), (OS [] 0 false). repeat split.
  - exists (DS [] (Marg [] []) []), (CP (Marg [] []) []), (OS (chars "ab") 2 false). eexists. repeat split.
Qed.
Print Assumptions C26_empty_dataset_refuted.

(* values are not quoted: one holding a comma shifts the rest of its line *)
Theorem C26_unquoted_refuted : exists (d : dataset nat string) p t,
  sizes_agree d p = true /\ ds_features d <> [] /\
  write_to_csv ex_feature (fun s => s) (OS [] 0 false) d p true = Ok (appended (OS [] 0 false) t) /\
  exists header row, csv_table t = [header; row] /\ length header <> length row.
Proof.
  exists (DS [0] (Marg ["1"] ["2"])%string [("m"%string, "x,y"%string)]), (CP (Marg ["3"] ["4"])%string []),
    (chars "a,m,prediction,prediction_variance,target,target_variance" ++ [newline] ++ chars "u,x,y,3,4,1,2" ++ [newline]).
  split; [reflexivity|]. split; [discriminate|]. split; [reflexivity|]. eexists. eexists.
  split; [vm_compute; reflexivity|]. cbn. discriminate.
Qed.
Print Assumptions C26_unquoted_refuted.

(* writing several datasets uses the columns of the first only: other values are
   dropped *)
Theorem C26_list_columns_refuted : exists (ds : list (dataset nat string)) ps t,
  Forall2 (fun d p => sizes_agree d p = true) ds ps /\
  write_to_csv_list ex_feature (fun s => s) (OS [] 0 false) ds ps = Ok (appended (OS [] 0 false) t) /\
  exists d p row, nth_error ds 1 = Some d /\ nth_error ps 1 = Some p /\
    to_map ex_feature (fun s => s) d p 0 = Ok row /\ mfind "b"%string row = Some "w"%string /\
    forall line, In line (csv_table t) -> ~ In (chars "w") line.
Proof.
  exists [DS [0] (Marg ["1"] ["2"])%string []; DS [1] (Marg ["1"] ["2"])%string []],
         [CP (Marg ["3"] ["4"])%string []; CP (Marg ["3"] ["4"])%string []],
    (chars "a,prediction,prediction_variance,target,target_variance" ++ [newline] ++ chars "u,3,4,1,2" ++ [newline] ++
     chars ",3,4,1,2" ++ [newline]).
  split; [repeat constructor|]. split; [reflexivity|]. eexists. eexists. eexists.
  split; [reflexivity|]. split; [reflexivity|]. split; [reflexivity|]. split; [reflexivity|].
  intros line Hl Hin.
  match type of Hl with In _ ?tbl =>
    assert (existsb (fun line => existsb (fun f => if list_eq_dec ascii_dec f (chars "w") then true else false) line) tbl = true) as E end.
  { apply existsb_exists. exists line. split; [exact Hl|]. apply existsb_exists. exists (chars "w"). split; [exact Hin|].
    destruct (list_eq_dec ascii_dec (chars "w") (chars "w")); congruence. }
  vm_compute in E. discriminate.
Qed.
Print Assumptions C26_list_columns_refuted.

(* ---- C27 ---- *)
(* The numbers are written and read by std::to_string and std::stod. Their contract:
   to_string gives no empty string and no separator, stod reads back the number
   rounded to what to_string prints, exactly for the iteration. *)
Definition number_format (to_string : xr -> string) (to_string_u : nat -> string) (stod : text -> option xr)
  (rounded : xr -> xr) : Prop :=
  (forall v, clean (chars (to_string v)) /\ chars (to_string v) <> []) /\
  (forall i, clean (chars (to_string_u i)) /\ chars (to_string_u i) <> []) /\
  (forall v, stod (chars (to_string v)) = Some (rounded v)) /\
  (forall i, stod (chars (to_string_u i)) = Some (XFin (INR i))).

(* For every history the file written by the callback is read back as the
   parameters (fixed and tunable, with bounds forced) of the walkers of the last
   iteration, in walker order. *)
Theorem C27_last_iteration : forall to_string to_string_u stod rounded,
  number_format to_string to_string_u stod rounded ->
  forall (ps : store) (before : list (list sampler_state)) (final : list sampler_state),
  wf_map ps -> clean_names ps ->
  Forall (fun e => e <> [] /\ Forall (fun st => length (ss_params st) = length (tunables ps)) e) (before ++ [final]) ->
  exists t, csv_history to_string to_string_u ps (before ++ [final]) =
              Ok (OS t (length t) false, get_sampler_csv_columns ps) /\
    exists stores,
      Forall2 (fun st params => set_tunable_params_values ps (ss_params st) true = Ok params) final stores /\
      initial_params_from_csv stod t =
        Ok (map (fun params => map (fun kp => (fst kp, rounded (p_value (snd kp)))) params) stores).
Proof.
  intros to_string to_string_u stod rounded [H1 [H2 [H3 H4]]] ps before final Hw Hc Hf.
  destruct (csv_read_back to_string to_string_u stod rounded H1 H2 H3 H4 ps (before ++ [final]) [] Hw Hc) as [t [E1 E2]].
  - eapply Forall_impl; [|exact Hf]. cbn. tauto.
  - eapply Forall_impl; [|exact Hf]. cbn. tauto.
  - destruct before; discriminate.
  - exists t. split; [exact E1|]. rewrite last_last in E2. exists (map (walker_store ps) final). split.
    + apply Forall_app in Hf as [_ Hf]. inversion Hf as [|? ? [_ Hl] _]; subst. clear -Hl Hw.
      induction Hl; cbn; constructor; auto. apply walker_set; assumption.
    + rewrite E2, map_map. reflexivity.
Qed.
Print Assumptions C27_last_iteration.

(* with the parameter store: the tunable values, rounded and forced into bounds *)
Theorem C27_tunable_values : forall to_string to_string_u stod rounded,
  number_format to_string to_string_u stod rounded ->
  forall (ps : store) (before : list (list sampler_state)) (final : list sampler_state),
  wf_map ps -> clean_names ps -> Forall (fun kp => xleb (lb (snd kp)) (ub (snd kp)) = true) ps ->
  Forall (fun e => e <> [] /\ Forall (fun st => length (ss_params st) = length (tunables ps)) e) (before ++ [final]) ->
  exists t, csv_history to_string to_string_u ps (before ++ [final]) =
              Ok (OS t (length t) false, get_sampler_csv_columns ps) /\
    initial_params_from_csv_store stod ps t =
    Ok (map (fun st => map (fun kv => let p := snd (fst kv) in
                seen p (clamp p (rounded (clamp p (unseen p (snd kv)))))) (combine (tunables ps) (ss_params st)))
            final).
Proof.
  intros to_string to_string_u stod rounded [H1 [H2 [H3 H4]]] ps before final Hw Hc Hb Hf.
  destruct (csv_read_back_store to_string to_string_u stod rounded H1 H2 H3 H4 ps (before ++ [final]) [] Hw Hc Hb) as [t [E1 E2]].
  - eapply Forall_impl; [|exact Hf]. cbn. tauto.
  - eapply Forall_impl; [|exact Hf]. cbn. tauto.
  - destruct before; discriminate.
  - exists t. split; [exact E1|]. rewrite last_last in E2. exact E2.
Qed.
Print Assumptions C27_tunable_values.

(* so the walkers of the last iteration come back exactly where nothing is rounded
   and they are inside the bounds *)
Theorem C27_exact : forall to_string to_string_u stod rounded,
  number_format to_string to_string_u stod rounded ->
  forall (ps : store) (before : list (list sampler_state)) (final : list sampler_state),
  wf_map ps -> clean_names ps -> Forall (fun kp => xleb (lb (snd kp)) (ub (snd kp)) = true) ps ->
  Forall (fun kp => prior_constructible (p_prior (snd kp))) ps ->
  Forall (fun e => e <> [] /\ Forall (fun st => length (ss_params st) = length (tunables ps)) e) (before ++ [final]) ->
  Forall (fun st => Forall2 (fun kp v => rounded (unseen (snd kp) v) = unseen (snd kp) v /\
      xleb (seen (snd kp) (lb (snd kp))) v = true /\ xleb v (seen (snd kp) (ub (snd kp))) = true) (tunables ps) (ss_params st)) final ->
  exists t, csv_history to_string to_string_u ps (before ++ [final]) =
              Ok (OS t (length t) false, get_sampler_csv_columns ps) /\
    initial_params_from_csv_store stod ps t = Ok (map ss_params final).
Proof.
  intros to_string to_string_u stod rounded Hn ps before final Hw Hc Hb Hp Hf Hx.
  destruct (C27_tunable_values to_string to_string_u stod rounded Hn ps before final Hw Hc Hb Hf) as [t [E1 E2]].
  exists t. split; [exact E1|]. rewrite E2. f_equal. apply map_ext_in. intros st Hst.
  rewrite Forall_forall in Hx. specialize (Hx st Hst).
  assert (Forall (fun kp => prior_constructible (p_prior (snd kp))) (tunables ps)) as Hp'.
  { apply Forall_forall. intros y Hy. apply filter_In in Hy as [Hy _]. rewrite Forall_forall in Hp. auto. }
  revert Hp' Hx. generalize (tunables ps) as ts, (ss_params st) as x. clear.
  induction ts as [|[k p] ts IH]; intros x Hp Hx; inversion Hx as [|? v ? x' [Hr [H1 H2]] Hx']; subst; [reflexivity|].
  inversion Hp as [|? ? Hpp Hp']; subst. cbn [snd fst] in *. cbn [combine map fst snd].
  rewrite (IH x' Hp' Hx'). f_equal. destruct (unseen_not_outside p v Hpp H1 H2) as [U1 U2].
  rewrite (clamp_inside p (unseen p v)) by assumption. rewrite Hr. rewrite clamp_inside by assumption.
  unfold seen, unseen. destruct (is_log_scale (p_prior p)); [apply xlog_exp|reflexivity].
Qed.
Print Assumptions C27_exact.

(* a parameter called like one of the sampler's columns is overwritten by it: files
   of different histories are the same *)
Theorem C27_reserved_name_refuted : forall to_string to_string_u,
  exists (ps : store) (h h' : list (list sampler_state)),
  wf_map ps /\ h <> h' /\
  is_ok (csv_history to_string to_string_u ps h) = true /\
  csv_history to_string to_string_u ps h = csv_history to_string to_string_u ps h'.
Proof.
  intros ts tu. exists [("iteration"%string, Param (XFin 1) UninformativePrior)],
    [[SS [XFin 1] (XFin 0) true]], [[SS [XFin 2] (XFin 0) true]].
  split; [repeat constructor|]. split; [intros [= E]; lra|]. split; reflexivity.
Qed.
Print Assumptions C27_reserved_name_refuted.

(* a format meeting the contract, and a store and a history meeting the hypotheses *)
Fixpoint unary (n : nat) : string := match n with 0 => "u" | S n' => append "u" (unary n') end.
Definition ex_format (v : xr) : string := if xltb (XFin 1) v then "2" else "1".
Definition ex_rounded (v : xr) : xr := if xltb (XFin 1) v then XFin 2 else XFin 1.
Definition ex_stod (t : text) : option xr :=
  match t with
  | c :: t' => if Ascii.eqb c "u" then Some (XFin (INR (length t')))
               else if Ascii.eqb c "2" then Some (XFin 2) else Some (XFin 1)
  | [] => None
  end.
Lemma unary_chars n : chars (unary n) = repeat "u"%char (S n).
Proof. induction n as [|n IH]; [reflexivity|]. cbn [repeat]. cbn [repeat] in IH. rewrite <- IH. reflexivity. Qed.
Lemma ex_number_format : number_format ex_format unary ex_stod ex_rounded.
Proof.
  split; [|split; [|split]].
  - intros v. unfold ex_format. destruct (xltb (XFin 1) v); cbn; (split; [split|discriminate]); intros [H|H]; try discriminate; exact H.
  - intros i. rewrite unary_chars. split; [|discriminate]. split; intros H; apply repeat_spec in H; discriminate.
  - intros v. unfold ex_format, ex_rounded. destruct (xltb (XFin 1) v); reflexivity.
  - intros i. rewrite unary_chars. cbn. rewrite repeat_length. reflexivity.
Qed.
Example C27_ex :
  let ps := [("a"%string, Param (XFin 1) UninformativePrior); ("b"%string, Param (XFin 2) FixedPrior)] in
  let h := [[SS [XFin 2] (XFin 0) true]; [SS [XFin 1] (XFin 0) true; SS [XFin 2] (XFin 2) false]] in
  wf_map ps /\ clean_names ps /\
  Forall (fun e => e <> [] /\ Forall (fun st => length (ss_params st) = length (tunables ps)) e) h /\
  exists t, csv_history ex_format unary ps h = Ok (OS t (length t) false, get_sampler_csv_columns ps) /\
    initial_params_from_csv_store ex_stod ps t = Ok [[XFin 1]; [XFin 2]].
Proof.
  intros ps h.
  assert (wf_map ps) as Hw by (repeat constructor).
  assert (clean_names ps) as Hc.
  { intros k Hk. cbn in Hk. destruct Hk as [<-|[<-|[]]]; repeat split; cbn; try discriminate; intuition discriminate. }
  assert (Forall (fun e => e <> [] /\ Forall (fun st => length (ss_params st) = length (tunables ps)) e) h) as Hf.
  { repeat constructor; discriminate. }
  split; [exact Hw|]. split; [exact Hc|]. split; [exact Hf|].
  destruct (C27_exact ex_format unary ex_stod ex_rounded ex_number_format ps
    [[SS [XFin 2] (XFin 0) true]] [SS [XFin 1] (XFin 0) true; SS [XFin 2] (XFin 2) false] Hw Hc) as [t [E1 E2]].
  - repeat constructor.
  - repeat constructor.
  - exact Hf.
  - repeat constructor; cbn; unfold ex_rounded; cbn; xcase; try lra; reflexivity.
  - exists t. split; [exact E1|exact E2].
Qed.

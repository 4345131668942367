From Coq Require Import Reals String Ascii Sorted.
From Verif Require Import Base BaseProofs StdMapModel StdMapProofs StringKeyModel MapUtilsModel MapUtilsProofs
  ExtRealModel ExtRealProofs PriorModel ParamsModel ParamsSpec ParamsProofs DatasetModel CsvModel CsvSpec.

Lemma os_put_end s t : at_end s -> os_put s t = appended s t.
Proof.
  intros [Hf Hp]. unfold os_put, appended. rewrite Hf, Hp, firstn_all, skipn_all2 by lia.
  rewrite app_nil_r, app_length. reflexivity.
Qed.

Lemma appended_end s t : at_end (appended s t).
Proof. split; reflexivity. Qed.

Lemma appended_app s t u : appended (appended s t) u = appended s (t ++ u).
Proof. unfold appended. cbn. rewrite <- app_assoc. reflexivity. Qed.

Lemma appended_nil s : at_end s -> appended s [] = s.
Proof. intros [Hf Hp]. unfold appended. rewrite app_nil_r. destruct s; cbn in *. congruence. Qed.

Lemma join_cons c t t' ts : join c (t :: t' :: ts) = t ++ c :: join c (t' :: ts).
Proof. reflexivity. Qed.

Lemma concat_comma c ts : ts <> [] -> concat (map (fun t => t ++ [c]) ts) = join c ts ++ [c].
Proof.
  induction ts as [|t ts IH]; [tauto|]. intros _. destruct ts as [|t' ts].
  - cbn. apply app_nil_r.
  - cbn [map concat] in *. rewrite IH by discriminate. rewrite join_cons. rewrite <- !app_assoc. reflexivity.
Qed.

Lemma write_row_fold row columns : forall s, at_end s ->
  fold_left (write_row_step row) columns s =
  appended s (concat (map (fun t => t ++ [comma]) (map (field row) columns))).
Proof.
  induction columns as [|c columns IH]; intros s Hs.
  - cbn. symmetry. apply appended_nil, Hs.
  - cbn [fold_left map concat].
    assert (write_row_step row s c = appended s (field row c ++ [comma])) as ->.
    { unfold write_row_step, field. destruct (mfind c row).
      - rewrite (os_put_end s) by exact Hs. rewrite os_put_end by apply appended_end. apply appended_app.
      - apply os_put_end, Hs. }
    rewrite IH by apply appended_end. apply appended_app.
Qed.

Lemma replace_last s t c : replace_last_character_with_newline (appended s (t ++ [c])) = appended s (t ++ [newline]).
Proof.
  unfold replace_last_character_with_newline, os_seek_last, appended. cbn [os_fail os_buf os_pos].
  destruct (os_buf s ++ t ++ [c]) eqn:E.
  - destruct (os_buf s); [destruct t|]; discriminate.
  - rewrite <- E. unfold os_put. cbn [os_fail os_pos os_buf].
    rewrite !app_length. cbn [length].
    replace (length (os_buf s) + (length t + 1) - 1) with (length (os_buf s ++ t)) by (rewrite app_length; lia).
    rewrite !app_assoc. rewrite firstn_app, firstn_all, Nat.sub_diag, firstn_O, app_nil_r.
    rewrite skipn_all2 by (rewrite !app_length; cbn; lia). rewrite app_nil_r. f_equal. rewrite app_length. lia.
Qed.

Lemma write_row_spec s row columns : at_end s -> columns <> [] ->
  write_row s row columns = appended s (csv_line (map (field row) columns)).
Proof.
  intros Hs Hc. unfold write_row. rewrite write_row_fold by exact Hs.
  rewrite concat_comma by (destruct columns; cbn; congruence). apply replace_last.
Qed.

Lemma write_header_spec s columns : at_end s -> columns <> [] ->
  write_header s columns = appended s (csv_line (map chars columns)).
Proof.
  intros Hs Hc. unfold write_header.
  assert (forall columns s, at_end s -> fold_left (fun s col => os_put (os_put s (chars col)) [comma]) columns s =
     appended s (concat (map (fun t => t ++ [comma]) (map chars columns)))) as Hh.
  - clear. induction columns as [|c columns IH]; intros s Hs.
    + cbn. symmetry. apply appended_nil, Hs.
    + cbn [fold_left map concat]. rewrite (os_put_end s) by exact Hs. rewrite os_put_end by apply appended_end.
      rewrite appended_app. rewrite IH by apply appended_end. apply appended_app.
  - rewrite Hh by exact Hs. rewrite concat_comma by (destruct columns; cbn; congruence). apply replace_last.
Qed.

(* ---- reading ---- *)
Lemma eqb_false_in (c a : ascii) : a <> c -> Ascii.eqb a c = false.
Proof. intros H. apply Ascii.eqb_neq, H. Qed.

Lemma split_on_nonempty c t : split_on c t <> [].
Proof. induction t as [|a t IH]; cbn; [discriminate|]. destruct (Ascii.eqb a c); [discriminate|]. destruct (split_on c t); discriminate. Qed.

Lemma split_on_clean c t : ~ In c t -> split_on c t = [t].
Proof.
  induction t as [|a t IH]; intros H; cbn; [reflexivity|].
  rewrite eqb_false_in by (intros ->; apply H; left; reflexivity). rewrite IH by (intros Hc; apply H; right; exact Hc). reflexivity.
Qed.

Lemma split_on_app c t u : ~ In c t -> split_on c (t ++ c :: u) = t :: split_on c u.
Proof.
  induction t as [|a t IH]; intros H; cbn.
  - rewrite Ascii.eqb_refl. reflexivity.
  - rewrite eqb_false_in by (intros ->; apply H; left; reflexivity). rewrite IH by (intros Hc; apply H; right; exact Hc). reflexivity.
Qed.

Lemma split_on_join c ts : ts <> [] -> Forall (fun t => ~ In c t) ts -> split_on c (join c ts) = ts.
Proof.
  induction ts as [|t ts IH]; [tauto|]. intros _ Hf. inversion Hf as [|? ? Ht Hf']; subst.
  destruct ts as [|t' ts]; [apply split_on_clean, Ht|]. rewrite join_cons.
  rewrite split_on_app by exact Ht. f_equal. apply IH; assumption || discriminate.
Qed.

Lemma In_join x c ts : In x (join c ts) -> x = c \/ exists t, In t ts /\ In x t.
Proof.
  induction ts as [|t ts IH]; [intros []|]. destruct ts as [|t' ts].
  - intros H. right. exists t. split; [left; reflexivity|exact H].
  - rewrite join_cons. intros H. apply in_app_or in H as [H|[H|H]].
    + right. exists t. split; [left; reflexivity|exact H].
    + left. congruence.
    + apply IH in H as [->|[u [H1 H2]]]; [auto|]. right. exists u. split; [right; exact H1|exact H2].
Qed.

Lemma join_clean fields : Forall clean fields -> ~ In newline (join comma fields).
Proof.
  intros Hf H. apply In_join in H as [H|[t [H1 H2]]]; [discriminate|].
  rewrite Forall_forall in Hf. apply (proj2 (Hf t H1) H2).
Qed.

Lemma removelast_cons {A} (a : A) l : l <> [] -> removelast (a :: l) = a :: removelast l.
Proof. destruct l; [congruence|reflexivity]. Qed.

Lemma csv_table_lines lines : Forall (fun fields => fields <> [] /\ Forall clean fields) lines ->
  csv_table (concat (map csv_line lines)) = lines.
Proof.
  unfold csv_table. induction lines as [|l lines IH]; intros Hf; [reflexivity|].
  inversion Hf as [|? ? [Hn Hl] Hf']; subst. cbn [map concat]. unfold csv_line at 1. rewrite <- app_assoc. cbn [app].
  rewrite split_on_app by apply join_clean, Hl. rewrite removelast_cons by apply split_on_nonempty.
  cbn [map]. rewrite IH by exact Hf'. f_equal. apply split_on_join; [exact Hn|].
  eapply Forall_impl; [|exact Hl]. intros t [H _]. exact H.
Qed.

(* ---- rows of a dataset ---- *)
Section ToMap.
Context {X D : Type}.
Variable feature_to_map : X -> smap string string.
Variable to_string : D -> string.
Notation to_map := (to_map feature_to_map to_string).
Notation get_column_names := (get_column_names feature_to_map to_string).
Notation write_to_csv_columns := (write_to_csv_columns feature_to_map to_string).
Notation write_to_csv := (write_to_csv feature_to_map to_string).
Notation write_to_csv_list := (write_to_csv_list feature_to_map to_string).

Definition sizes_agree (d : dataset X D) (p : csv_prediction D) : bool :=
  (length (m_mean (ds_targets d)) =? length (m_var (ds_targets d))) &&
  (length (m_mean (cp_dist p)) =? length (m_var (cp_dist p))) &&
  (length (m_mean (ds_targets d)) =? length (m_mean (cp_dist p))).

Lemma to_map_abort d p i : sizes_agree d p = false -> to_map d p i = Abort.
Proof.
  unfold sizes_agree, to_map, marginal_size, assert_then. intros H.
  destruct (length (m_mean (ds_targets d)) =? length (m_var (ds_targets d))); cbn [andb bind] in *; [|reflexivity].
  destruct (length (m_mean (cp_dist p)) =? length (m_var (cp_dist p))); cbn [andb bind] in *; [|reflexivity].
  rewrite H. reflexivity.
Qed.

Lemma nth_error_lt {A} (l : list A) i : i < length l -> exists x, nth_error l i = Some x.
Proof. intros H. destruct (nth_error l i) eqn:E; [eauto|]. apply nth_error_None in E. lia. Qed.

Lemma to_map_spec d p i : sizes_agree d p = true ->
  length (m_mean (ds_targets d)) = length (ds_features d) -> i < length (ds_features d) ->
  (forall x, wf_map (feature_to_map x)) -> wf_map (ds_metadata d) -> wf_map (cp_metadata p) ->
  exists x t tv q qv row,
    nth_error (ds_features d) i = Some x /\ nth_error (m_mean (ds_targets d)) i = Some t /\
    nth_error (m_var (ds_targets d)) i = Some tv /\ nth_error (m_mean (cp_dist p)) i = Some q /\
    nth_error (m_var (cp_dist p)) i = Some qv /\
    to_map d p i = Ok row /\ wf_map row /\
    forall k, mfind k row =
      match mfind k (cp_metadata p) with
      | Some v => Some v
      | None => match mfind k (ds_metadata d) with
                | Some v => Some v
                | None => if keqb k "prediction_variance"%string then Some (to_string qv)
                          else if keqb k "prediction"%string then Some (to_string q)
                          else if keqb k "target_variance"%string then Some (to_string tv)
                          else if keqb k "target"%string then Some (to_string t)
                          else mfind k (feature_to_map x)
                end
      end.
Proof.
  unfold sizes_agree. intros H Hn Hi Wx Wd Wp. apply andb_true_iff in H as [H H3]. apply andb_true_iff in H as [H1 H2].
  unfold to_map, marginal_size. rewrite H1, H2. cbn [assert_then bind]. rewrite H3. cbn [assert_then].
  apply Nat.eqb_eq in H1, H2, H3.
  destruct (nth_error_lt (ds_features d) i Hi) as [x Ex].
  destruct (nth_error_lt (m_mean (ds_targets d)) i ltac:(lia)) as [t Et].
  destruct (nth_error_lt (m_var (ds_targets d)) i ltac:(lia)) as [tv Etv].
  destruct (nth_error_lt (m_mean (cp_dist p)) i ltac:(lia)) as [q Eq].
  destruct (nth_error_lt (m_var (cp_dist p)) i ltac:(lia)) as [qv Eqv].
  rewrite Ex, Et, Etv, Eq, Eqv. destruct (Nat.ltb_spec i (length (ds_features d))); [|lia]. cbn [assert_then bind of_option].
  exists x, t, tv, q, qv. eexists. repeat (split; [reflexivity|]).
  assert (wf_map (to_map_values feature_to_map to_string x t tv q qv)) as Wv.
  { unfold to_map_values. repeat apply wf_massign. apply Wx. }
  destruct (map_join_spec (to_map_values feature_to_map to_string x t tv q qv) (ds_metadata d) Wv Wd) as [W1 F1].
  destruct (map_join_spec _ (cp_metadata p) W1 Wp) as [W2 F2].
  split; [exact W2|]. intros k. rewrite F2, F1. destruct (mfind k (cp_metadata p)); [reflexivity|].
  destruct (mfind k (ds_metadata d)); [reflexivity|]. unfold to_map_values.
  rewrite !mfind_massign by (repeat apply wf_massign; apply Wx). reflexivity.
Qed.

Lemma columns_fold d p idx rows : Forall2 (fun i row => to_map d p i = Ok row) idx rows -> forall keys,
  foldM (fun keys i => row <- to_map d p i ;;
                       Ok (fold_left (fun keys k => sinsert k keys) (mkeys row) keys)) idx keys =
  Ok (fold_left (fun keys k => sinsert k keys) (concat (map mkeys rows)) keys).
Proof.
  induction 1 as [|i row idx rows E Hf IH]; intros keys; [reflexivity|].
  cbn [foldM map concat]. rewrite E. cbn [bind]. rewrite fold_left_app. apply IH.
Qed.

Lemma get_column_names_spec d p rows : mapM (to_map d p) (seq 0 (length (ds_features d))) = Ok rows ->
  get_column_names d p = Ok (sof_list (concat (map mkeys rows))).
Proof. intros H. apply mapM_ok in H. unfold get_column_names. apply (columns_fold d p _ _ H []). Qed.

Lemma write_rows_spec d p idx rows columns : columns <> [] ->
  Forall2 (fun i row => to_map d p i = Ok row) idx rows -> forall s, at_end s ->
  foldM (fun s i => row <- to_map d p i ;; Ok (write_row s row columns)) idx s =
  Ok (appended s (concat (map csv_line (map (fun row => map (field row) columns) rows)))).
Proof.
  intros Hc. induction 1 as [|i row idx rows E Hf IH]; intros s Hs; cbn [foldM map concat].
  - rewrite appended_nil by exact Hs. reflexivity.
  - rewrite E. cbn [bind]. rewrite write_row_spec by assumption. rewrite IH by apply appended_end.
    rewrite appended_app. reflexivity.
Qed.

Lemma write_columns_spec d p rows columns s : columns <> [] -> at_end s ->
  mapM (to_map d p) (seq 0 (length (ds_features d))) = Ok rows ->
  write_to_csv_columns s d p columns =
  Ok (appended s (concat (map csv_line (map (fun row => map (field row) columns) rows)))).
Proof. intros Hc Hs H. apply mapM_ok in H. apply write_rows_spec; assumption. Qed.

Lemma rows_exist d p : sizes_agree d p = true -> length (m_mean (ds_targets d)) = length (ds_features d) ->
  exists rows, mapM (to_map d p) (seq 0 (length (ds_features d))) = Ok rows.
Proof.
  intros H Hn. assert (forall idx, (forall i, In i idx -> i < length (ds_features d)) -> exists rows, mapM (to_map d p) idx = Ok rows) as HH.
  - induction idx as [|i idx IH]; intros Hi; [exists []; reflexivity|].
    assert (exists row, to_map d p i = Ok row) as [row E].
    { assert (i < length (ds_features d)) as Hi' by (apply Hi; left; reflexivity).
      unfold sizes_agree in H. apply andb_true_iff in H as [H H3]. apply andb_true_iff in H as [H1 H2].
      unfold to_map, marginal_size. rewrite H1, H2. cbn [assert_then bind]. rewrite H3. cbn [assert_then].
      apply Nat.eqb_eq in H1, H2, H3.
      destruct (nth_error_lt (ds_features d) i Hi') as [x Ex].
      destruct (nth_error_lt (m_mean (ds_targets d)) i ltac:(lia)) as [t Et].
      destruct (nth_error_lt (m_var (ds_targets d)) i ltac:(lia)) as [tv Etv].
      destruct (nth_error_lt (m_mean (cp_dist p)) i ltac:(lia)) as [q Eq].
      destruct (nth_error_lt (m_var (cp_dist p)) i ltac:(lia)) as [qv Eqv].
      rewrite Ex, Et, Etv, Eq, Eqv. destruct (Nat.ltb_spec i (length (ds_features d))); [|lia].
      eexists. reflexivity. }
    destruct (IH (fun i Hin => Hi i (or_intror Hin))) as [rows Er]. exists (row :: rows).
    cbn [mapM]. rewrite E, Er. reflexivity.
  - apply HH. intros i Hi. apply in_seq in Hi. lia.
Qed.

Lemma row_has_target d p i row : to_map d p i = Ok row ->
  (forall x, wf_map (feature_to_map x)) -> wf_map (ds_metadata d) -> wf_map (cp_metadata p) ->
  wf_map row /\ In "target"%string (mkeys row).
Proof.
  unfold to_map. intros E Wx Wd Wp.
  apply bind_ok in E as [n [E1 E]]. apply bind_ok in E as [m [E2 E]].
  destruct (n =? m); cbn [assert_then] in E; [|discriminate].
  destruct (i <? length (ds_features d)); cbn [assert_then] in E; [|discriminate].
  apply bind_ok in E as [tv [_ E]]. apply bind_ok in E as [qv [_ E]]. apply bind_ok in E as [x [_ E]].
  apply bind_ok in E as [t [_ E]]. apply bind_ok in E as [q [_ E]]. injection E as <-.
  assert (wf_map (to_map_values feature_to_map to_string x t tv q qv)) as Wv.
  { unfold to_map_values. repeat apply wf_massign. apply Wx. }
  destruct (map_join_spec (to_map_values feature_to_map to_string x t tv q qv) (ds_metadata d) Wv Wd) as [W1 F1].
  destruct (map_join_spec _ (cp_metadata p) W1 Wp) as [W2 F2].
  split; [exact W2|]. apply mfind_Some_key; [exact W2|]. rewrite F2, F1.
  destruct (mfind "target"%string (cp_metadata p)); [eauto|]. destruct (mfind "target"%string (ds_metadata d)); [eauto|].
  unfold to_map_values. rewrite !mfind_massign by (repeat apply wf_massign; apply Wx). cbn. eauto.
Qed.

Lemma write_to_csv_spec d p s hdr rows : ds_features d <> [] -> at_end s ->
  (forall x, wf_map (feature_to_map x)) -> wf_map (ds_metadata d) -> wf_map (cp_metadata p) ->
  mapM (to_map d p) (seq 0 (length (ds_features d))) = Ok rows ->
  let columns := sof_list (concat (map mkeys rows)) in
  columns <> [] /\
  write_to_csv s d p hdr =
  Ok (appended s (concat (map csv_line ((if hdr then [map chars columns] else []) ++
                                        map (fun row => map (field row) columns) rows)))).
Proof.
  intros Hne Hs Wx Wd Wp Hrows columns.
  assert (columns <> []) as Hc.
  { pose proof Hrows as H. apply mapM_ok in H. destruct (ds_features d) as [|f fs]; [congruence|].
    cbn [length seq] in H. inversion H as [|? row ? rows' E _]; subst.
    apply row_has_target in E as [_ E]; try assumption. subst columns.
    intros E0. assert (In "target"%string (sof_list (concat (map mkeys (row :: rows'))))) as Hin.
    { apply sof_list_In. cbn. apply in_or_app. left. exact E. }
    rewrite E0 in Hin. destruct Hin. }
  split; [exact Hc|]. unfold write_to_csv. rewrite (get_column_names_spec d p rows) by exact Hrows. cbn [bind].
  fold columns. destruct hdr.
  - rewrite write_header_spec by assumption. rewrite (write_columns_spec d p rows) by (assumption || apply appended_end).
    rewrite appended_app. reflexivity.
  - rewrite (write_columns_spec d p rows) by assumption. reflexivity.
Qed.
End ToMap.

(* ---- sampler history ---- *)
Lemma getlines_app c t u tok : ~ In c t -> getlines c (t ++ c :: u) tok = (rev tok ++ t) :: getlines c u [].
Proof.
  revert tok. induction t as [|a t IH]; intros tok H; cbn.
  - rewrite Ascii.eqb_refl, app_nil_r. reflexivity.
  - rewrite eqb_false_in by (intros ->; apply H; left; reflexivity).
    rewrite IH by (intros Hc; apply H; right; exact Hc). cbn [rev]. rewrite <- app_assoc. reflexivity.
Qed.

Lemma getlines_clean c t tok : ~ In c t -> rev tok ++ t <> [] -> getlines c t tok = [rev tok ++ t].
Proof.
  revert tok. induction t as [|a t IH]; intros tok H Hn; cbn.
  - rewrite app_nil_r in *. destruct tok; [cbn in Hn; congruence|]. reflexivity.
  - rewrite eqb_false_in by (intros ->; apply H; left; reflexivity). rewrite IH.
    + cbn [rev]. rewrite <- app_assoc. reflexivity.
    + intros Hc; apply H; right; exact Hc.
    + cbn [rev]. rewrite <- app_assoc. destruct (rev tok); discriminate.
Qed.

Lemma split_string_join c ts : ts <> [] -> Forall (fun t => ~ In c t /\ t <> []) ts -> split_string (join c ts) c = ts.
Proof.
  unfold split_string. induction ts as [|t ts IH]; [tauto|]. intros _ Hf. inversion Hf as [|? ? [H1 H2] Hf']; subst.
  destruct ts as [|t' ts]; [cbn [join]|rewrite join_cons].
  - rewrite getlines_clean; [reflexivity|exact H1|exact H2].
  - rewrite getlines_app by exact H1. cbn [rev app]. f_equal. apply IH; assumption || discriminate.
Qed.

Lemma split_string_lines lines : Forall (Forall clean) lines ->
  split_string (concat (map csv_line lines)) newline = map (join comma) lines.
Proof.
  unfold split_string. induction lines as [|l lines IH]; intros Hf; [reflexivity|].
  inversion Hf as [|? ? Hl Hf']; subst. cbn [map concat]. unfold csv_line at 1. rewrite <- app_assoc. cbn [app].
  rewrite getlines_app by apply join_clean, Hl. rewrite IH by exact Hf'. reflexivity.
Qed.

Section Sampler.
Variable to_string : xr -> string.
Variable to_string_u : nat -> string.
Variable stod : text -> option xr.
Variable rounded : xr -> xr.
Hypothesis to_string_clean : forall v, clean (chars (to_string v)) /\ chars (to_string v) <> [].
Hypothesis to_string_u_clean : forall i, clean (chars (to_string_u i)) /\ chars (to_string_u i) <> [].
Hypothesis stod_to_string : forall v, stod (chars (to_string v)) = Some (rounded v).
Hypothesis stod_to_string_u : forall i, stod (chars (to_string_u i)) = Some (XFin (INR i)).

(* the parameters a walker stands for *)
Definition walker_store (ps : store) (st : sampler_state) : store := assign_tunables true ps (ss_params st).

Definition walker_fields (ps : store) (iteration i : nat) (st : sampler_state) : list text :=
  [chars (to_string_u iteration); chars (to_string (ss_log_prob st)); chars (to_string_u i)] ++
  map (fun kp => chars (to_string (p_value (snd kp)))) (walker_store ps st).

Lemma field_reserved params it i lp : wf_map params -> (forall k, In k reserved -> ~ In k (mkeys params)) ->
  let row := sampler_row to_string to_string_u params it i lp in
  map (field row) (reserved ++ mkeys params) =
  [chars (to_string_u it); chars (to_string lp); chars (to_string_u i)] ++
  map (fun kp => chars (to_string (p_value (snd kp)))) params.
Proof.
  intros Hw Hr row. 
  set (base := massign_all (map (fun kp => (fst kp, to_string (p_value (snd kp)))) params) []).
  assert (wf_map base) as Wb by (apply massign_all_wf; constructor).
  assert (forall k, field row k = match (if keqb k "ensemble_index"%string then Some (to_string_u i)
     else if keqb k "log_probability"%string then Some (to_string lp)
     else if keqb k "iteration"%string then Some (to_string_u it) else mfind k base) with Some v => chars v | None => [] end) as Hfield.
  { intros k. unfold field, row, sampler_row. fold base.
    rewrite !mfind_massign by (repeat apply wf_massign; exact Wb). reflexivity. }
  rewrite map_app. f_equal.
  - cbn [map reserved]. rewrite !Hfield. reflexivity.
  - unfold mkeys. rewrite map_map. apply map_ext_in. intros [k p] Hin. cbn [fst snd]. rewrite Hfield.
    assert (In k (mkeys params)) as Hk by (apply in_map_iff; exists (k, p); auto).
    destruct (keqb_spec k "ensemble_index"%string) as [->|_]; [exfalso; eapply Hr; [|exact Hk]; cbn; auto|].
    destruct (keqb_spec k "log_probability"%string) as [->|_]; [exfalso; eapply Hr; [|exact Hk]; cbn; auto|].
    destruct (keqb_spec k "iteration"%string) as [->|_]; [exfalso; eapply Hr; [|exact Hk]; cbn; auto|].
    assert (mfind k base = Some (to_string (p_value p))) as ->; [|reflexivity].
    apply massign_all_NoDup.
    + constructor.
    + rewrite map_map. cbn. apply wf_NoDup, Hw.
    + apply in_map_iff. exists (k, p). auto.
Qed.

Definition fits (ps : store) (st : sampler_state) : Prop := length (ss_params st) = length (tunables ps).

Lemma walker_keys ps st : fits ps st -> mkeys (walker_store ps st) = mkeys ps.
Proof. intros H. apply assign_keys. unfold fits in H. lia. Qed.

Lemma walker_set ps st : wf_map ps -> fits ps st ->
  set_tunable_params_values ps (ss_params st) true = Ok (walker_store ps st).
Proof.
  intros Hw Hf. unfold fits in Hf. rewrite set_tunable_spec by exact Hw. rewrite Hf, Nat.ltb_irrefl. reflexivity.
Qed.

Lemma write_state_spec ps it (walkers : list (nat * sampler_state)) : wf_map ps -> (forall k, In k reserved -> ~ In k (mkeys ps)) ->
  Forall (fun ix => fits ps (snd ix)) walkers -> forall s, at_end s ->
  foldM (fun s ix => params <- set_tunable_params_values ps (ss_params (snd ix)) true ;;
       Ok (write_row s (sampler_row to_string to_string_u params it (fst ix) (ss_log_prob (snd ix))) (get_sampler_csv_columns ps)))
    walkers s =
  Ok (appended s (concat (map csv_line (map (fun ix => walker_fields ps it (fst ix) (snd ix)) walkers)))).
Proof.
  intros Hw Hr. induction 1 as [|[i st] walkers Hf _ IH]; intros s Hs; cbn [foldM map concat].
  - rewrite appended_nil by exact Hs. reflexivity.
  - cbn [fst snd] in *. rewrite walker_set by assumption. cbn [bind].
    rewrite write_row_spec by (assumption || discriminate). rewrite IH by apply appended_end. rewrite appended_app.
    do 4 f_equal. unfold get_sampler_csv_columns, walker_fields. fold reserved.
    rewrite <- (walker_keys ps st) by exact Hf.
    apply (field_reserved (walker_store ps st) it i (ss_log_prob st)).
    + eapply wf_keys_eq; [symmetry; apply walker_keys, Hf|exact Hw].
    + rewrite walker_keys by exact Hf. exact Hr.
Qed.

Definition indexed {A} (l : list A) : list (nat * A) := combine (seq 0 (length l)) l.

Definition iteration_lines (ps : store) (ie : nat * list sampler_state) : list (list text) :=
  map (fun ix => walker_fields ps (fst ie) (fst ix) (snd ix)) (indexed (snd ie)).

Lemma indexed_Forall {A} (P : A -> Prop) a l : Forall P l -> Forall (fun ix => P (snd ix)) (combine (seq a (length l)) l).
Proof. intros H. revert a. induction H; intros a; cbn; constructor; auto. Qed.

Lemma csv_history_spec ps (history : list (list sampler_state)) : wf_map ps -> (forall k, In k reserved -> ~ In k (mkeys ps)) ->
  Forall (Forall (fits ps)) history -> history <> [] ->
  csv_history to_string to_string_u ps history =
  Ok (appended (OS [] 0 false) (concat (map csv_line (map chars (get_sampler_csv_columns ps) ::
        concat (map (iteration_lines ps) (indexed history))))), get_sampler_csv_columns ps).
Proof.
  intros Hw Hr Hf Hne. unfold csv_history.
  assert (forall l, Forall (fun ie => fst ie <> 0 /\ Forall (fits ps) (snd ie)) l -> forall s, at_end s ->
     foldM (fun st ie => csv_callback to_string to_string_u ps st (fst ie) (snd ie)) l (s, get_sampler_csv_columns ps) =
     Ok (appended s (concat (map csv_line (concat (map (iteration_lines ps) l)))), get_sampler_csv_columns ps)) as Hstep.
  { induction 1 as [|[it e] l [Hn He] _ IH]; intros s Hs; cbn [foldM map concat].
    - rewrite appended_nil by exact Hs. reflexivity.
    - cbn [fst snd] in *. unfold csv_callback at 1. destruct (Nat.eqb_spec it 0); [contradiction|]. cbn [fst snd].
      unfold write_ensemble_sampler_state. rewrite write_state_spec; try assumption; [|apply indexed_Forall, He].
      cbn [bind]. rewrite IH by apply appended_end. rewrite appended_app, map_app, concat_app. reflexivity. }
  destruct history as [|e history]; [congruence|]. inversion Hf as [|? ? He Hf']; subst.
  unfold indexed. cbn [length seq combine foldM map concat fst snd]. unfold csv_callback at 1. cbn [fst snd].
  change (0 =? 0) with true. cbn [fst snd]. unfold write_ensemble_sampler_state.
  rewrite write_header_spec; [|split; reflexivity|discriminate].
  rewrite write_state_spec; try assumption; [|apply indexed_Forall, He|apply appended_end].
  cbn [bind]. rewrite Hstep; [|clear -Hf'|apply appended_end].
  - rewrite !appended_app. do 3 f_equal. cbn [map]. rewrite map_app, !concat_app. reflexivity.
  - assert (forall a, a <> 0 -> Forall (fun ie : nat * list sampler_state => fst ie <> 0 /\ Forall (fits ps) (snd ie))
       (combine (seq a (length history)) history)) as HH.
    { induction Hf' as [|e l He _ IH]; intros a Ha; cbn; constructor; [cbn; auto|apply IH; lia]. }
    apply HH. lia.
Qed.

(* reading a line back *)
Lemma string_of_chars k : string_of_list_ascii (chars k) = k.
Proof. apply string_of_list_ascii_of_string. Qed.

Definition rounded_map (params : store) : smap string xr := map (fun kp => (fst kp, rounded (p_value (snd kp)))) params.

Lemma wf_map_same_keys {V W} (a : smap string V) (b : smap string W) : mkeys a = mkeys b -> wf_map a -> wf_map b.
Proof. unfold wf_map, mkeys. intros ->. auto. Qed.

Lemma massign_all_wf_id {V} (kvs : smap string V) : wf_map kvs -> massign_all kvs [] = kvs.
Proof. intros H. apply massign_all_sorted. exact H. Qed.

Lemma walker_fields_ok ps it i st :
  walker_fields ps it i st <> [] /\ Forall (fun t => ~ In comma t /\ t <> []) (walker_fields ps it i st) /\
  Forall clean (walker_fields ps it i st).
Proof.
  assert (Forall (fun t => clean t /\ t <> []) (walker_fields ps it i st)) as H.
  { unfold walker_fields. apply Forall_app. split.
    - repeat constructor; try apply to_string_clean; try apply to_string_u_clean.
    - apply Forall_forall. intros t Ht. apply in_map_iff in Ht as [kp [<- _]]. apply to_string_clean. }
  split; [discriminate|]. split; (eapply Forall_impl; [|exact H]).
  - intros t [[H1 _] H2]. auto.
  - intros t [H1 _]. exact H1.
Qed.

Lemma parse_walker ps it i st :
  parse_line stod (join comma (walker_fields ps it i st)) =
  [XFin (INR it); rounded (ss_log_prob st); XFin (INR i)] ++
  map (fun kp => rounded (p_value (snd kp))) (walker_store ps st).
Proof.
  unfold parse_line. destruct (walker_fields_ok ps it i st) as [Hn [Hf _]].
  rewrite split_string_join by assumption. unfold walker_fields. rewrite map_app. cbn [map].
  rewrite !stod_to_string, !stod_to_string_u. f_equal. rewrite map_map. apply map_ext. intros kp.
  rewrite stod_to_string. reflexivity.
Qed.

Lemma read_step ps it i st cur acc : wf_map ps -> fits ps st ->
  csv_read_step stod (map chars (get_sampler_csv_columns ps)) (XFin cur, acc) (join comma (walker_fields ps it i st)) =
  Ok (if Rltb cur (INR it) then (XFin (INR it), [rounded_map (walker_store ps st)])
      else (XFin cur, acc ++ [rounded_map (walker_store ps st)])).
Proof.
  intros Hw Hf. unfold csv_read_step. rewrite parse_walker. cbn [app nth_error of_option bind fst].
  assert (length ([XFin (INR it); rounded (ss_log_prob st); XFin (INR i)] ++
      map (fun kp => rounded (p_value (snd kp))) (walker_store ps st)) =
      length (map chars (get_sampler_csv_columns ps))) as El.
  { rewrite app_length, !map_length. unfold get_sampler_csv_columns. rewrite app_length.
    rewrite <- (walker_keys ps st) by exact Hf. unfold mkeys. rewrite map_length. reflexivity. }
  cbn [app] in El. rewrite El, Nat.eqb_refl. cbn [assert_then]. cbn [get_sampler_csv_columns app map skipn].
  rewrite map_map. rewrite (map_ext _ (fun k => k)) by (intros; apply string_of_chars). rewrite map_id.
  assert (massign_all (combine (mkeys ps) (map (fun kp => rounded (p_value (snd kp))) (walker_store ps st))) [] =
          rounded_map (walker_store ps st)) as ->.
  { rewrite <- (walker_keys ps st) by exact Hf.
    assert (combine (mkeys (walker_store ps st)) (map (fun kp => rounded (p_value (snd kp))) (walker_store ps st)) =
            rounded_map (walker_store ps st)) as ->.
    { clear. unfold rounded_map, mkeys. induction (walker_store ps st) as [|kp l IH]; cbn; [reflexivity|]. rewrite IH. reflexivity. }
    apply massign_all_wf_id. apply (wf_map_same_keys ps); [|exact Hw].
    rewrite <- (walker_keys ps st) by exact Hf. unfold mkeys, rounded_map. rewrite map_map. reflexivity. }
  cbn [xltb]. destruct (Rltb cur (INR it)); reflexivity.
Qed.

Lemma read_iteration ps it (walkers : list (nat * sampler_state)) : wf_map ps -> Forall (fun ix => fits ps (snd ix)) walkers ->
  forall acc, foldM (csv_read_step stod (map chars (get_sampler_csv_columns ps)))
    (map (join comma) (map (fun ix => walker_fields ps it (fst ix) (snd ix)) walkers)) (XFin (INR it), acc) =
  Ok (XFin (INR it), acc ++ map (fun ix => rounded_map (walker_store ps (snd ix))) walkers).
Proof.
  intros Hw. induction 1 as [|[i st] walkers Hf _ IH]; intros acc; cbn [map foldM].
  - rewrite app_nil_r. reflexivity.
  - cbn [fst snd] in *. rewrite read_step by assumption.
    destruct (Rltb_spec (INR it) (INR it)) as [Hlt|_]; [exfalso; exact (Rlt_irrefl _ Hlt)|]. cbn [bind]. rewrite IH.
    rewrite <- app_assoc. reflexivity.
Qed.

Lemma foldM_app {A B} (f : B -> A -> outcome B) l1 l2 b : foldM f (l1 ++ l2) b = (b' <- foldM f l1 b ;; foldM f l2 b').
Proof. revert b. induction l1 as [|a l1 IH]; intros b; cbn; [reflexivity|]. destruct (f b a); cbn; auto. Qed.

Lemma map_snd_indexed {A B} (f : A -> B) a (l : list A) : map (fun ix => f (snd ix)) (combine (seq a (length l)) l) = map f l.
Proof. revert a. induction l as [|x l IH]; intros a; cbn; [reflexivity|]. rewrite IH. reflexivity. Qed.

Lemma read_history ps (history : list (list sampler_state)) : wf_map ps ->
  Forall (Forall (fits ps)) history -> Forall (fun e => e <> []) history -> forall a last acc,
  foldM (csv_read_step stod (map chars (get_sampler_csv_columns ps)))
    (map (join comma) (concat (map (iteration_lines ps) (combine (seq (S a) (length history)) history)))) (XFin (INR a), acc) =
  Ok (XFin (INR (a + length history)),
      match history with [] => acc | _ => map (fun st => rounded_map (walker_store ps st)) (List.last history last) end).
Proof.
  intros Hw Hf Hn. induction Hf as [|e history He Hf IH]; intros a lst acc.
  - cbn. rewrite Nat.add_0_r. reflexivity.
  - inversion Hn as [|? ? Hne Hn']; subst. cbn [length seq combine map concat]. rewrite map_app, foldM_app.
    assert (foldM (csv_read_step stod (map chars (get_sampler_csv_columns ps)))
       (map (join comma) (iteration_lines ps (S a, e))) (XFin (INR a), acc) =
       Ok (XFin (INR (S a)), map (fun st => rounded_map (walker_store ps st)) e)) as ->.
    { unfold iteration_lines, indexed. cbn [fst snd]. destruct e as [|st e]; [congruence|]. inversion He as [|? ? Hst He']; subst.
      cbn [length seq combine map foldM fst snd]. rewrite read_step by assumption.
      destruct (Rltb_spec (INR a) (INR (S a))) as [_|Hge].
      - cbn [bind]. rewrite (read_iteration ps (S a)) by (assumption || apply indexed_Forall, He').
        cbn [app]. do 3 f_equal. apply (map_snd_indexed (fun st => rounded_map (walker_store ps st))).
      - exfalso. apply Hge. rewrite S_INR. apply Rlt_plus_1. }
    cbn [bind]. rewrite (IH Hn' (S a) lst). f_equal. f_equal; [do 2 f_equal; lia|].
    destruct history; reflexivity.
Qed.

Lemma csv_read_back ps (history : list (list sampler_state)) lst : wf_map ps -> clean_names ps ->
  Forall (Forall (fits ps)) history -> Forall (fun e => e <> []) history -> history <> [] ->
  exists t, csv_history to_string to_string_u ps history = Ok (OS t (length t) false, get_sampler_csv_columns ps) /\
    initial_params_from_csv stod t =
    Ok (map (fun st => rounded_map (walker_store ps st)) (List.last history lst)).
Proof.
  intros Hw Hc Hf Hn Hne.
  assert (forall k, In k reserved -> ~ In k (mkeys ps)) as Hr.
  { intros k H1 H2. destruct (Hc k H2) as [_ [_ H3]]. auto. }
  eexists. split; [rewrite csv_history_spec by assumption; reflexivity|]. cbn [appended os_buf app].
  assert (Forall (fun t => clean t /\ t <> []) (map chars (get_sampler_csv_columns ps))) as Hcol.
  { unfold get_sampler_csv_columns. rewrite map_app. apply Forall_app. split.
    - repeat constructor; cbn; try discriminate; intuition discriminate.
    - apply Forall_forall. intros t Ht. apply in_map_iff in Ht as [k [<- Hk]]. destruct (Hc k Hk) as [H1 [H2 _]]. auto. }
  unfold initial_params_from_csv. rewrite split_string_lines.
  - cbn [map]. rewrite split_string_join; [|discriminate|].
    + cbn [get_sampler_csv_columns app map nth_error of_option bind].
      rewrite !string_of_chars. rewrite !String.eqb_refl. cbn [assert_then].
      destruct history as [|e history]; [congruence|]. inversion Hf as [|? ? He Hf']; subst. inversion Hn as [|? ? Hne0 Hn']; subst.
      unfold indexed. cbn [length seq combine map concat]. rewrite map_app, foldM_app.
      change (chars "iteration" :: chars "log_probability" :: chars "ensemble_index" :: map chars (mkeys ps))
        with (map chars (get_sampler_csv_columns ps)).
      assert (foldM (csv_read_step stod (map chars (get_sampler_csv_columns ps)))
         (map (join comma) (iteration_lines ps (0, e))) (XFin (INR 0), []) =
         Ok (XFin (INR 0), map (fun st => rounded_map (walker_store ps st)) e)) as E0.
      { unfold iteration_lines, indexed. cbn [fst snd]. rewrite (read_iteration ps 0) by (assumption || apply indexed_Forall, He).
        cbn [app]. do 2 f_equal. apply (map_snd_indexed (fun st => rounded_map (walker_store ps st))). }
      change (XFin 0) with (XFin (INR 0)). rewrite E0. cbn [bind].
      rewrite (read_history ps history Hw Hf' Hn' 0 lst). cbn [bind snd]. destruct history; reflexivity.
    + eapply Forall_impl; [|exact Hcol]. intros t [[H1 _] H2]. auto.
  - constructor.
    + eapply Forall_impl; [|exact Hcol]. intros t [H1 _]. exact H1.
    + apply Forall_forall. intros l Hl. apply in_concat in Hl as [ls [H1 H2]]. apply in_map_iff in H1 as [ie [<- _]].
      unfold iteration_lines in H2. apply in_map_iff in H2 as [ix [<- _]]. apply walker_fields_ok.
Qed.

(* overlay: the given values, clamped *)
Definition overlaid (value : xr -> xr) (s : store) : store :=
  map (fun kp => (fst kp, Param (clamp (snd kp) (value (p_value (snd kp)))) (p_prior (snd kp)))) s.

Lemma overlay_spec (vm : smap string xr) : forall (done todo : store),
  wf_map (done ++ todo) -> mkeys vm = mkeys todo ->
  fold_left overlay_step vm (done ++ todo) =
  done ++ map (fun kpv => (fst (fst kpv), Param (clamp (snd (fst kpv)) (snd kpv)) (p_prior (snd (fst kpv))))) (combine todo (mvals vm)).
Proof.
  induction vm as [|[k v] vm IH]; intros done todo Hw Hk; destruct todo as [|[k' p] todo]; try discriminate; [reflexivity|].
  cbn [mkeys map fst] in Hk. injection Hk as -> Hk. cbn [fold_left].
  assert (overlay_step (done ++ (k', p) :: todo) (k', v) = (done ++ [(k', Param (clamp p v) (p_prior p))]) ++ todo) as ->.
  { unfold overlay_step. cbn [fst snd].
    assert (mfind k' (done ++ (k', p) :: todo) = Some p) as ->.
    { apply mfind_In; [exact Hw|]. apply in_or_app. right. left. reflexivity. }
    rewrite massign_replace by exact Hw. rewrite <- app_assoc. reflexivity. }
  rewrite IH.
  - cbn [mvals map snd combine fst]. rewrite <- app_assoc. reflexivity.
  - eapply wf_map_same_keys; [|exact Hw]. unfold mkeys. rewrite !map_app. cbn. rewrite <- app_assoc. reflexivity.
  - exact Hk.
Qed.

Lemma walker_same_prior ps st : fits ps st -> Forall2 (fun a b => fst a = fst b /\ p_prior (snd a) = p_prior (snd b)) ps (walker_store ps st).
Proof.
  unfold fits, walker_store. generalize (ss_params st) as x. induction ps as [|[k p] ps IH]; intros x Hx; [constructor|].
  cbn [assign_tunables]. destruct (param_fixed p) eqn:E.
  - constructor; [auto|]. apply IH. rewrite Hx. unfold tunables. cbn. rewrite E. reflexivity.
  - destruct x as [|v x]; [unfold tunables in Hx; cbn in Hx; rewrite E in Hx; discriminate|].
    constructor; [auto|]. apply IH. unfold tunables in *. cbn in Hx. rewrite E in Hx. cbn in Hx. lia.
Qed.

Lemma clamp_same_prior p q v : p_prior p = p_prior q -> clamp p v = clamp q v.
Proof. unfold clamp, lb, ub. intros ->. reflexivity. Qed.

Lemma overlay_walker ps st : wf_map ps -> fits ps st ->
  fold_left overlay_step (rounded_map (walker_store ps st)) ps = overlaid rounded (walker_store ps st).
Proof.
  intros Hw Hf. rewrite (overlay_spec _ [] ps).
  - cbn [app]. unfold overlaid, rounded_map, mvals. rewrite map_map. cbn [snd].
    pose proof (walker_same_prior ps st Hf) as H2. clear Hw Hf. induction H2 as [|[k p] [k' q] l l' [H1 H2] _ IH]; [reflexivity|].
    cbn [map combine fst snd] in *. subst k'. rewrite IH, H2. f_equal. f_equal. f_equal. apply clamp_same_prior, H2.
  - exact Hw.
  - unfold rounded_map, mkeys. rewrite map_map. cbn [fst]. apply (walker_keys ps st Hf).
Qed.

Lemma clamp_not_outside p v : xleb (lb p) (ub p) = true ->
  not_outside (Param (clamp p v) (p_prior p)).
Proof.
  intros Hb. unfold not_outside, lb, ub in *. cbn [p_value p_prior]. unfold clamp, lb, ub.
  destruct (xltb v (lower_bound (p_prior p))) eqn:E1.
  - split; [apply xltb_irrefl|apply xleb_ltb, Hb].
  - destruct (xltb (upper_bound (p_prior p)) v) eqn:E2; [|auto].
    split; [apply xleb_ltb, Hb|apply xltb_irrefl].
Qed.

Lemma tunables_overlaid f s : map (fun kp => seen (snd kp) (p_value (snd kp))) (tunables (overlaid f s)) =
  map (fun kp => seen (snd kp) (clamp (snd kp) (f (p_value (snd kp))))) (tunables s).
Proof.
  unfold tunables, overlaid. induction s as [|[k p] s IH]; [reflexivity|].
  cbn [map filter snd fst].
  change (param_fixed (Param (clamp p (f (p_value p))) (p_prior p))) with (param_fixed p).
  destruct (param_fixed p); cbn [negb map snd]; [exact IH|]. rewrite IH. reflexivity.
Qed.

Lemma tunables_walker ps st : fits ps st ->
  map (fun kp => seen (snd kp) (clamp (snd kp) (rounded (p_value (snd kp))))) (tunables (walker_store ps st)) =
  map (fun kv => seen (snd (fst kv)) (clamp (snd (fst kv)) (rounded (clamp (snd (fst kv)) (unseen (snd (fst kv)) (snd kv))))))
      (combine (tunables ps) (ss_params st)).
Proof.
  intros Hf. unfold walker_store. rewrite tunables_assign by (symmetry; exact Hf).
  rewrite map_map. apply map_ext. intros [[k p] v]. reflexivity.
Qed.

Lemma csv_read_back_store ps (history : list (list sampler_state)) lst : wf_map ps -> clean_names ps ->
  Forall (fun kp => xleb (lb (snd kp)) (ub (snd kp)) = true) ps ->
  Forall (Forall (fits ps)) history -> Forall (fun e => e <> []) history -> history <> [] ->
  exists t, csv_history to_string to_string_u ps history = Ok (OS t (length t) false, get_sampler_csv_columns ps) /\
    initial_params_from_csv_store stod ps t =
    Ok (map (fun st => map (fun kv => let p := snd (fst kv) in
                seen p (clamp p (rounded (clamp p (unseen p (snd kv)))))) (combine (tunables ps) (ss_params st)))
            (List.last history lst)).
Proof.
  intros Hw Hc Hb Hf Hn Hne. destruct (csv_read_back ps history lst) as [t [E1 E2]]; try assumption.
  exists t. split; [exact E1|]. unfold initial_params_from_csv_store. rewrite E2. cbn [bind].
  assert (Forall (fits ps) (List.last history lst)) as Hl.
  { clear -Hf Hne. induction Hf as [|e l He Hf IH]; [congruence|]. destruct l; [exact He|]. apply IH. discriminate. }
  clear -Hl Hw Hb. induction Hl as [|st l Hst _ IH]; [reflexivity|]. cbn [map mapM]. 
  assert (length (rounded_map (walker_store ps st)) = length ps) as ->.
  { unfold rounded_map. rewrite map_length. symmetry. eapply Forall2_len, (walker_same_prior ps st Hst). }
  rewrite Nat.eqb_refl. cbn [assert_then]. rewrite overlay_walker by assumption.
  assert (Forall (fun kp => not_outside (snd kp)) (tunables (overlaid rounded (walker_store ps st)))) as Hno.
  { apply Forall_forall. intros kp Hin. apply filter_In in Hin as [Hin _]. unfold overlaid in Hin.
    apply in_map_iff in Hin as [[k q] [<- Hin]]. cbn [snd fst]. apply clamp_not_outside.
    destruct (In_nth_error _ _ Hin) as [i Hi].
    pose proof (walker_same_prior ps st Hst) as H2.
    assert (i < length ps) as Hlt. { rewrite (Forall2_len _ _ _ H2). apply nth_error_Some. congruence. }
    destruct (nth_error_lt ps i Hlt) as [[k' p] Hp].
    apply Forall2_nth_error_iff in H2 as [_ H2]. destruct (H2 i _ _ Hp Hi) as [_ Ep]. cbn [snd] in Ep.
    rewrite Forall_forall in Hb. specialize (Hb _ (nth_error_In _ _ Hp)). cbn [snd] in Hb.
    unfold lb, ub in *. rewrite <- Ep. exact Hb. }
  destruct (get_tunable_spec (overlaid rounded (walker_store ps st))) as [[_ E]|[E _]]; [|contradiction].
  rewrite E. cbn [bind tp_values tp_of]. rewrite IH. cbn [bind]. rewrite tunables_overlaid, tunables_walker by exact Hst. reflexivity.
Qed.
End Sampler.

(* ---- matrices ---- *)
Lemma write_cells {D} (format : D -> string) cols : forall (row : list D) j s, at_end s -> j + length row = cols ->
  fold_left (write_matrix_cell format cols) (combine (seq j (length row)) row) s =
  appended s (join comma (map (fun x => chars (format x)) row)).
Proof.
  induction row as [|x row IH]; intros j s Hs Hl; cbn [length seq combine fold_left map].
  - symmetry. apply appended_nil, Hs.
  - cbn [length] in Hl. unfold write_matrix_cell at 2. cbn [fst snd]. rewrite !(os_put_end s) by exact Hs.
    destruct row as [|y row].
    + destruct (Nat.ltb_spec (S j) cols); [cbn in Hl; lia|]. reflexivity.
    + cbn [length] in Hl. destruct (Nat.ltb_spec (S j) cols); [|lia].
      rewrite os_put_end by apply appended_end. rewrite appended_app. rewrite IH by (apply appended_end || (cbn; lia)).
      rewrite appended_app. cbn [map]. rewrite join_cons, <- app_assoc. reflexivity.
Qed.

Lemma write_matrix_spec {D} (format : D -> string) (x : list (list D)) cols s :
  Forall (fun r => length r = cols) x -> at_end s ->
  write_matrix_to_csv format s x cols =
  appended s (join newline (map (fun row => join comma (map (fun v => chars (format v)) row)) x)).
Proof.
  intros Hf Hs. unfold write_matrix_to_csv.
  assert (forall (x0 : list (list D)) i s, at_end s -> Forall (fun r => length r = cols) x0 -> i + length x0 = length x ->
    fold_left (fun s ir => let s := fold_left (write_matrix_cell format cols) (combine (seq 0 cols) (snd ir)) s in
      if S (fst ir) <? length x then os_put s [newline] else s) (combine (seq i (length x0)) x0) s =
    appended s (join newline (map (fun row => join comma (map (fun v => chars (format v)) row)) x0))) as HH;
    [|apply HH; auto].
  clear s Hs Hf. induction x0 as [|r x0 IH]; intros i s Hs Hf Hl; cbn [length seq combine fold_left map].
  - symmetry. apply appended_nil, Hs.
  - inversion Hf as [|? ? Hr Hf']; subst. cbn [length] in Hl. cbv zeta. cbn [fst snd].
    rewrite write_cells by (assumption || reflexivity). destruct x0 as [|r' x0].
    + destruct (Nat.ltb_spec (S i) (length x)); [cbn in Hl; lia|]. reflexivity.
    + cbn [length] in Hl. destruct (Nat.ltb_spec (S i) (length x)); [|lia].
      rewrite os_put_end by apply appended_end. rewrite appended_app. cbv zeta in IH.
      rewrite IH by (apply appended_end || assumption || (cbn; lia)).
      rewrite appended_app. cbn [map]. rewrite join_cons, <- app_assoc. reflexivity.
Qed.

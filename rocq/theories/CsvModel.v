(* Model of utils/csv_utils.hpp and of the CSV part of samplers/callbacks.hpp and
   samplers/initialization.hpp. *)
From Coq Require Import Reals String Ascii.
From Verif Require Import Base StdMapModel StringKeyModel MapUtilsModel ExtRealModel PriorModel ParamsModel
  DatasetModel.

Definition text := list ascii.
Definition chars (s : string) : text := list_ascii_of_string s.
Definition comma : ascii := ",".
Definition newline : ascii := "010".

(* A std::ostream writing to a string or a file that is not in append mode: its
   characters, the put position, and fail(). *)
Record ostream := OS { os_buf : text; os_pos : nat; os_fail : bool }.

(* operator<< : overwrites from the put position on *)
Definition os_put (s : ostream) (t : text) : ostream :=
  if os_fail s then s
  else OS (firstn (os_pos s) (os_buf s) ++ t ++ skipn (os_pos s + length t) (os_buf s))
          (os_pos s + length t) false.

(* seekp(-1, end): sets failbit if there is no such position *)
Definition os_seek_last (s : ostream) : ostream :=
  if os_fail s then s
  else match os_buf s with
       | [] => OS (os_buf s) (os_pos s) true
       | _ => OS (os_buf s) (length (os_buf s) - 1) false
       end.

(* replace_last_character_with_newline, utils/csv_utils.hpp:170-173 *)
Definition replace_last_character_with_newline (s : ostream) : ostream :=
  os_put (os_seek_last s) [newline].

(* write_row, utils/csv_utils.hpp:187-197 *)
Definition write_row_step (row : smap string string) (s : ostream) (col : string) : ostream :=
  os_put (match mfind col row with Some v => os_put s (chars v) | None => s end) [comma].
Definition write_row (s : ostream) (row : smap string string) (columns : list string) : ostream :=
  replace_last_character_with_newline (fold_left (write_row_step row) columns s).

(* write_header, utils/csv_utils.hpp:199-205 *)
Definition write_header (s : ostream) (columns : list string) : ostream :=
  replace_last_character_with_newline
    (fold_left (fun s col => os_put (os_put s (chars col)) [comma]) columns s).

(* The part of a prediction write_to_csv uses: mean, diagonal of the covariance
   and metadata (core/distribution.hpp:36-60) *)
Record csv_prediction (D : Type) := CP { cp_dist : marginal D; cp_metadata : smap string string }.
Arguments CP {D}.
Arguments cp_dist {D}.
Arguments cp_metadata {D}.

Section WriteToCsv.
Context {X D : Type}.
Variable feature_to_map : X -> smap string string.  (* to_map(feature), utils/csv_utils.hpp:63-127 or a user's overload: any function *)
Variable to_string : D -> string.                   (* std::to_string(double) *)

(* to_map(feature, target, ...), utils/csv_utils.hpp:129-139 *)
Definition to_map_values (feature : X) (target target_variance prediction prediction_variance : D)
  : smap string string :=
  massign "prediction_variance"%string (to_string prediction_variance)
    (massign "prediction"%string (to_string prediction)
      (massign "target_variance"%string (to_string target_variance)
        (massign "target"%string (to_string target) (feature_to_map feature)))).

(* to_map(dataset, predictions, i), utils/csv_utils.hpp:145-163 *)
Definition to_map (d : dataset X D) (predictions : csv_prediction D) (i : nat)
  : outcome (smap string string) :=
  n <- marginal_size (ds_targets d) ;;
  m <- marginal_size (cp_dist predictions) ;;
  assert_then (n =? m)
    (assert_then (i <? length (ds_features d))
      (target_variance <- of_option Abort (nth_error (m_var (ds_targets d)) i) ;;
       predict_variance <- of_option Abort (nth_error (m_var (cp_dist predictions)) i) ;;
       feature <- of_option UB (nth_error (ds_features d) i) ;;
       target <- of_option Abort (nth_error (m_mean (ds_targets d)) i) ;;
       prediction <- of_option Abort (nth_error (m_mean (cp_dist predictions)) i) ;;
       let row := to_map_values feature target target_variance prediction predict_variance in
       let row := map_join row (ds_metadata d) in
       Ok (map_join row (cp_metadata predictions)))).

(* get_column_names, utils/csv_utils.hpp:175-185 *)
Definition get_column_names (d : dataset X D) (predictions : csv_prediction D) : outcome (list string) :=
  foldM (fun keys i => row <- to_map d predictions i ;;
                       Ok (fold_left (fun keys k => sinsert k keys) (mkeys row) keys))
    (seq 0 (length (ds_features d))) [].

(* write_to_csv(stream, dataset, predictions, columns), utils/csv_utils.hpp:207-217 *)
Definition write_to_csv_columns (s : ostream) (d : dataset X D) (predictions : csv_prediction D)
  (columns : list string) : outcome ostream :=
  foldM (fun s i => row <- to_map d predictions i ;; Ok (write_row s row columns))
    (seq 0 (length (ds_features d))) s.

(* write_to_csv(stream, dataset, predictions, include_header),
   utils/csv_utils.hpp:219-229 *)
Definition write_to_csv (s : ostream) (d : dataset X D) (predictions : csv_prediction D)
  (include_header : bool) : outcome ostream :=
  columns <- get_column_names d predictions ;;
  write_to_csv_columns (if include_header then write_header s columns else s) d predictions columns.

(* write_to_csv(stream, dataset, include_header), utils/csv_utils.hpp:234-241;
   MarginalDistribution(mean) has a zero covariance (core/distribution.hpp:71-75) *)
Definition write_to_csv_dataset (zero : D) (s : ostream) (d : dataset X D) (include_header : bool)
  : outcome ostream :=
  let zeros := repeat zero (length (m_mean (ds_targets d))) in
  write_to_csv s d (CP (Marg zeros zeros) []) include_header.

(* write_to_csv(stream, datasets, predictions), utils/csv_utils.hpp:243-255 *)
Definition write_to_csv_list (s : ostream) (datasets : list (dataset X D))
  (predictions : list (csv_prediction D)) : outcome ostream :=
  d0 <- of_option UB (nth_error datasets 0) ;;
  p0 <- of_option UB (nth_error predictions 0) ;;
  columns <- get_column_names d0 p0 ;;
  let s := write_header s columns in
  assert_then (length datasets =? length predictions)
    (foldM (fun s dp => write_to_csv_columns s (fst dp) (snd dp) columns) (combine datasets predictions) s).
End WriteToCsv.

(* write_to_csv(stream, matrix), utils/csv_utils.hpp:257-271; the matrix as the
   list of its rows, all with cols entries; format is operator<< for the scalar *)
Definition write_matrix_cell {D} (format : D -> string) (cols : nat) (s : ostream) (jx : nat * D) : ostream :=
  let s := os_put s (chars (format (snd jx))) in
  if S (fst jx) <? cols then os_put s [comma] else s.
Definition write_matrix_to_csv {D} (format : D -> string) (s : ostream) (x : list (list D)) (cols : nat) : ostream :=
  fold_left (fun s ir =>
      let s := fold_left (write_matrix_cell format cols) (combine (seq 0 cols) (snd ir)) s in
      if S (fst ir) <? length x then os_put s [newline] else s)
    (combine (seq 0 (length x)) x) s.

(* ---- sampler output ---- *)
(* SamplerState, samplers/state.hpp:18-22 *)
Record sampler_state := SS { ss_params : list xr; ss_log_prob : xr; ss_accepted : bool }.

(* getline(stream, line, delimiter) until it fails: the last piece is dropped if
   it is empty. split_string, samplers/initialization.hpp:18-27 *)
Fixpoint getlines (delimiter : ascii) (t : text) (token : text) : list text :=
  match t with
  | [] => match token with [] => [] | _ => [rev token] end
  | c :: t' => if Ascii.eqb c delimiter then rev token :: getlines delimiter t' []
               else getlines delimiter t' (c :: token)
  end.
Definition split_string (t : text) (delimiter : ascii) : list text := getlines delimiter t [].

Section SamplerCsv.
Variable to_string : xr -> string.          (* std::to_string(double) *)
Variable to_string_u : nat -> string.       (* std::to_string(std::size_t) *)
Variable stod : text -> option xr.          (* std::stod, None if it throws *)

(* get_sampler_csv_columns, samplers/callbacks.hpp:22-31 *)
Definition get_sampler_csv_columns (example : store) : list string :=
  ["iteration"; "log_probability"; "ensemble_index"]%string ++ mkeys example.

(* write_ensemble_sampler_state, samplers/callbacks.hpp:33-50;
   force_bounds defaults to true (core/parameters.hpp:173) *)
Definition sampler_row (params : store) (iteration i : nat) (log_prob : xr) : smap string string :=
  massign "ensemble_index"%string (to_string_u i)
    (massign "log_probability"%string (to_string log_prob)
      (massign "iteration"%string (to_string_u iteration)
        (massign_all (map (fun kp => (fst kp, to_string (p_value (snd kp)))) params) []))).
Definition write_ensemble_sampler_state (s : ostream) (param_store : store)
  (ensemble : list sampler_state) (iteration : nat) (columns : list string) : outcome ostream :=
  foldM (fun s ix => params <- set_tunable_params_values param_store (ss_params (snd ix)) true ;;
                     Ok (write_row s (sampler_row params iteration (fst ix) (ss_log_prob (snd ix))) columns))
    (combine (seq 0 (length ensemble)) ensemble) s.

(* CsvWritingCallback::operator(), samplers/callbacks.hpp:89-97; the state of the
   callback is its stream and its columns *)
Definition csv_callback (param_store : store) (st : ostream * list string) (iteration : nat)
  (ensemble : list sampler_state) : outcome (ostream * list string) :=
  let st := if iteration =? 0 then
              (write_header (fst st) (get_sampler_csv_columns param_store), get_sampler_csv_columns param_store)
            else st in
  s <- write_ensemble_sampler_state (fst st) param_store ensemble iteration (snd st) ;;
  Ok (s, snd st).

(* the callback called with iterations 0, 1, ... as ensemble_sampler does
   (samplers/ensemble.hpp:139-152) *)
Definition csv_history (param_store : store) (history : list (list sampler_state))
  : outcome (ostream * list string) :=
  foldM (fun st ie => csv_callback param_store st (fst ie) (snd ie))
    (combine (seq 0 (length history)) history) (OS [] 0 false, []).

(* parse_line, samplers/initialization.hpp:29-40 *)
Definition parse_line (line : text) : list xr :=
  map (fun s => match stod s with Some v => v | None => XNaN end) (split_string line comma).

(* initial_params_from_csv(stream), samplers/initialization.hpp:42-77; columns[0..2]
   and values[0] are not checked *)
Definition csv_read_step (columns : list text) (st : xr * list (smap string xr)) (line : text)
  : outcome (xr * list (smap string xr)) :=
  let values := parse_line line in
  v0 <- of_option UB (nth_error values 0) ;;
  let st := if xltb (fst st) v0 then (v0, []) else st in
  assert_then (length values =? length columns)
    (Ok (fst st, snd st ++ [massign_all (combine (map string_of_list_ascii (skipn 3 columns)) (skipn 3 values)) []])).
Definition initial_params_from_csv (t : text) : outcome (list (smap string xr)) :=
  match split_string t newline with
  | [] => Abort
  | line :: rest =>
      let columns := split_string line comma in
      c0 <- of_option UB (nth_error columns 0) ;;
      assert_then (String.eqb (string_of_list_ascii c0) "iteration")
      (c1 <- of_option UB (nth_error columns 1) ;;
       assert_then (String.eqb (string_of_list_ascii c1) "log_probability")
       (c2 <- of_option UB (nth_error columns 2) ;;
        assert_then (String.eqb (string_of_list_ascii c2) "ensemble_index")
        (r <- foldM (csv_read_step columns) rest (XFin 0, []) ;;
         Ok (snd r))))
  end.

(* initial_params_from_csv(param_store, stream), samplers/initialization.hpp:79-97;
   operator[] creates a default parameter for a missing name *)
Definition default_parameter : parameter := Param (XFin 0) UninformativePrior.
Definition overlay_step (params : store) (kv : string * xr) : store :=
  let p := match mfind (fst kv) params with Some p => p | None => default_parameter end in
  massign (fst kv) (Param (ensure_value_within_bounds p (snd kv)) (p_prior p)) params.
Definition initial_params_from_csv_store (param_store : store) (t : text) : outcome (list (list xr)) :=
  all_params <- initial_params_from_csv t ;;
  mapM (fun value_map : smap string xr =>
      assert_then (length value_map =? length param_store)
        (tp <- get_tunable_parameters (fold_left overlay_step value_map param_store) ;;
         Ok (tp_values tp)))
    all_params.
End SamplerCsv.

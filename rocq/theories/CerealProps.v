(* Properties C32, C33, C34 and C66 of properties.jsonl. *)
From Coq Require Import Reals Lra ZArith String.
From Verif Require Import Base StdMapModel StringKeyModel ExtRealModel PriorModel ParamsModel ParamsSpec CerealModel CerealSpec CerealProofs.
Open Scope string_scope.
Open Scope nat_scope.
Open Scope list_scope.

(* lower triangles: size and entries on and below the diagonal, whatever was above *)
Theorem C32_round_trip : forall bytes text enc dec, base64_ok enc dec -> forall E zc zd gd, zstd_ok zc zd -> forall m : matrix E,
  wf_matrix m -> rows E m = cols E m ->
  exists s, save_lower_triangle bytes text enc dec E zc zd gd m = Ok s /\
  forall unset, exists m', (forall rest, load_lower_triangle bytes text enc dec E zc zd gd unset (s ++ rest) = Ok (m', rest)) /\
    wf_matrix m' /\ rows E m' = rows E m /\ cols E m' = cols E m /\
    forall i j, i < rows E m -> j < rows E m -> entry E m' i j = if j <=? i then entry E m i j else Some (unset i j).
Proof.
  intros bytes text enc dec Hb E zc zd gd Hz m W Hsq. rewrite <- Hsq. apply (lower_restores bytes text enc dec Hb E zc zd gd Hz m W). lia.
Qed.
Print Assumptions C32_round_trip.

(* the number of rows is recovered exactly from the number of entries, and other numbers are rejected *)
Theorem C32_rows : forall s,
  (forall n, 2 * s = n * (n + 1) -> triangle_rows s = Ok n) /\
  ((forall n, 2 * s <> n * (n + 1)) -> triangle_rows s = Abort).
Proof. exact triangle_rows_spec. Qed.
Print Assumptions C32_rows.
Theorem C32_rejects : forall bytes text enc dec, base64_ok enc dec -> forall E zc zd gd, zstd_ok zc zd -> forall d unset rest s,
  (forall n, 2 * length d <> n * (n + 1)) ->
  save (named bytes "lower_triangle" (c_dense bytes text enc dec E zc zd gd)) (vec E d) = Ok s ->
  load_lower_triangle bytes text enc dec E zc zd gd unset (s ++ rest) = Abort.
Proof. exact lower_rejects. Qed.
Print Assumptions C32_rejects.

(* dense matrices, empty ones included *)
Theorem C33_dense : forall bytes text enc dec, base64_ok enc dec -> forall E zc zd gd, zstd_ok zc zd -> forall m : matrix E,
  wf_matrix m -> restores (c_dense bytes text enc dec E zc zd gd) m.
Proof. exact dense_restores. Qed.
Print Assumptions C33_dense.

(* older archives with gzip payloads are read, if the size is right *)
Theorem C33_dense_gzip : forall bytes text enc dec, base64_ok enc dec -> forall E zc zd gd r c d rest (b : bytes),
  r * c <> 0 -> zd b (r * c) = None -> gd b = Some d ->
  load (c_dense bytes text enc dec E zc zd gd)
    ([("rows", TOpen); ("", TNat r); ("cols", TOpen); ("", TNat c); ("payload", TOpen); ("", TBytes (if text then enc b else b))] ++ rest) =
  if length d =? r * c then Ok (Matrix E r c d, rest) else Abort.
Proof. exact dense_gzip. Qed.
Print Assumptions C33_dense_gzip.

Theorem C33_variant : forall bytes V typeid version alts which v c,
  nth_error alts which = Some c -> restores c v -> restores (c_variant bytes V typeid version alts) (which, v).
Proof. exact variant_restores. Qed.
Print Assumptions C33_variant.
Theorem C33_variant_rejects : forall bytes V typeid version alts which id rest, length alts <= which ->
  load (c_variant bytes V typeid version alts)
    (("which", TOpen) :: ("", TNat which) :: (if 0 <? version then [("which_typeid", TOpen); ("", TStr id)] else []) ++ rest) = Abort.
Proof. exact variant_rejects. Qed.
Print Assumptions C33_variant_rejects.

(* thread pools: the number of threads; a pool of one thread comes back as none *)
Theorem C33_thread_pool : forall bytes pool rest, exists s, save_pool bytes pool = Ok s /\
  load_pool bytes (s ++ rest) = Ok (match pool with Some 0 => None | Some 1 => None | p => p end, rest).
Proof. exact pool_spec. Qed.
Print Assumptions C33_thread_pool.

(* sparse matrices: what is loaded is the transpose of the first half of the entries,
   or an assertion fails if that does not fit the shape *)
Theorem C34_sparse : forall bytes text enc dec, base64_ok enc dec -> forall E zero plus, (forall x : E, plus x zero = x) ->
  forall gc gd, gzip_ok gc gd -> forall m : sparse E, wf_sparse m ->
  exists s, save_sparse bytes text enc E gc m = Ok s /\ forall rest,
    let nnz := length (stored E m) in
    (flipped_inside m ((nnz + 1) / 2) = true -> exists f,
       load_sparse bytes text dec E zero plus gd (s ++ rest) = Ok (srows E m, scols E m, f, rest) /\
       forall i j, f i j = sum_at E zero plus (firstn (nnz / 2) (stored E m)) j i) /\
    (flipped_inside m ((nnz + 1) / 2) = false -> load_sparse bytes text dec E zero plus gd (s ++ rest) = Abort).
Proof. exact sparse_spec. Qed.
Print Assumptions C34_sparse.

(* hence a matrix with one entry loads as zero, for every encoding *)
Theorem C34_round_trip_refuted : forall bytes text enc dec, base64_ok enc dec -> forall gc gd, gzip_ok gc gd ->
  exists (m : sparse Z) s f, wf_sparse m /\ save_sparse bytes text enc Z gc m = Ok s /\
    load_sparse bytes text dec Z 0%Z Z.add gd s = Ok (srows Z m, scols Z m, f, []) /\
    sparse_at Z 0%Z Z.add m 0 0 = 5%Z /\ f 0 0 = 0%Z.
Proof.
  intros bytes text enc dec Hb gc gd Hg. set (m := Sparse Z 1 1 [(0, 0, 5%Z)]).
  assert (wf_sparse m) as W by (repeat constructor).
  destruct (sparse_spec bytes text enc dec Hb Z 0%Z Z.add Z.add_0_r gc gd Hg m W) as [s [Es L]].
  destruct (L []) as [L1 _]. destruct (L1 eq_refl) as [f [Ef Hf]]. rewrite app_nil_r in Ef.
  exists m, s, f. repeat split; try assumption. rewrite Hf. reflexivity.
Qed.
Print Assumptions C34_round_trip_refuted.

(* a wide matrix can not be loaded at all *)
Theorem C34_not_square_refuted : forall bytes text enc dec, base64_ok enc dec -> forall gc gd, gzip_ok gc gd ->
  exists (m : sparse Z) s, wf_sparse m /\ save_sparse bytes text enc Z gc m = Ok s /\
    load_sparse bytes text dec Z 0%Z Z.add gd s = Abort.
Proof.
  intros bytes text enc dec Hb gc gd Hg. set (m := Sparse Z 1 3 [(0, 2, 5%Z); (0, 2, 7%Z)]).
  assert (wf_sparse m) as W by (repeat constructor; cbn; lia).
  destruct (sparse_spec bytes text enc dec Hb Z 0%Z Z.add Z.add_0_r gc gd Hg m W) as [s [Es L]].
  exists m, s. destruct (L []) as [_ L2]. rewrite app_nil_r in L2. repeat split; try assumption. exact (L2 eq_refl).
Qed.
Print Assumptions C34_not_square_refuted.

(* ---- the types of the library ---- *)
Theorem C66_parameters : forall bytes typeid (s : store), wf_map s -> restores (c_store bytes typeid) s.
Proof. exact store_restores. Qed.
Print Assumptions C66_parameters.

(* a model loaded over another with the same parameters, whatever their values, has
   the saved name, parameters and insights *)
Theorem C66_gp_model : forall bytes typeid gp gp0 version,
  separate (gp_handler gp) -> separate (gp_handler gp0) -> wf_map (gp_insights gp) ->
  mkeys (get_params (gp_handler gp)) = mkeys (get_params (gp_handler gp0)) -> 0 < version ->
  exists s, save_gp bytes typeid gp = Ok s /\ exists gp', (forall rest, load_gp bytes typeid version gp0 (s ++ rest) = Ok (gp', rest)) /\
    gp_name gp' = gp_name gp /\ get_params (gp_handler gp') = get_params (gp_handler gp) /\ gp_insights gp' = gp_insights gp.
Proof. exact gp_restores. Qed.
Print Assumptions C66_gp_model.
Theorem C66_gp_model_rejects : forall bytes typeid gp gp0 version s rest,
  separate (gp_handler gp) -> separate (gp_handler gp0) -> wf_map (gp_insights gp) -> 0 < version ->
  (exists k, In k (mkeys (get_params (gp_handler gp))) /\ ~ In k (mkeys (get_params (gp_handler gp0)))) ->
  save_gp bytes typeid gp = Ok s -> load_gp bytes typeid version gp0 (s ++ rest) = Abort.
Proof. exact gp_rejects. Qed.
Print Assumptions C66_gp_model_rejects.

Theorem C66_distribution : forall bytes text enc dec, base64_ok enc dec -> forall E zc zd gd, zstd_ok zc zd ->
  forall (mean cov : matrix E) meta, wf_matrix mean -> wf_matrix cov -> wf_map meta ->
  restores (c_distribution bytes text enc dec E zc zd gd) (mean, cov, meta).
Proof. exact distribution_restores. Qed.
Print Assumptions C66_distribution.
Theorem C66_dataset : forall bytes text enc dec, base64_ok enc dec -> forall E zc zd gd, zstd_ok zc zd ->
  forall X (cx : codec bytes X) xs (mean cov : matrix E) meta meta', Forall (restores cx) xs ->
  wf_matrix mean -> wf_matrix cov -> wf_map meta -> wf_map meta' ->
  restores (c_dataset bytes text enc dec E zc zd gd cx) (xs, (mean, cov, meta), meta').
Proof. intros bytes text enc dec Hb E zc zd gd Hz X. exact (dataset_restores bytes text enc dec Hb E zc zd gd Hz). Qed.
Print Assumptions C66_dataset.

(* factorizations compare equal to what was saved *)
Theorem C66_ldlt : forall bytes text enc dec, base64_ok enc dec -> forall E zc zd gd, zstd_ok zc zd ->
  forall ic id_ igd, zstd_ok ic id_ -> forall unset (l : ldlt E), wf_ldlt l ->
  restores_upto same_ldlt (c_ldlt bytes text enc dec E zc zd gd ic id_ igd unset) l.
Proof. exact ldlt_restores. Qed.
Print Assumptions C66_ldlt.
Theorem C66_ldlt_equal : forall E eqb (a b : ldlt E), (forall x, eqb x x = true) -> same_ldlt a b -> ldlt_eq E eqb a b = Ok true.
Proof. exact ldlt_eq_spec. Qed.
Print Assumptions C66_ldlt_equal.
(* but their l1 norm is lost: reading it is reading an uninitialized member *)
Theorem C66_ldlt_l1_norm_refuted : forall bytes text enc dec, base64_ok enc dec -> forall E zc zd gd, zstd_ok zc zd ->
  forall ic id_ igd, zstd_ok ic id_ -> forall unset (l : ldlt E) s l' rest, wf_ldlt l -> l_initialized E l = true ->
  save_ldlt bytes text enc dec E zc zd gd ic id_ igd l = Ok s ->
  load (c_ldlt bytes text enc dec E zc zd gd ic id_ igd unset) (s ++ rest) = Ok (l', rest) -> l1_norm E l' = UB.
Proof. exact ldlt_l1_lost. Qed.
Print Assumptions C66_ldlt_l1_norm_refuted.
(* and comparing with one that is not initialized fails an assertion instead of being false *)
Theorem C66_ldlt_equal_refuted : forall E eqb (a b : ldlt E), l_initialized E a <> l_initialized E b -> ldlt_eq E eqb a b = Abort.
Proof. exact ldlt_eq_uninitialized. Qed.
Print Assumptions C66_ldlt_equal_refuted.

Theorem C66_gp_fit : forall bytes text enc dec, base64_ok enc dec -> forall E zc zd gd, zstd_ok zc zd ->
  forall X C (cx : codec bytes X) R (cc : codec bytes C) (info : matrix E) cov xs,
  wf_matrix info -> restores_upto R cc cov -> Forall (restores cx) xs ->
  restores_upto (fun p q => fst (fst p) = fst (fst q) /\ R (snd (fst p)) (snd (fst q)) /\ snd p = snd q)
    (c_gp_fit bytes text enc dec E zc zd gd cx cc) (info, cov, xs).
Proof. intros bytes text enc dec Hb E zc zd gd Hz X C. exact (gp_fit_restores bytes text enc dec Hb E zc zd gd Hz). Qed.
Print Assumptions C66_gp_fit.
(* the numerical rank is kept from version 2 on, and is -1 for older archives *)
Theorem C66_sparse_gp_fit : forall bytes text enc dec, base64_ok enc dec -> forall E zc zd gd, zstd_ok zc zd ->
  forall ic id_ igd, zstd_ok ic id_ ->
  forall X C (cx : codec bytes X) R (cc : codec bytes C) version (info : matrix E) cov xs Rm P rank,
  wf_matrix info -> restores_upto R cc cov -> Forall (restores cx) xs -> wf_matrix Rm -> wf_matrix P ->
  exists s, save_sparse_fit bytes text enc dec E zc zd gd ic id_ igd cx cc version ((info, cov, xs), (Rm, P), rank) = Ok s /\
  exists cov', R cov cov' /\ forall rest,
    load_sparse_fit bytes text enc dec E zc zd gd ic id_ igd cx cc version (s ++ rest) =
    Ok (((info, cov', xs), (Rm, P), if 1 <? version then rank else (-1)%Z), rest).
Proof.
  intros bytes text enc dec Hb E zc zd gd Hz ic id_ igd Hi X C.
  exact (sparse_fit_restores bytes text enc dec Hb E zc zd gd Hz ic id_ igd Hi).
Qed.
Print Assumptions C66_sparse_gp_fit.
Theorem C66_block_symmetric : forall bytes text enc dec, base64_ok enc dec -> forall E zc zd gd, zstd_ok zc zd ->
  forall C R (cc : codec bytes C) a (b : matrix E) s, restores_upto R cc a -> restores_upto R cc s -> wf_matrix b ->
  restores_upto (fun p q => R (fst (fst p)) (fst (fst q)) /\ snd (fst p) = snd (fst q) /\ R (snd p) (snd q))
    (c_block_symmetric bytes text enc dec E zc zd gd cc) (a, b, s).
Proof. intros bytes text enc dec Hb E zc zd gd Hz C. exact (block_symmetric_restores bytes text enc dec Hb E zc zd gd Hz). Qed.
Print Assumptions C66_block_symmetric.
Theorem C66_linear_combination : forall bytes text enc dec, base64_ok enc dec -> forall E zc zd gd, zstd_ok zc zd ->
  forall X (cx : codec bytes X) xs (coefs : matrix E), Forall (restores cx) xs -> wf_matrix coefs ->
  restores (c_linear_combination bytes text enc dec E zc zd gd cx) (xs, coefs).
Proof. intros bytes text enc dec Hb E zc zd gd Hz X. exact (linear_combination_restores bytes text enc dec Hb E zc zd gd Hz). Qed.
Print Assumptions C66_linear_combination.
Theorem C66_ransac_output : forall bytes K (H : OrdKey K) (ck : codec bytes K) code best its, (forall k, restores ck k) ->
  Forall (fun it : list K * smap K xr * smap K xr * xr => wf_map (snd (fst (fst it))) /\ wf_map (snd (fst it))) (best :: its) ->
  restores (c_ransac_output bytes ck) (code, best, its).
Proof. intros bytes K H. exact (ransac_output_restores bytes). Qed.
Print Assumptions C66_ransac_output.
Theorem C66_fit_model : forall bytes typeid F R (cf : codec bytes F) gp gp0 version f,
  separate (gp_handler gp) -> separate (gp_handler gp0) -> wf_map (gp_insights gp) ->
  mkeys (get_params (gp_handler gp)) = mkeys (get_params (gp_handler gp0)) -> 0 < version -> restores_upto R cf f ->
  exists s, save_fit_model bytes typeid cf (gp, f) = Ok s /\ exists gp' f',
    (forall rest, load_fit_model bytes typeid cf version gp0 (s ++ rest) = Ok ((gp', f'), rest)) /\
    gp_name gp' = gp_name gp /\ get_params (gp_handler gp') = get_params (gp_handler gp) /\ gp_insights gp' = gp_insights gp /\ R f f'.
Proof. intros bytes typeid F. exact (fit_model_restores bytes typeid). Qed.
Print Assumptions C66_fit_model.

(* encodings that meet the contracts, and a matrix through them *)
Definition ex_zd (b : list nat) (n : nat) : option (list nat) := if length b =? n then Some b else None.
Lemma ex_zstd : @zstd_ok (list nat) nat (fun d => d) ex_zd.
Proof. intros d. unfold ex_zd. rewrite Nat.eqb_refl. reflexivity. Qed.
Lemma ex_base64 : @base64_ok (list nat) (@rev nat) (@rev nat).
Proof. intros b. apply rev_involutive. Qed.
Example C33_ex : restores (c_dense (list nat) true (@rev nat) (@rev nat) nat (fun d => d) ex_zd (fun b => Some b)) (Matrix nat 2 3 [1; 2; 3; 4; 5; 6]).
Proof. apply C33_dense; [exact ex_base64|exact ex_zstd|reflexivity]. Qed.
Example C32_ex : exists s, save_lower_triangle (list nat) true (@rev nat) (@rev nat) nat (fun d => d) ex_zd (fun b => Some b) (Matrix nat 2 2 [1; 2; 3; 4]) = Ok s /\
  load_lower_triangle (list nat) true (@rev nat) (@rev nat) nat (fun d => d) ex_zd (fun b => Some b) (fun _ _ => 0) s = Ok (Matrix nat 2 2 [1; 2; 0; 4], []).
Proof.
  eexists. split; [reflexivity|]. unfold load_lower_triangle. cbn - [triangle_rows].
  unfold ex_zd. cbn [length]. rewrite Nat.eqb_refl. change (3 =? 0) with false. cbn - [triangle_rows].
  rewrite (proj1 (C32_rows 3) 2) by reflexivity. reflexivity.
Qed.
Example C34_ex : wf_sparse (Sparse Z 2 2 [(0, 0, 1%Z); (1, 0, 2%Z); (1, 1, 3%Z)]) /\ flipped_inside (Sparse Z 2 2 [(0, 0, 1%Z); (1, 0, 2%Z); (1, 1, 3%Z)]) 2 = true.
Proof. split; [repeat constructor|reflexivity]. Qed.
Definition ex_gp (v : R) : gp_model := GpModel "m" (Leaf [("a", Param (XFin v) (UniformPrior (XFin 0) (XFin 1)))]) [("k", "v")].
Lemma ex_separate v : separate (gp_handler (ex_gp v)).
Proof. cbn. split; [repeat constructor|]. intros [H|[]]. discriminate. Qed.
Example C66_ex : exists s gp', save_gp nat (fun _ => "t") (ex_gp (1/2)) = Ok s /\
  load_gp nat (fun _ => "t") 2 (ex_gp (1/4)) s = Ok (gp', []) /\ get_params (gp_handler gp') = get_params (gp_handler (ex_gp (1/2))).
Proof.
  destruct (C66_gp_model nat (fun _ => "t") (ex_gp (1/2)) (ex_gp (1/4)) 2 (ex_separate _) (ex_separate _))
    as [s [E [gp' [L [_ [P _]]]]]]; [repeat constructor|reflexivity|lia|].
  exists s, gp'. split; [exact E|]. rewrite <- (app_nil_r s). split; [apply L|exact P].
Qed.
Example C66_ldlt_ex : wf_ldlt (Ldlt nat (Matrix nat 2 2 [1; 2; 3; 4]) (Matrix Z 2 1 [1%Z; 1%Z]) true (Some 5)).
Proof. repeat split. Qed.

(* C81: archives of sparse factorizations. *)
From Coq Require Import Reals ZArith String.
From Verif Require Import Base ExtRealModel CerealModel CerealSpec SuiteSparseModel SuiteSparseSpec SuiteSparseProofs SuiteSparseProofs2.
Open Scope string_scope.
Open Scope nat_scope.
Open Scope list_scope.

(* a real sparse matrix is restored over any other, whatever follows in the archive *)
Theorem C81_sparse : forall bytes B text enc dec, base64_ok enc dec -> forall zc zd, zstd_ok (bytes := bytes) (E := B) zc zd ->
  forall malloc_zero unset, (forall n, length (unset n) = n) -> forall m, whole_sparse m -> malloc_zero = true \/ no_empty_array m ->
  exists s, SuiteSparseModel.save_sparse bytes B text enc zc m = Ok s /\ forall d rest, s_z B d = None ->
  exists m', SuiteSparseModel.load_sparse bytes B text dec zd malloc_zero unset d (s ++ rest) = Ok (m', rest) /\ same_sparse m m'.
Proof. exact sparse_round. Qed.
Print Assumptions C81_sparse.
Theorem C81_dense : forall bytes B text enc dec, base64_ok enc dec -> forall zc zd, zstd_ok (bytes := bytes) (E := B) zc zd ->
  forall malloc_zero unset, (forall n, length (unset n) = n) -> forall m, whole_dense m -> malloc_zero = true \/ 0 < d_nzmax (dh B m) ->
  exists s, SuiteSparseModel.save_dense bytes B text enc zc m = Ok s /\ forall d rest, d_z B d = None ->
  SuiteSparseModel.load_dense bytes B text dec zd malloc_zero unset d (s ++ rest) = Ok (m, rest).
Proof. exact dense_round. Qed.
Print Assumptions C81_dense.

(* loading any archive, damaged or not, does not write out of bounds, unless it says that the entries are complex *)
Theorem C81_sparse_safe : forall bytes B text dec zd malloc_zero unset, (forall n, length (unset n) = n) -> forall d s,
  SuiteSparseModel.load_sparse bytes B text dec zd malloc_zero unset d s = UB ->
  exists h s', load (c_sparse_header bytes) s = Ok (h, s') /\ xtype h = complex.
Proof. exact load_sparse_safe. Qed.
Print Assumptions C81_sparse_safe.
Theorem C81_dense_safe : forall bytes B text dec zd malloc_zero unset, (forall n, length (unset n) = n) -> forall d s,
  SuiteSparseModel.load_dense bytes B text dec zd malloc_zero unset d s <> UB.
Proof. exact load_dense_safe. Qed.
Print Assumptions C81_dense_safe.
(* complex entries: saved without complaint, and loading writes past the end of the array allocated for them *)
Theorem C81_complex_refuted : forall bytes B text enc dec, base64_ok enc dec -> forall zc zd, zstd_ok (bytes := bytes) (E := B) zc zd ->
  forall malloc_zero unset, (forall n, length (unset n) = n) -> forall m p i x,
  itype (sh B m) = 0%Z \/ itype (sh B m) = 2%Z -> xtype (sh B m) = complex -> 0 < nzmax (sh B m) ->
  packed (sh B m) <> 0%Z -> s_z B m = None ->
  s_p B m = Some p -> length p = (ncol (sh B m) + 1) * index_bytes (itype (sh B m)) ->
  s_i B m = Some i -> length i = nzmax (sh B m) * index_bytes (itype (sh B m)) ->
  s_x B m = Some x -> length x = nzmax (sh B m) * 2 * entry_bytes (dtype (sh B m)) ->
  exists s, SuiteSparseModel.save_sparse bytes B text enc zc m = Ok s /\ forall d rest,
  SuiteSparseModel.load_sparse bytes B text dec zd malloc_zero unset d (s ++ rest) = UB.
Proof. exact complex_overflow. Qed.
Print Assumptions C81_complex_refuted.
(* a pattern, without values: saved, but not loaded *)
Theorem C81_pattern_refuted : forall bytes B text enc dec, base64_ok enc dec -> forall zc zd, zstd_ok (bytes := bytes) (E := B) zc zd ->
  forall malloc_zero unset, (forall n, length (unset n) = n) -> forall m p i,
  itype (sh B m) = 0%Z \/ itype (sh B m) = 2%Z -> 0 < nzmax (sh B m) ->
  packed (sh B m) <> 0%Z -> s_z B m = None ->
  s_p B m = Some p -> length p = (ncol (sh B m) + 1) * index_bytes (itype (sh B m)) ->
  s_i B m = Some i -> length i = nzmax (sh B m) * index_bytes (itype (sh B m)) ->
  s_x B m = None ->
  exists s, SuiteSparseModel.save_sparse bytes B text enc zc m = Ok s /\ forall d rest,
  (match rest with (n, _) :: _ => n <> "m.x" | [] => True end) ->
  SuiteSparseModel.load_sparse bytes B text dec zd malloc_zero unset d (s ++ rest) = Throw.
Proof. exact pattern_rejected. Qed.
Print Assumptions C81_pattern_refuted.
(* columns that are not packed without row counts: saved, but not loaded *)
Theorem C81_unpacked_refuted : forall bytes B text enc dec, base64_ok enc dec -> forall zc zd, zstd_ok (bytes := bytes) (E := B) zc zd ->
  forall malloc_zero unset, (forall n, length (unset n) = n) -> forall m p i x,
  itype (sh B m) = 0%Z \/ itype (sh B m) = 2%Z -> xtype (sh B m) <> complex ->
  0 < nzmax (sh B m) -> 0 < ncol (sh B m) -> packed (sh B m) = 0%Z -> s_z B m = None ->
  s_p B m = Some p -> length p = (ncol (sh B m) + 1) * index_bytes (itype (sh B m)) ->
  s_i B m = Some i -> length i = nzmax (sh B m) * index_bytes (itype (sh B m)) ->
  s_x B m = Some x -> length x = nzmax (sh B m) * entry_bytes (dtype (sh B m)) -> s_nz B m = None ->
  exists s, SuiteSparseModel.save_sparse bytes B text enc zc m = Ok s /\ forall d rest,
  SuiteSparseModel.load_sparse bytes B text dec zd malloc_zero unset d (s ++ rest) = Throw.
Proof. exact unpacked_rejected. Qed.
Print Assumptions C81_unpacked_refuted.

(* the settings and statistics of cholmod: all that is archived is restored, the rest of the destination is kept *)
Theorem C81_common : forall bytes old (cc : common bytes), whole_common old cc ->
  exists s, save_common bytes old cc = Ok s /\ forall cc0 rest, length (c_methods bytes cc0) = length (c_methods bytes cc) ->
  exists cc', load_common bytes old cc0 (s ++ rest) = Ok (cc', rest) /\
    updated (common_fields old) (c_members bytes cc0) (c_members bytes cc) (c_members bytes cc') /\
    Forall2 (fun m m' => forall n, In n (map fst method_fields) -> m' n = m n) (c_methods bytes cc) (c_methods bytes cc').
Proof. exact common_round. Qed.
Print Assumptions C81_common.

(* a factorization: everything is restored except the cached R, of which the transpose of the first half of the entries is *)
Theorem C81_spqr : forall bytes B text enc dec, base64_ok enc dec -> forall zc zd, zstd_ok (bytes := bytes) (E := B) zc zd ->
  forall malloc_zero unset, (forall n, length (unset n) = n) -> forall old E zero plus, (forall x : E, plus x zero = x) ->
  forall gc gd, gzip_ok (bytes := bytes) gc gd -> forall (q : spqr bytes B (sparse E)) (cc0 : common bytes),
  whole_spqr old q -> wf_sparse (q_R _ _ _ q) ->
  flipped_inside (q_R _ _ _ q) ((length (stored E (q_R _ _ _ q)) + 1) / 2) = true ->
  malloc_zero = true \/ (forall m, q_cR _ _ _ q = Some m \/ q_H _ _ _ q = Some m -> no_empty_array m) /\
               (forall m, q_HTau _ _ _ q = Some m -> 0 < d_nzmax (dh B m)) ->
  length (c_methods bytes cc0) = length (c_methods bytes (q_cc _ _ _ q)) ->
  exists s, save_spqr bytes B text enc zc old E gc q = Ok s /\ forall rest, exists q',
    load_spqr bytes B text dec zd malloc_zero unset old E zero plus gd cc0 (s ++ rest) = Ok (q', rest) /\ same_spqr old cc0 q q' /\
    (exists f, q_R _ _ _ q' = (srows E (q_R _ _ _ q), scols E (q_R _ _ _ q), f) /\
       forall i j, f i j = sum_at E zero plus (firstn (length (stored E (q_R _ _ _ q)) / 2) (stored E (q_R _ _ _ q))) j i).
Proof. exact spqr_round. Qed.
Print Assumptions C81_spqr.
(* hence the factor R is that of the original as long as it had not been asked for before saving *)
Theorem C81_matrixR : forall bytes B old E zero plus (view : cholmod_sparse B -> eigen_sparse E) cc0
    (q : spqr bytes B (sparse E)) (q' : spqr bytes B (eigen_sparse E)),
  (forall m m', same_sparse m m' -> view m' = view m) -> same_spqr old cc0 q q' -> q_isRUpToDate _ _ _ q = false ->
  matrixR bytes B E view (fun R => R) q' = matrixR bytes B E view (eigen_view E zero plus) q.
Proof. exact same_matrixR. Qed.
Print Assumptions C81_matrixR.
(* one that has not been computed can not be saved *)
Theorem C81_default_refuted : forall bytes B text enc zc old E gc info ordering allow_tol tolerance R0 rank cc threshold rows,
  whole_common old cc ->
  save_spqr bytes B text enc zc old E gc
    (default_spqr bytes B E info ordering allow_tol tolerance R0 rank cc threshold rows) = UB.
Proof. exact save_default. Qed.
Print Assumptions C81_default_refuted.

(* a factorization with R cached, of the matrix 5 *)
Definition zero_of {bytes} (k : kind) : tok bytes := match k with KD => TDbl (XFin 0) | KI => TInt 0%Z | KN => TNat 0 end.
Definition zeros {bytes} (fields : list (string * kind)) : members bytes := fun n =>
  match find (fun f => String.eqb (fst f) n) fields with Some f => zero_of (snd f) | None => TInt 0%Z end.
Definition zero_common bytes old : common bytes := Common bytes (zeros (common_fields old)) (repeat (zeros method_fields) 10).
Definition one_entry : cholmod_sparse Z :=
  SuiteSparseModel.Sparse Z (SparseHeader 1 1 1 0 2 1 0 1 1) (Some (repeat 0%Z 16)) (Some (repeat 0%Z 8)) None (Some (repeat 5%Z 8)) None.
Definition one_dense : cholmod_dense Z := SuiteSparseModel.Dense Z (DenseHeader 1 1 1 1 1 0) (Some (repeat 0%Z 8)) None.
Definition five bytes old : spqr bytes Z (sparse Z) :=
  Spqr bytes Z _ true true true true 0 7 1 (XFin 0) (CerealModel.Sparse Z 1 1 [(0, 0, 5%Z)]) 1 (zero_common bytes old) true 1
    (Some one_entry) (Some one_entry) (Some one_dense) (Some (repeat 0%Z 8)) (Some (repeat 0%Z 8)).
Lemma five_whole bytes old : whole_spqr old (five bytes old).
Proof.
  assert (whole_sparse one_entry) as W.
  { constructor; cbn; try (eexists; split; reflexivity); auto; discriminate. }
  constructor; cbn [five q_cc q_cR q_H q_HTau q_E q_HPinv q_rows].
  - constructor.
    + destruct old; unfold typed, common_fields; cbn [app save_before save_ordering save_statistics save_timings only_old];
        repeat (apply Forall_cons; [exact I|]); apply Forall_nil.
    + destruct old; reflexivity.
    + cbn [zero_common c_methods]. apply Forall_forall. intros m Hm. apply repeat_spec in Hm. subst m.
      unfold typed, method_fields. repeat (apply Forall_cons; [exact I|]); apply Forall_nil.
  - exists one_entry. split; [reflexivity|]. split; [exact W|]. eexists. split; reflexivity.
  - exists one_entry. split; [reflexivity|exact W].
  - exists one_dense. split; [reflexivity|]. constructor; cbn; auto. eexists. split; reflexivity.
  - eexists. split; reflexivity.
Qed.
(* hence, for every encoding, solving, saving, loading and solving again uses another factor: R is 5 before and 0 after *)
Theorem C81_R_refuted : forall bytes text enc dec, base64_ok enc dec -> forall zc zd, zstd_ok (bytes := bytes) (E := Z) zc zd ->
  forall malloc_zero unset, (forall n, length (unset n) = n) -> forall old gc gd, gzip_ok (bytes := bytes) gc gd ->
  forall view, exists (q : spqr bytes Z (sparse Z)) s q' R R',
  whole_spqr old q /\ save_spqr bytes Z text enc zc old Z gc q = Ok s /\
  load_spqr bytes Z text dec zd malloc_zero unset old Z 0%Z Z.add gd (zero_common bytes old) s = Ok (q', []) /\
  matrixR bytes Z Z view (eigen_view Z 0%Z Z.add) q = Ok R /\ matrixR bytes Z Z view (fun R => R) q' = Ok R' /\
  snd R 0 0 = 5%Z /\ snd R' 0 0 = 0%Z.
Proof.
  intros bytes text enc dec Hb zc zd Hz mz unset Hu old gc gd Hg view.
  destruct (C81_spqr bytes Z text enc dec Hb zc zd Hz mz unset Hu old Z 0%Z Z.add Z.add_0_r gc gd Hg (five bytes old) (zero_common bytes old)
    (five_whole bytes old)) as [s [Es L]].
  - repeat constructor.
  - reflexivity.
  - right. split.
    + cbn. intros m [E|E]; injection E as <-; split; cbn; auto; discriminate.
    + cbn. intros m E. injection E as <-. cbn. auto.
  - reflexivity.
  - destruct (L []) as [q' [Eq [S [f [Ef Hf]]]]]. rewrite app_nil_r in Eq.
    exists (five bytes old), s, q', (1, 1, sparse_at Z 0%Z Z.add (CerealModel.Sparse Z 1 1 [(0, 0, 5%Z)])), (1, 1, f).
    split; [apply five_whole|]. split; [exact Es|]. split; [exact Eq|]. split; [reflexivity|]. split; [|split; [reflexivity|]].
    + unfold matrixR. rewrite (sq_isRUpToDate _ _ _ _ S), Ef. reflexivity.
    + cbn [snd]. rewrite Hf. reflexivity.
Qed.
Print Assumptions C81_R_refuted.

Example C81_meets : whole_sparse one_entry /\ no_empty_array one_entry /\ whole_dense one_dense /\ whole_spqr true (five nat true) /\
  flipped_inside (q_R _ _ _ (five nat true)) ((length (stored Z (q_R _ _ _ (five nat true))) + 1) / 2) = true.
Proof.
  destruct (five_whole nat true) as [_ [m [E [W _]]] _ [d [Ed Wd]] _]. injection E as <-. injection Ed as <-.
  split; [exact W|]. split; [split; cbn; auto; discriminate|]. split; [exact Wd|]. split; [apply five_whole|reflexivity].
Qed.

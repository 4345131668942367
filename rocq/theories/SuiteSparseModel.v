(* Serialization of SuiteSparse structures and of SerializableSPQR: cereal/suitesparse.hpp, cereal/serializable_spqr.hpp and
   eigen/serializable_spqr.hpp. Archives are those of CerealModel. A pointer to an array is None when it is null and otherwise the
   bytes it owns, reading or writing past which is undefined behaviour. Plain assert() is taken to be enabled. Not modelled:
   class versions, freeing memory (the destination owns what its pointers point to), failing allocations other than of 0 bytes. *)
From Coq Require Import ZArith String.
From Verif Require Import Base CerealModel.
Open Scope string_scope.
Open Scope nat_scope.
Open Scope list_scope.

Section SuiteSparse.
Variable bytes : Type.                              (* a compressed buffer *)
Variable B : Type.                                  (* a byte of memory *)
Variable text_archive : bool.
Variables base64_encode base64_decode : bytes -> bytes.
Variable zstd_compress : list B -> bytes.
Variable zstd_maybe_decompress : bytes -> nat -> option (list B). (* None: a result other than kOK, utils/compress.hpp:103-127 *)
Variable malloc_zero : bool.                        (* whether malloc(0) is not null *)
Variable unset : nat -> list B.                     (* what malloc(n) holds *)
Notation stream := (CerealModel.stream bytes).
Notation codec := (CerealModel.codec bytes).

Definition array := option (list B).

(* cereal/suitesparse.hpp:58-69 *)
Definition encode_array (name : string) (source : array) (size_bytes : nat) : outcome stream :=
  content <- (if size_bytes =? 0 then Ok []
              else match source with
                   | None => UB
                   | Some b => if length b <? size_bytes then UB else Ok (firstn size_bytes b)
                   end) ;;
  let payload := zstd_compress content in
  let payload := if text_archive then base64_encode payload else payload in
  save (named bytes name (c_bytes bytes)) payload.
(* cereal/suitesparse.hpp:71-81; utils/compress.hpp:129-132 *)
Definition decode_array (name : string) (destination : array) (expected_bytes : nat) (s : stream) : outcome (array * stream) :=
  match destination with
  | None => Abort
  | Some b =>
    r <- load (named bytes name (c_bytes bytes)) s ;;
    let payload := if text_archive then base64_decode (fst r) else fst r in
    match zstd_maybe_decompress payload expected_bytes with
    | None => Abort
    | Some d => if length b <? expected_bytes then UB else Ok (Some (d ++ skipn expected_bytes b), snd r)
    end
  end.
(* cereal/suitesparse.hpp:86-93 *)
Definition suitesparse_cereal_realloc (count elem_size : nat) : outcome array :=
  let n := count * elem_size in
  assert_then ((0 <? n) || malloc_zero) (Ok (Some (unset n))).

(* the constants of cholmod *)
Definition CHOLMOD_INT := 0%Z.
Definition CHOLMOD_LONG := 2%Z.
Definition CHOLMOD_DOUBLE := 0%Z.
Definition CHOLMOD_REAL := 1%Z.
Definition CHOLMOD_COMPLEX := 2%Z.

(* the part of cholmod_sparse and cholmod_dense that describes the arrays *)
(* cereal/suitesparse.hpp:360-363 *)
Definition get_element_size_bytes (dtype : Z) : nat := if (dtype =? CHOLMOD_DOUBLE)%Z then 8 else 4.
(* cereal/suitesparse.hpp:365-369 *)
Definition get_num_x_elements (nzmax : nat) (xtype : Z) : nat := nzmax * (if (xtype =? CHOLMOD_COMPLEX)%Z then 2 else 1).
Definition known_itype (itype : Z) : bool := (itype =? CHOLMOD_INT)%Z || (itype =? CHOLMOD_LONG)%Z.
(* cereal/suitesparse.hpp:371-376 *)
Definition get_p_element_size_bytes (itype : Z) : outcome nat :=
  assert_then (known_itype itype) (Ok (if (itype =? CHOLMOD_INT)%Z then 4 else 8)).
(* cereal/suitesparse.hpp:378-383 *)
Definition get_integer_size_bytes (itype : Z) : outcome nat :=
  assert_then (known_itype itype) (Ok (if (itype =? CHOLMOD_LONG)%Z then 8 else 4)).

Record sparse_header := SparseHeader { nrow : nat; ncol : nat; nzmax : nat; stype : Z; itype : Z; xtype : Z; dtype : Z;
                                       sorted : Z; packed : Z }.
Record cholmod_sparse := Sparse { sh : sparse_header; s_p : array; s_i : array; s_nz : array; s_x : array; s_z : array }.
Notation cn n := (named bytes n (c_nat bytes)).
Notation ci n := (named bytes n (c_int bytes)).
(* cereal/suitesparse.hpp:390-398 and 420-428 *)
Definition c_sparse_header : codec sparse_header :=
  c_iso bytes (fun h => (nrow h, (ncol h, (nzmax h, (stype h, (itype h, (xtype h, (dtype h, (sorted h, packed h)))))))))
    (fun t => let '(a, (b, (c, (d, (e, (f, (g, (h, i)))))))) := t in SparseHeader a b c d e f g h i)
    (c_pair bytes (cn "m.nrow") (c_pair bytes (cn "m.ncol") (c_pair bytes (cn "m.nzmax") (c_pair bytes (ci "m.stype")
      (c_pair bytes (ci "m.itype") (c_pair bytes (ci "m.xtype") (c_pair bytes (ci "m.dtype") (c_pair bytes (ci "m.sorted")
        (ci "m.packed"))))))))).
Definition is_null (a : array) : bool := match a with None => true | Some _ => false end.
Definition is_packed (h : sparse_header) : bool := negb (packed h =? 0)%Z.

(* cereal/suitesparse.hpp:385-415 *)
Definition save_sparse (m : cholmod_sparse) : outcome stream :=
  let h := sh m in
  assert_then (known_itype (itype h)) (
  s1 <- save c_sparse_header h ;;
  let element_size_bytes := get_element_size_bytes (dtype h) in
  let x_elements := get_num_x_elements (nzmax h) (xtype h) in
  p_size_bytes <- get_p_element_size_bytes (itype h) ;;
  integer_size_bytes <- get_integer_size_bytes (itype h) ;;
  s2 <- encode_array "m.p" (s_p m) ((ncol h + 1) * p_size_bytes) ;;
  s3 <- encode_array "m.i" (s_i m) (nzmax h * integer_size_bytes) ;;
  s4 <- (if negb (is_null (s_nz m)) && negb (is_packed h)
         then encode_array "m.nz" (s_nz m) (ncol h * integer_size_bytes) else Ok []) ;;
  s5 <- (if negb (is_null (s_x m)) then encode_array "m.x" (s_x m) (x_elements * element_size_bytes) else Ok []) ;;
  assert_then (is_null (s_z m)) (Ok (s1 ++ s2 ++ s3 ++ s4 ++ s5))).

(* cereal/suitesparse.hpp:417-451, over an existing matrix *)
Definition load_sparse (m : cholmod_sparse) (s : stream) : outcome (cholmod_sparse * stream) :=
  r <- load c_sparse_header s ;;
  let h := fst r in
  let element_size_bytes := get_element_size_bytes (dtype h) in
  let x_elements := get_num_x_elements (nzmax h) (xtype h) in
  p_size_bytes <- get_p_element_size_bytes (itype h) ;;
  integer_size_bytes <- get_integer_size_bytes (itype h) ;;
  p <- suitesparse_cereal_realloc (ncol h + 1) p_size_bytes ;;
  i <- suitesparse_cereal_realloc (nzmax h) integer_size_bytes ;;
  nz <- (if negb (is_packed h) then suitesparse_cereal_realloc (ncol h) integer_size_bytes else Ok (s_nz m)) ;;
  x <- suitesparse_cereal_realloc (nzmax h) element_size_bytes ;;
  rp <- decode_array "m.p" p ((ncol h + 1) * p_size_bytes) (snd r) ;;
  ri <- decode_array "m.i" i (nzmax h * integer_size_bytes) (snd rp) ;;
  rnz <- (if negb (is_packed h) then decode_array "m.nz" nz (ncol h * integer_size_bytes) (snd ri) else Ok (nz, snd ri)) ;;
  rx <- decode_array "m.x" x (x_elements * element_size_bytes) (snd rnz) ;;
  assert_then (is_null (s_z m)) (Ok (Sparse h (fst rp) (fst ri) (fst rnz) (fst rx) (s_z m), snd rx)).

Record dense_header := DenseHeader { d_nrow : nat; d_ncol : nat; d_nzmax : nat; d_d : nat; d_xtype : Z; d_dtype : Z }.
Record cholmod_dense := Dense { dh : dense_header; d_x : array; d_z : array }.
(* cereal/suitesparse.hpp:456-461 and 477-482 *)
Definition c_dense_header : codec dense_header :=
  c_iso bytes (fun h => (d_nrow h, (d_ncol h, (d_nzmax h, (d_d h, (d_xtype h, d_dtype h))))))
    (fun t => let '(a, (b, (c, (d, (e, f))))) := t in DenseHeader a b c d e f)
    (c_pair bytes (cn "m.nrow") (c_pair bytes (cn "m.ncol") (c_pair bytes (cn "m.nzmax") (c_pair bytes (cn "m.d")
      (c_pair bytes (ci "m.xtype") (ci "m.dtype")))))).
(* cereal/suitesparse.hpp:453-472 *)
Definition save_dense (m : cholmod_dense) : outcome stream :=
  let h := dh m in
  s1 <- save c_dense_header h ;;
  assert_then (d_nrow h <=? d_d h) (
  let element_size_bytes := get_element_size_bytes (d_dtype h) in
  let x_elements := get_num_x_elements (d_nzmax h) (d_xtype h) in
  s2 <- (if negb (is_null (d_x m)) then encode_array "m.x" (d_x m) (x_elements * element_size_bytes) else Ok []) ;;
  assert_then (is_null (d_z m)) (Ok (s1 ++ s2))).
(* cereal/suitesparse.hpp:474-492 *)
Definition load_dense (m : cholmod_dense) (s : stream) : outcome (cholmod_dense * stream) :=
  r <- load c_dense_header s ;;
  let h := fst r in
  assert_then (d_nrow h <=? d_d h) (
  let element_size_bytes := get_element_size_bytes (d_dtype h) in
  let x_elements := get_num_x_elements (d_nzmax h) (d_xtype h) in
  x <- suitesparse_cereal_realloc x_elements element_size_bytes ;;
  rx <- decode_array "m.x" x (x_elements * element_size_bytes) (snd r) ;;
  assert_then (is_null (d_z m)) (Ok (Dense h (fst rx) (d_z m), snd rx))).

(* ---- cholmod_common: its members by name; doubles, ints and longs, sizes ---- *)
Inductive kind := KD | KI | KN.
Notation tok := (CerealModel.tok bytes).
Definition c_kind (k : kind) : codec tok :=
  match k with
  | KD => Codec (fun t => match t with TDbl x => save (c_double bytes) x | _ => UB end)
                (fun s => r <- load (c_double bytes) s ;; Ok (TDbl (fst r), snd r))
  | KI => Codec (fun t => match t with TInt x => save (c_int bytes) x | _ => UB end)
                (fun s => r <- load (c_int bytes) s ;; Ok (TInt (fst r), snd r))
  | KN => Codec (fun t => match t with TNat x => save (c_nat bytes) x | _ => UB end)
                (fun s => r <- load (c_nat bytes) s ;; Ok (TNat (fst r), snd r))
  end.
Definition members := string -> tok.
Definition set_member (m : members) (n : string) (t : tok) : members := fun n' => if String.eqb n' n then t else m n'.
Fixpoint save_members (fields : list (string * kind)) (m : members) : outcome stream :=
  match fields with
  | [] => Ok []
  | (n, k) :: rest => s <- save (named bytes n (c_kind k)) (m n) ;; s' <- save_members rest m ;; Ok (s ++ s')
  end.
Fixpoint load_members (fields : list (string * kind)) (m : members) (s : stream) : outcome (members * stream) :=
  match fields with
  | [] => Ok (m, s)
  | (n, k) :: rest => r <- load (named bytes n (c_kind k)) s ;; load_members rest (set_member m n (fst r)) (snd r)
  end.
(* cereal/suitesparse.hpp:18-54; used for saving and loading *)
Definition method_fields : list (string * kind) :=
  [("cms.lnz", KD); ("cms.fl", KD); ("cms.prune_dense", KD); ("cms.prune_dense2", KD); ("cms.nd_oksep", KD);
   ("cms.other_1_0", KD); ("cms.other_1_1", KD); ("cms.other_1_2", KD); ("cms.other_1_3", KD); ("cms.nd_small", KN);
   ("cms.other_2_0", KN); ("cms.other_2_1", KN); ("cms.other_2_2", KN); ("cms.other_2_3", KN); ("cms.aggressive", KI);
   ("cms.order_for_lu", KI); ("cms.nd_compress", KI); ("cms.nd_camd", KI); ("cms.nd_components", KI); ("cms.ordering", KI);
   ("cms.other_3_0", KN); ("cms.other_3_1", KN); ("cms.other_3_2", KN); ("cms.other_3_3", KN)].
Variable old_cholmod : bool.                        (* CHOLMOD_VERSION < 5.0 *)
Definition only_old (l : list (string * kind)) := if old_cholmod then l else [].
(* cereal/suitesparse.hpp:100-132, before the methods *)
Definition save_before : list (string * kind) :=
  [("cc.dbound", KD); ("cc.grow0", KD); ("cc.grow1", KD); ("cc.grow2", KN); ("cc.maxrank", KN); ("cc.supernodal_switch", KD);
   ("cc.supernodal", KI); ("cc.final_asis", KI); ("cc.final_super", KI); ("cc.final_ll", KI); ("cc.final_pack", KI);
   ("cc.final_monotonic", KI); ("cc.final_resymbol", KI); ("cc.zrelax0", KD); ("cc.zrelax1", KD); ("cc.zrelax2", KD);
   ("cc.nrelax0", KN); ("cc.nrelax1", KN); ("cc.nrelax2", KN); ("cc.prefer_zomplex", KI); ("cc.prefer_upper", KI);
   ("cc.quick_return_if_not_posdef", KI); ("cc.prefer_binary", KI); ("cc.print", KI); ("cc.precise", KI); ("cc.try_catch", KI);
   ("cc.nmethods", KI); ("cc.current", KI); ("cc.selected", KI)].
(* 138-143 *)
Definition save_ordering : list (string * kind) :=
  [("cc.postorder", KI); ("cc.default_nesdis", KI); ("cc.metis_memory", KD); ("cc.metis_dswitch", KD); ("cc.metis_nswitch", KN);
   ("cc.mark", KI)].
(* 150-206 *)
Definition save_statistics : list (string * kind) :=
  [("cc.itype", KI)] ++ only_old [("cc.dtype", KI)] ++
  [("cc.no_workspace_reallocate", KI); ("cc.status", KI); ("cc.fl", KD); ("cc.lnz", KD); ("cc.anz", KD); ("cc.modfl", KD);
   ("cc.malloc_count", KN); ("cc.memory_usage", KN); ("cc.memory_inuse", KN); ("cc.nrealloc_col", KD);
   ("cc.nrealloc_factor", KD); ("cc.ndbounds_hit", KD); ("cc.rowfacfl", KD); ("cc.aatfl", KD); ("cc.called_nd", KI);
   ("cc.blas_ok", KI); ("cc.SPQR_grain", KD); ("cc.SPQR_small", KD); ("cc.SPQR_shrink", KI); ("cc.SPQR_nthreads", KI);
   ("cc.SPQR_flopcount", KD); ("cc.SPQR_analyze_time", KD); ("cc.SPQR_factorize_time", KD); ("cc.SPQR_solve_time", KD);
   ("cc.SPQR_flopcount_bound", KD); ("cc.SPQR_tol_used", KD); ("cc.SPQR_norm_E_fro", KD); ("cc.SPQR_istat0", KI);
   ("cc.SPQR_istat1", KI); ("cc.SPQR_istat2", KI); ("cc.SPQR_istat3", KI); ("cc.SPQR_istat4", KI); ("cc.SPQR_istat5", KI);
   ("cc.SPQR_istat6", KI); ("cc.SPQR_istat7", KI)] ++ only_old [("cc.SPQR_istat8", KI); ("cc.SPQR_istat9", KI)].
(* 216-228 *)
Definition save_timings : list (string * kind) :=
  [("cc.syrkStart", KD); ("cc.cholmod_cpu_gemm_time", KD); ("cc.cholmod_cpu_syrk_time", KD); ("cc.cholmod_cpu_trsm_time", KD);
   ("cc.cholmod_cpu_potrf_time", KD); ("cc.cholmod_assemble_time", KD); ("cc.cholmod_assemble_time2", KD);
   ("cc.cholmod_cpu_gemm_calls", KN); ("cc.cholmod_cpu_syrk_calls", KN); ("cc.cholmod_cpu_trsm_calls", KN);
   ("cc.cholmod_cpu_potrf_calls", KN)].
(* the same lists as the load function has them: cereal/suitesparse.hpp:234-266, 272-277, 279-335, 345-357 *)
Definition load_before : list (string * kind) :=
  [("cc.dbound", KD); ("cc.grow0", KD); ("cc.grow1", KD); ("cc.grow2", KN); ("cc.maxrank", KN); ("cc.supernodal_switch", KD);
   ("cc.supernodal", KI); ("cc.final_asis", KI); ("cc.final_super", KI); ("cc.final_ll", KI); ("cc.final_pack", KI);
   ("cc.final_monotonic", KI); ("cc.final_resymbol", KI); ("cc.zrelax0", KD); ("cc.zrelax1", KD); ("cc.zrelax2", KD);
   ("cc.nrelax0", KN); ("cc.nrelax1", KN); ("cc.nrelax2", KN); ("cc.prefer_zomplex", KI); ("cc.prefer_upper", KI);
   ("cc.quick_return_if_not_posdef", KI); ("cc.prefer_binary", KI); ("cc.print", KI); ("cc.precise", KI); ("cc.try_catch", KI);
   ("cc.nmethods", KI); ("cc.current", KI); ("cc.selected", KI)].
Definition load_ordering : list (string * kind) :=
  [("cc.postorder", KI); ("cc.default_nesdis", KI); ("cc.metis_memory", KD); ("cc.metis_dswitch", KD); ("cc.metis_nswitch", KN);
   ("cc.mark", KI)].
Definition load_statistics : list (string * kind) :=
  [("cc.itype", KI)] ++ only_old [("cc.dtype", KI)] ++
  [("cc.no_workspace_reallocate", KI); ("cc.status", KI); ("cc.fl", KD); ("cc.lnz", KD); ("cc.anz", KD); ("cc.modfl", KD);
   ("cc.malloc_count", KN); ("cc.memory_usage", KN); ("cc.memory_inuse", KN); ("cc.nrealloc_col", KD);
   ("cc.nrealloc_factor", KD); ("cc.ndbounds_hit", KD); ("cc.rowfacfl", KD); ("cc.aatfl", KD); ("cc.called_nd", KI);
   ("cc.blas_ok", KI); ("cc.SPQR_grain", KD); ("cc.SPQR_small", KD); ("cc.SPQR_shrink", KI); ("cc.SPQR_nthreads", KI);
   ("cc.SPQR_flopcount", KD); ("cc.SPQR_analyze_time", KD); ("cc.SPQR_factorize_time", KD); ("cc.SPQR_solve_time", KD);
   ("cc.SPQR_flopcount_bound", KD); ("cc.SPQR_tol_used", KD); ("cc.SPQR_norm_E_fro", KD); ("cc.SPQR_istat0", KI);
   ("cc.SPQR_istat1", KI); ("cc.SPQR_istat2", KI); ("cc.SPQR_istat3", KI); ("cc.SPQR_istat4", KI); ("cc.SPQR_istat5", KI);
   ("cc.SPQR_istat6", KI); ("cc.SPQR_istat7", KI)] ++ only_old [("cc.SPQR_istat8", KI); ("cc.SPQR_istat9", KI)].
Definition load_timings : list (string * kind) :=
  [("cc.syrkStart", KD); ("cc.cholmod_cpu_gemm_time", KD); ("cc.cholmod_cpu_syrk_time", KD); ("cc.cholmod_cpu_trsm_time", KD);
   ("cc.cholmod_cpu_potrf_time", KD); ("cc.cholmod_assemble_time", KD); ("cc.cholmod_assemble_time2", KD);
   ("cc.cholmod_cpu_gemm_calls", KN); ("cc.cholmod_cpu_syrk_calls", KN); ("cc.cholmod_cpu_trsm_calls", KN);
   ("cc.cholmod_cpu_potrf_calls", KN)].

Record common := Common { c_members : members; c_methods : list members }.
Fixpoint save_methods (ms : list members) : outcome stream :=
  match ms with
  | [] => Ok []
  | m :: rest => s <- save_members method_fields m ;; s' <- save_methods rest ;; Ok ((("", TOpen) :: s) ++ s')
  end.
Fixpoint load_methods (ms : list members) (s : stream) : outcome (list members * stream) :=
  match ms with
  | [] => Ok ([], s)
  | m :: rest =>
    r <- next bytes "" s ;;
    match fst r with
    | TOpen => r1 <- load_members method_fields m (snd r) ;; r2 <- load_methods rest (snd r1) ;; Ok (fst r1 :: fst r2, snd r2)
    | _ => Throw
    end
  end.
Definition is_zero (t : tok) : bool := match t with TInt 0%Z => true | _ => false end.
(* cereal/suitesparse.hpp:97-229 *)
Definition save_common (cc : common) : outcome stream :=
  s1 <- save_members save_before (c_members cc) ;;
  s2 <- save_methods (c_methods cc) ;;
  s3 <- save_members save_ordering (c_members cc) ;;
  s4 <- save_members save_statistics (c_members cc) ;;
  assert_then (is_zero (c_members cc "cc.useGPU")) (
  s5 <- save_members [("cc.useGPU", KI)] (c_members cc) ;;
  s6 <- save_members save_timings (c_members cc) ;;
  Ok (s1 ++ s2 ++ s3 ++ s4 ++ s5 ++ s6)).
(* cereal/suitesparse.hpp:231-358; cholmod_l_free_work, which is taken to succeed, does not change the members listed *)
Definition load_common (cc : common) (s : stream) : outcome (common * stream) :=
  r1 <- load_members load_before (c_members cc) s ;;
  r2 <- load_methods (c_methods cc) (snd r1) ;;
  r3 <- load_members load_ordering (fst r1) (snd r2) ;;
  r4 <- load_members load_statistics (fst r3) (snd r3) ;;
  r5 <- load_members [("cc.useGPU", KI)] (fst r4) (snd r4) ;;
  assert_then (is_zero (fst r5 "cc.useGPU")) (
  r6 <- load_members load_timings (fst r5) (snd r5) ;;
  Ok (Common (fst r6) (fst r2), snd r6)).

(* ---- SerializableSPQR ---- *)
Variable E : Type.
Variable zero : E.
Variable plus : E -> E -> E.
Variable gzip_compress : list (cell E) -> bytes.
Variable gzip_decompress : bytes -> option (list (cell E)).
Definition eigen_sparse := (nat * nat * (nat -> nat -> E))%type.  (* a sparse matrix by its sizes and entries *)
(* the members of Eigen::SPQR; RM is how m_R is given: by its stored entries when saving, by all entries when loaded *)
Record spqr (RM : Type) := Spqr {
  q_isInitialized : bool; q_analysisIsOk : bool; q_factorizationIsOk : bool; q_isRUpToDate : bool;
  q_info : Z; q_ordering : Z; q_allow_tol : Z; q_tolerance : ExtRealModel.xr;
  q_R : RM; q_rank : Z; q_cc : common; q_useDefaultThreshold : bool; q_rows : nat;
  q_cR : option cholmod_sparse; q_H : option cholmod_sparse; q_HTau : option cholmod_dense;
  q_E : array; q_HPinv : array }.
Arguments Spqr {RM} _ _ _ _ _ _ _ _ _ _ _ _ _ _ _ _ _ _.
Arguments q_isInitialized {RM} _. Arguments q_analysisIsOk {RM} _. Arguments q_factorizationIsOk {RM} _.
Arguments q_isRUpToDate {RM} _. Arguments q_info {RM} _. Arguments q_ordering {RM} _. Arguments q_allow_tol {RM} _.
Arguments q_tolerance {RM} _. Arguments q_R {RM} _. Arguments q_rank {RM} _. Arguments q_cc {RM} _.
Arguments q_useDefaultThreshold {RM} _. Arguments q_rows {RM} _. Arguments q_cR {RM} _. Arguments q_H {RM} _.
Arguments q_HTau {RM} _. Arguments q_E {RM} _. Arguments q_HPinv {RM} _.

(* sizeof(StorageIndex), a SuiteSparse_long *)
Definition integer_size := 8.
Notation cb n := (named bytes n (c_bool bytes)).
Notation cd n := (named bytes n (c_double bytes)).
(* what is dereferenced *)
Definition deref {A} (p : option A) : outcome A := match p with Some a => Ok a | None => UB end.
Definition cell_codec_save := CerealModel.save_sparse bytes text_archive base64_encode E gzip_compress.
Definition cell_codec_load := CerealModel.load_sparse bytes text_archive base64_decode E zero plus gzip_decompress.
Definition open_node (name : string) (s : stream) : stream := (name, TOpen) :: s.
Definition enter_node (name : string) (s : stream) : outcome stream :=
  r <- next bytes name s ;; match fst r with TOpen => Ok (snd r) | _ => Throw end.

(* cereal/serializable_spqr.hpp:18-45; cols() is m_cR->ncol and rows() is m_rows *)
Definition save_spqr (q : spqr (sparse E)) : outcome stream :=
  s1 <- save (c_pair bytes (cb "Base::m_isInitialized") (c_pair bytes (cb "Base::m_analysisIsOk")
               (c_pair bytes (cb "Base::m_factorizationIsOk") (cb "Base::m_isRUpToDate"))))
          (q_isInitialized q, (q_analysisIsOk q, (q_factorizationIsOk q, q_isRUpToDate q))) ;;
  s2 <- save (c_pair bytes (ci "Base::m_info") (c_pair bytes (ci "Base::m_ordering") (c_pair bytes (ci "Base::m_allow_tol")
               (cd "Base::m_tolerance")))) (q_info q, (q_ordering q, (q_allow_tol q, q_tolerance q))) ;;
  s3 <- cell_codec_save (q_R q) ;;
  s4 <- save (ci "Base::m_rank") (q_rank q) ;;
  s5 <- save_common (q_cc q) ;;
  s6 <- save (c_pair bytes (cb "Base::m_useDefaultThreshold") (cn "Base::m_rows")) (q_useDefaultThreshold q, q_rows q) ;;
  cR <- deref (q_cR q) ;; s7 <- save_sparse cR ;;
  H <- deref (q_H q) ;; s8 <- save_sparse H ;;
  HTau <- deref (q_HTau q) ;; s9 <- save_dense HTau ;;
  s10 <- encode_array "m_E" (q_E q) (ncol (sh cR) * integer_size) ;;
  s11 <- encode_array "m_HPinv" (q_HPinv q) (q_rows q * integer_size) ;;
  Ok (s1 ++ s2 ++ open_node "Base::m_R" s3 ++ s4 ++ open_node "Base::m_cc" s5 ++ s6 ++ open_node "m_cR" s7 ++
      open_node "m_H" s8 ++ open_node "m_HTau" s9 ++ s10 ++ s11).

(* cholmod_l_allocate_sparse(1, 1, 1, 1, 1, 0, CHOLMOD_REAL, cc) and cholmod_l_allocate_dense(1, 1, 1, CHOLMOD_REAL, cc) *)
Definition new_sparse : cholmod_sparse :=
  Sparse (SparseHeader 1 1 1 0 CHOLMOD_LONG CHOLMOD_REAL CHOLMOD_DOUBLE 1 1) (Some (unset 16)) (Some (unset 8)) None (Some (unset 8)) None.
Definition new_dense : cholmod_dense := Dense (DenseHeader 1 1 1 1 CHOLMOD_REAL CHOLMOD_DOUBLE) (Some (unset 8)) None.
(* cholmod_l_malloc(n, size, cc): at least one byte *)
Definition cholmod_malloc (n size : nat) : array := Some (unset (Nat.max 1 (n * size))).

(* cereal/serializable_spqr.hpp:47-83; only m_cc of the destination is not overwritten *)
Definition load_spqr (cc : common) (s : stream) : outcome (spqr eigen_sparse * stream) :=
  r1 <- load (c_pair bytes (cb "Base::m_isInitialized") (c_pair bytes (cb "Base::m_analysisIsOk")
               (c_pair bytes (cb "Base::m_factorizationIsOk") (cb "Base::m_isRUpToDate")))) s ;;
  r2 <- load (c_pair bytes (ci "Base::m_info") (c_pair bytes (ci "Base::m_ordering") (c_pair bytes (ci "Base::m_allow_tol")
               (cd "Base::m_tolerance")))) (snd r1) ;;
  n3 <- enter_node "Base::m_R" (snd r2) ;;
  r3 <- cell_codec_load n3 ;;
  r4 <- load (ci "Base::m_rank") (snd r3) ;;
  n5 <- enter_node "Base::m_cc" (snd r4) ;;
  r5 <- load_common cc n5 ;;
  r6 <- load (c_pair bytes (cb "Base::m_useDefaultThreshold") (cn "Base::m_rows")) (snd r5) ;;
  n7 <- enter_node "m_cR" (snd r6) ;;
  r7 <- load_sparse new_sparse n7 ;;
  n8 <- enter_node "m_H" (snd r7) ;;
  r8 <- load_sparse new_sparse n8 ;;
  n9 <- enter_node "m_HTau" (snd r8) ;;
  r9 <- load_dense new_dense n9 ;;
  let cols := ncol (sh (fst r7)) in
  let rows := snd (fst r6) in
  r10 <- decode_array "m_E" (cholmod_malloc cols integer_size) (cols * integer_size) (snd r9) ;;
  r11 <- decode_array "m_HPinv" (cholmod_malloc rows integer_size) (rows * integer_size) (snd r10) ;;
  let '(b1, (b2, (b3, b4))) := fst r1 in
  let '(i1, (i2, (i3, d1))) := fst r2 in
  Ok (Spqr b1 b2 b3 b4 i1 i2 i3 d1 (fst r3) (fst r4) (fst r5) (fst (fst r6)) rows
        (Some (fst r7)) (Some (fst r8)) (Some (fst r9)) (fst r10) (fst r11), snd r11).

(* Eigen::SPQR::matrixR(): the cached m_R, or a view of m_cR *)
Variable view : cholmod_sparse -> eigen_sparse.
Definition eigen_view (m : sparse E) : eigen_sparse := (srows E m, scols E m, sparse_at E zero plus m).
Definition matrixR {RM} (get : RM -> eigen_sparse) (q : spqr RM) : outcome eigen_sparse :=
  if q_isRUpToDate q then Ok (get (q_R q)) else cR <- deref (q_cR q) ;; Ok (view cR).
(* eigen/serializable_spqr.hpp:26-34: a default constructed one; the arguments are the members that Eigen sets, or leaves unset *)
Definition default_spqr (info ordering allow_tol : Z) (tolerance : ExtRealModel.xr) (R0 : sparse E) (rank : Z) (cc : common)
    (threshold : bool) (rows : nat) : spqr (sparse E) :=
  Spqr false false false false info ordering allow_tol tolerance R0 rank cc threshold rows None None None None None.
End SuiteSparse.

(* Serialization: include/albatross/src/cereal. An archive is a stream of named
   values; loading consumes it in order and an unexpected name or kind of value, or
   the end of the stream, is an exception. (Binary archives do not store names and
   JSON archives may look names up out of order, so this is the stricter of the two.)
   zstd, gzip and base64 are external functions. *)
From Coq Require Import Reals String ZArith.
From Verif Require Import Base StdMapModel StringKeyModel ExtRealModel PriorModel ParamsModel.
Open Scope string_scope.
Open Scope nat_scope.
Open Scope list_scope.

Section Archives.
Variable bytes : Type.                              (* a compressed buffer *)

Inductive tok := TOpen | TNat (n : nat) | TInt (z : Z) | TBool (b : bool) | TDbl (x : xr) | TStr (s : string) | TBytes (b : bytes).
Definition stream := list (string * tok).

(* cereal's save and load overloads for a type; saving appends to the archive *)
Record codec (A : Type) := Codec { save : A -> outcome stream; load : stream -> outcome (A * stream) }.
Arguments Codec {A} _ _.
Arguments save {A} _ _.
Arguments load {A} _ _.

(* taking the next value of the archive *)
Definition next (name : string) (s : stream) : outcome (tok * stream) :=
  match s with
  | (n, t) :: rest => if String.eqb n name then Ok (t, rest) else Throw
  | [] => Throw
  end.

(* cereal::make_nvp(name, x) *)
Definition named {A} (name : string) (c : codec A) : codec A := Codec
  (fun x => s <- save c x ;; Ok ((name, TOpen) :: s))
  (fun s => r <- next name s ;; match r with (TOpen, s') => load c s' | _ => Throw end).

(* arithmetic types and strings *)
Definition c_nat : codec nat := Codec (fun n => Ok [("", TNat n)])
  (fun s => r <- next "" s ;; match r with (TNat n, s') => Ok (n, s') | _ => Throw end).
Definition c_int : codec Z := Codec (fun n => Ok [("", TInt n)])
  (fun s => r <- next "" s ;; match r with (TInt n, s') => Ok (n, s') | _ => Throw end).
Definition c_bool : codec bool := Codec (fun n => Ok [("", TBool n)])
  (fun s => r <- next "" s ;; match r with (TBool n, s') => Ok (n, s') | _ => Throw end).
Definition c_double : codec xr := Codec (fun n => Ok [("", TDbl n)])
  (fun s => r <- next "" s ;; match r with (TDbl n, s') => Ok (n, s') | _ => Throw end).
Definition c_string : codec string := Codec (fun n => Ok [("", TStr n)])
  (fun s => r <- next "" s ;; match r with (TStr n, s') => Ok (n, s') | _ => Throw end).
Definition c_bytes : codec bytes := Codec (fun n => Ok [("", TBytes n)])
  (fun s => r <- next "" s ;; match r with (TBytes n, s') => Ok (n, s') | _ => Throw end).

(* consecutive fields; nothing *)
Definition c_pair {A B} (ca : codec A) (cb : codec B) : codec (A * B) := Codec
  (fun x => s <- save ca (fst x) ;; s' <- save cb (snd x) ;; Ok (s ++ s'))
  (fun s => r <- load ca s ;; r' <- load cb (snd r) ;; Ok ((fst r, fst r'), snd r')).
Definition c_unit : codec unit := Codec (fun _ => Ok []) (fun s => Ok (tt, s)).
(* a struct through its fields *)
Definition c_iso {A B} (to : A -> B) (from : B -> A) (c : codec B) : codec A := Codec
  (fun x => save c (to x)) (fun s => r <- load c s ;; Ok (from (fst r), snd r)).

(* cereal's own std::vector and std::map: the size, then the elements *)
Fixpoint save_all {A} (c : codec A) (xs : list A) : outcome stream :=
  match xs with
  | [] => Ok []
  | x :: rest => s <- save c x ;; s' <- save_all c rest ;; Ok (s ++ s')
  end.
Fixpoint load_all {A} (c : codec A) (n : nat) (s : stream) : outcome (list A * stream) :=
  match n with
  | O => Ok ([], s)
  | S n' => r <- load c s ;; r' <- load_all c n' (snd r) ;; Ok (fst r :: fst r', snd r')
  end.
Definition c_vector {A} (c : codec A) : codec (list A) := Codec
  (fun xs => s <- save c_nat (length xs) ;; s' <- save_all c xs ;; Ok (s ++ s'))
  (fun s => r <- load c_nat s ;; load_all c (fst r) (snd r)).
Definition c_map {K V} `{OrdKey K} (ck : codec K) (cv : codec V) : codec (smap K V) := Codec
  (fun m => save (c_vector (c_pair (named "key" ck) (named "value" cv))) m)
  (fun s => r <- load (c_vector (c_pair (named "key" ck) (named "value" cv))) s ;;
            Ok (fold_left (fun m kv => memplace (fst kv) (snd kv) m) (fst r) [], snd r)).

(* ---- cereal/eigen.hpp ---- *)

Variable text_archive : bool.                       (* traits::is_text_archive<Archive> *)
Variables base64_encode base64_decode : bytes -> bytes.

Section Dense.
Variable E : Type.                                  (* _Scalar *)
Variable zstd_compress : list E -> bytes.           (* albatross::zstd::compress, utils/compress.hpp:143-147 *)
Variable zstd_maybe_decompress : bytes -> nat -> option (list E). (* 165-176; None is false *)
Variable gzip_decompress : bytes -> option (list E). (* None is its exception *)

(* Eigen::Matrix with dynamic sizes; column major storage *)
Record matrix := Matrix { rows : nat; cols : nat; data : list E }.
Definition entry (m : matrix) (i j : nat) : option E :=
  if (i <? rows m) && (j <? cols m) then nth_error (data m) (j * rows m + i) else None.

(* cereal/eigen.hpp:18-36 *)
Definition save_dense (m : matrix) : outcome stream :=
  let payload := zstd_compress (data m) in
  let payload := if text_archive then base64_encode payload else payload in
  s1 <- save (named "rows" c_nat) (rows m) ;;
  s2 <- save (named "cols" c_nat) (cols m) ;;
  s3 <- save (named "payload" c_bytes) payload ;;
  Ok (s1 ++ s2 ++ s3).
(* cereal/eigen.hpp:38-70; not modelled: fixed sizes, negative sizes *)
Definition load_dense (s : stream) : outcome (matrix * stream) :=
  r1 <- load (named "rows" c_nat) s ;;
  r2 <- load (named "cols" c_nat) (snd r1) ;;
  r3 <- load (named "payload" c_bytes) (snd r2) ;;
  let size := fst r1 * fst r2 in
  if size =? 0 then Ok (Matrix (fst r1) (fst r2) [], snd r3)
  else
    let payload := if text_archive then base64_decode (fst r3) else fst r3 in
    match zstd_maybe_decompress payload size with
    | Some d => Ok (Matrix (fst r1) (fst r2) d, snd r3)
    | None =>
      match gzip_decompress payload with
      | None => Throw
      | Some d => assert_then (length d =? size) (Ok (Matrix (fst r1) (fst r2) d, snd r3))
      end
    end.
Definition c_dense : codec matrix := Codec save_dense load_dense.
Definition vec (d : list E) : matrix := Matrix (length d) 1 d.

(* cereal/eigen.hpp:124-137; reading v(i, j) outside the matrix is an assertion of Eigen *)
Definition lower_positions (n : nat) : list (nat * nat) :=
  concat (map (fun i => map (fun j => (i, j)) (seq 0 (S i))) (seq 0 n)).
Definition save_lower_triangle (v : matrix) : outcome stream :=
  d <- mapM (fun ij => of_option Abort (entry v (fst ij) (snd ij))) (lower_positions (rows v)) ;;
  save (named "lower_triangle" c_dense) (vec d).

(* std::lround *)
Definition lround (x : R) : Z :=
  if Rleb 0 x then Int_part (x + 1 / 2) else (- Int_part (- x + 1 / 2))%Z.
(* cereal/eigen.hpp:146-155: rows from the number of stored entries, over the reals *)
Definition triangle_rows (storage_size : nat) : outcome nat :=
  let a := 1%R in let b := 1%R in
  let c := (-2 * INR storage_size)%R in
  let rows_as_double := ((sqrt (b * b - 4 * a * c) - b) / (2 * a))%R in
  assert_then (Reqb (rows_as_double - IZR (lround rows_as_double)) 0)
    (Ok (Z.to_nat (lround rows_as_double))).
(* cereal/eigen.hpp:139-163; unset i j is what the resized matrix holds before the loop *)
Definition load_lower_triangle (unset : nat -> nat -> E) (s : stream) : outcome (matrix * stream) :=
  r <- load (named "lower_triangle" c_dense) s ;;
  n <- triangle_rows (rows (fst r) * cols (fst r)) ;;
  d <- mapM (fun cnt => of_option UB (nth_error (data (fst r)) cnt)) (seq 0 (length (lower_positions n))) ;;
  let assigned := combine (lower_positions n) d in
  let at_ i j := match find (fun p => (fst (fst p) =? i) && (snd (fst p) =? j)) assigned with
                 | Some p => snd p
                 | None => unset i j
                 end in
  Ok (Matrix n n (concat (map (fun j => map (fun i => at_ i j) (seq 0 n)) (seq 0 n))), snd r).
End Dense.

(* ---- cereal/eigen.hpp:165-231, sparse matrices of double ---- *)
Section Sparse.
Variable E : Type.
Variable zero : E.
Variable plus : E -> E -> E.

(* Eigen::SparseMatrix: the stored entries in storage (column) order *)
Record sparse := Sparse { srows : nat; scols : nat; stored : list (nat * nat * E) }.

(* eight byte units of memory: an Eigen::Triplet<double> is two ints, then a double *)
Inductive cell := CInts (row col : nat) | CDouble (v : E).
Definition cells_of (t : nat * nat * E) : list cell :=
  match t with (r, c, v) => [CInts r c; CDouble v] end.

Variable gzip_compress : list cell -> bytes.
Variable gzip_decompress : bytes -> option (list cell).

(* 165-196: the first nnz * sizeof(double) bytes of the nnz triplets (it.col(), it.row(), it.value()) *)
Definition save_sparse (m : sparse) : outcome stream :=
  let nnz := length (stored m) in
  let elems := map (fun t => match t with (r, c, v) => (c, r, v) end) (stored m) in
  let payload := gzip_compress (firstn nnz (concat (map cells_of elems))) in
  let payload := if text_archive then base64_encode payload else payload in
  s1 <- save (named "rows" c_nat) (srows m) ;;
  s2 <- save (named "cols" c_nat) (scols m) ;;
  s3 <- save (named "nnz" c_nat) nnz ;;
  s4 <- save (named "payload" c_bytes) payload ;;
  Ok (s1 ++ s2 ++ s3 ++ s4).

(* memcpy of the cells over nnz default constructed triplets (0, 0, 0) *)
Fixpoint overlay (cells : list cell) (n : nat) : option (list (nat * nat * E)) :=
  match n with
  | O => match cells with [] => Some [] | _ => None end
  | S n' =>
    match cells with
    | [] => option_map (cons (0, 0, zero)) (overlay [] n')
    | [CInts r c] => option_map (cons (r, c, zero)) (overlay [] n')
    | CInts r c :: CDouble v :: rest => option_map (cons (r, c, v)) (overlay rest n')
    | _ => None                                     (* not written by save *)
    end
  end.

(* Eigen's setFromTriplets: repeated positions are summed; positions are asserted to be
   inside. The result is given by its entries. *)
Definition in_range (nr nc : nat) (t : nat * nat * E) : bool :=
  match t with (r, c, _) => (r <? nr) && (c <? nc) end.
Definition sum_at (ts : list (nat * nat * E)) (i j : nat) : E :=
  fold_left (fun acc t => match t with (r, c, v) => if (r =? i) && (c =? j) then plus acc v else acc end) ts zero.
(* the value at a position of a sparse matrix *)
Definition sparse_at (m : sparse) (i j : nat) : E := sum_at (stored m) i j.
Definition set_from_triplets (nr nc : nat) (ts : list (nat * nat * E)) : outcome (nat * nat * (nat -> nat -> E)) :=
  assert_then (forallb (in_range nr nc) ts) (Ok (nr, nc, sum_at ts)).

(* 198-231 *)
Definition load_sparse (s : stream) : outcome ((nat * nat * (nat -> nat -> E)) * stream) :=
  r1 <- load (named "rows" c_nat) s ;;
  r2 <- load (named "cols" c_nat) (snd r1) ;;
  r3 <- load (named "nnz" c_nat) (snd r2) ;;
  r4 <- load (named "payload" c_bytes) (snd r3) ;;
  let payload := if text_archive then base64_decode (fst r4) else fst r4 in
  match gzip_decompress payload with
  | None => Throw
  | Some cells =>
    assert_then (fst r3 =? length cells)
      (if fst r3 =? 0 then Ok ((fst r1, fst r2, fun _ _ => zero), snd r4)
       else
         ts <- of_option UB (overlay cells (fst r3)) ;;
         m <- set_from_triplets (fst r1) (fst r2) ts ;;
         Ok (m, snd r4))
  end.
End Sparse.

(* ---- cereal/variant.hpp ---- *)
Section Variant.
Variable V : Type.                                  (* values of all the alternatives *)
Variable typeid : nat -> string.
(* 55-66 *)
Definition save_variant (version : nat) (alternatives : list (codec V)) (f : nat * V) : outcome stream :=
  s1 <- save (named "which" c_nat) (fst f) ;;
  s2 <- (if 0 <? version then save (named "which_typeid" c_string) (typeid (fst f)) else Ok []) ;;
  c <- of_option UB (nth_error alternatives (fst f)) ;;
  s3 <- save (named "data" c) (snd f) ;;
  Ok (s1 ++ s2 ++ s3).
(* 28-46: N counts up to the target; the list is what is left of the alternatives *)
Fixpoint load_variant_from (target N : nat) (alternatives : list (codec V)) (s : stream) : outcome ((nat * V) * stream) :=
  match alternatives with
  | [] => Abort
  | c :: rest =>
    if N =? target then r <- load (named "data" c) s ;; Ok ((N, fst r), snd r)
    else load_variant_from target (S N) rest s
  end.
(* 68-80; not modelled: negative which *)
Definition load_variant (version : nat) (alternatives : list (codec V)) (s : stream) : outcome ((nat * V) * stream) :=
  r <- load (named "which" c_nat) s ;;
  s' <- (if 0 <? version then
           r' <- load (named "which_typeid" c_string) (snd r) ;;
           assert_then (fst r <? length alternatives) (Ok (snd r'))
         else Ok (snd r)) ;;
  load_variant_from (fst r) 0 alternatives s'.
Definition c_variant (version : nat) (alternatives : list (codec V)) : codec (nat * V) :=
  Codec (save_variant version alternatives) (load_variant version alternatives).
End Variant.

(* ---- cereal/ThreadPool.hpp:22-40; a pool is its number of threads ---- *)
Definition save_pool (pool : option nat) : outcome stream :=
  save c_nat (match pool with Some n => n | None => 0 end).
Definition load_pool (s : stream) : outcome (option nat * stream) :=
  r <- load c_nat s ;; Ok (if (fst r =? 0) || (fst r =? 1) then None else Some (fst r), snd r).

(* ---- cereal/priors.hpp: the alternatives in the order of core/priors.hpp:196-199 ---- *)
Definition prior_index (p : prior) : nat :=
  match p with
  | UninformativePrior => 0 | FixedPrior => 1 | NonNegativePrior => 2 | PositivePrior => 3
  | UniformPrior _ _ => 4 | LogScaleUniformPrior _ _ => 5
  | GaussianPrior _ _ => 6 | LogNormalPrior _ _ => 7 | PositiveGaussianPrior _ _ => 8
  end.
Definition c_real : codec R := Codec (fun x => save c_double (XFin x))
  (fun s => r <- load c_double s ;; match fst r with XFin x => Ok (x, snd r) | _ => Throw end).
Definition c_none (p : prior) : codec prior := Codec (fun _ => Ok []) (fun s => Ok (p, s)).    (* 18-21 *)
Definition c_bounds (mk : xr -> xr -> prior) : codec prior :=                                  (* 23-28 *)
  Codec (fun p => match p with
                  | UniformPrior l u | LogScaleUniformPrior l u => save (c_pair (named "lower" c_double) (named "upper" c_double)) (l, u)
                  | _ => UB end)
        (fun s => r <- load (c_pair (named "lower" c_double) (named "upper" c_double)) s ;; Ok (mk (fst (fst r)) (snd (fst r)), snd r)).
Definition c_musigma (mk : R -> R -> prior) : codec prior :=                                   (* 30-49 *)
  Codec (fun p => match p with
                  | GaussianPrior m v | LogNormalPrior m v | PositiveGaussianPrior m v => save (c_pair (named "mu" c_real) (named "sigma" c_real)) (m, v)
                  | _ => UB end)
        (fun s => r <- load (c_pair (named "mu" c_real) (named "sigma" c_real)) s ;; Ok (mk (fst (fst r)) (snd (fst r)), snd r)).
Definition prior_alternatives : list (codec prior) :=
  [c_none UninformativePrior; c_none FixedPrior; c_none NonNegativePrior; c_none PositivePrior;
   c_bounds UniformPrior; c_bounds LogScaleUniformPrior;
   c_musigma GaussianPrior; c_musigma LogNormalPrior; c_musigma PositiveGaussianPrior].
Variable prior_typeid : nat -> string.
(* PriorContainer, 51-55 *)
Definition c_prior : codec prior :=
  c_iso (fun p => (prior_index p, p)) snd (named "container" (c_variant prior prior_typeid 1 prior_alternatives)).
(* cereal/parameters.hpp:18-23 *)
Definition c_parameter : codec parameter :=
  c_iso (fun p => (p_value p, p_prior p)) (fun x => Param (fst x) (snd x))
    (c_pair (named "value" c_double) (named "prior" c_prior)).
Definition c_store : codec store := c_map c_string c_parameter.
Definition insights := smap string string.          (* core/model.hpp:18 *)

(* cereal/gp.hpp:54-78: a Gaussian process model; loading sets the parameters of an existing one *)
Record gp_model := GpModel { gp_name : string; gp_handler : handler; gp_insights : insights }.
Definition save_gp (gp : gp_model) : outcome stream :=
  s1 <- save (named "name" c_string) (gp_name gp) ;;
  s2 <- save (named "params" c_store) (get_params (gp_handler gp)) ;;
  s3 <- save (named "insights" (c_map c_string c_string)) (gp_insights gp) ;;
  Ok (s1 ++ s2 ++ s3).
Definition load_gp (version : nat) (gp : gp_model) (s : stream) : outcome (gp_model * stream) :=
  r1 <- (if 0 <? version then load (named "name" c_string) s else Ok (gp_name gp, s)) ;;
  r2 <- load (named "params" c_store) (snd r1) ;;
  h <- h_set_params (fst r2) (gp_handler gp) ;;
  r3 <- load (named "insights" (c_map c_string c_string)) (snd r2) ;;
  Ok (GpModel (fst r1) h (fst r3), snd r3).

(* ---- aggregates: cereal/distribution.hpp, dataset.hpp, gp.hpp, serializable_ldlt.hpp,
   block_utils.hpp, ransac.hpp, fit_model.hpp, least_squares.hpp ---- *)
Section Aggregates.
Variable E : Type.
Variable zc : list E -> bytes.
Variable zd : bytes -> nat -> option (list E).
Variable gd : bytes -> option (list E).
Variable ic : list Z -> bytes.
Variable id_ : bytes -> nat -> option (list Z).
Variable igd : bytes -> option (list Z).
Let c_mat := c_dense E zc zd gd.
Let c_indices := c_dense Z ic id_ igd.

(* MarginalDistribution (the covariance is a DiagonalMatrix: its diagonal, eigen.hpp:117-122)
   and JointDistribution: distribution.hpp:18-32 *)
Definition c_distribution : codec (matrix E * matrix E * smap string string) :=
  c_pair (c_pair (named "mean" c_mat) (named "covariance" c_mat)) (named "metadata" (c_map c_string c_string)).
(* dataset.hpp:22-30 *)
Definition c_dataset {X} (cx : codec X) :=
  c_pair (c_pair (named "features" (c_vector cx)) (named "targets" c_distribution)) (named "metadata" (c_map c_string c_string)).

(* SerializableLDLT, serializable_ldlt.hpp:18-32: the factor and transpositions are saved,
   the l1 norm of the matrix (used by rcond and l1_norm()) is not *)
Record ldlt := Ldlt { l_matrix : matrix E; l_transpositions : matrix Z; l_initialized : bool; l_l1_norm : option E }.
Definition save_ldlt (l : ldlt) : outcome stream :=
  s1 <- save_lower_triangle E zc zd gd (l_matrix l) ;;
  s2 <- save (named "transpositions" (named "indices" c_indices)) (l_transpositions l) ;;
  s3 <- save (named "is_initialized" c_bool) (l_initialized l) ;;
  Ok (s1 ++ s2 ++ s3).
Definition load_ldlt (unset : nat -> nat -> E) (l : ldlt) (s : stream) : outcome (ldlt * stream) :=
  r1 <- load_lower_triangle E zc zd gd unset s ;;
  r2 <- load (named "transpositions" (named "indices" c_indices)) (snd r1) ;;
  r3 <- load (named "is_initialized" c_bool) (snd r2) ;;
  Ok (Ldlt (fst r1) (fst r2) (fst r3) (l_l1_norm l), snd r3).
(* the same through a default constructed destination *)
Definition c_ldlt (unset : nat -> nat -> E) : codec ldlt :=
  Codec save_ldlt (load_ldlt unset (Ldlt (vec E []) (vec Z []) false None)).
(* eigen/serializable_ldlt.hpp:58-61 *)
Definition l1_norm (l : ldlt) : outcome E :=
  assert_then (l_initialized l) (of_option UB (l_l1_norm l)).
(* eigen/serializable_ldlt.hpp:200-216; matrixLDLT() asserts that it is initialized *)
Variable eqb : E -> E -> bool.
Definition lower_equal (a b : matrix E) : bool :=
  (rows E a =? rows E b) && (cols E a =? cols E b) &&
  forallb (fun i => forallb (fun j => match entry E a i j, entry E b i j with
                                      | Some x, Some y => eqb x y
                                      | None, None => true
                                      | _, _ => false
                                      end) (seq 0 (S i))) (seq 0 (rows E a)).
Definition ldlt_eq (a b : ldlt) : outcome bool :=
  if negb (l_initialized a) && negb (l_initialized b) then Ok true
  else assert_then (l_initialized a && l_initialized b)
    (Ok (lower_equal (l_matrix a) (l_matrix b) &&
         (rows Z (l_transpositions a) =? rows Z (l_transpositions b)) &&
         forallb (fun p => (fst p =? snd p)%Z) (combine (data Z (l_transpositions a)) (data Z (l_transpositions b))))).

(* gp.hpp:28-36 *)
Definition c_gp_fit {X C} (cx : codec X) (cc : codec C) : codec (matrix E * C * list X) :=
  c_pair (c_pair (named "information" c_mat) (named "train_ldlt" cc)) (named "train_features" (c_vector cx)).
(* gp.hpp:38-52: information, covariance, features, R, P, rank *)
Definition save_sparse_fit {X C} (cx : codec X) (cc : codec C) (version : nat)
    (f : (matrix E * C * list X) * (matrix E * matrix Z) * Z) : outcome stream :=
  let '(g, rp, rank) := f in
  s1 <- save (c_pair (c_pair (named "information" c_mat) (named "train_covariance" cc)) (named "train_features" (c_vector cx))) g ;;
  s2 <- save (c_pair (named "R" c_mat) (named "P" (named "indices" c_indices))) rp ;;
  s3 <- (if 1 <? version then save (named "numerical_rank" c_int) rank else Ok []) ;;
  Ok (s1 ++ s2 ++ s3).
Definition load_sparse_fit {X C} (cx : codec X) (cc : codec C) (version : nat) (s : stream)
    : outcome (((matrix E * C * list X) * (matrix E * matrix Z) * Z) * stream) :=
  r1 <- load (c_pair (c_pair (named "information" c_mat) (named "train_covariance" cc)) (named "train_features" (c_vector cx))) s ;;
  r2 <- load (c_pair (named "R" c_mat) (named "P" (named "indices" c_indices))) (snd r1) ;;
  r3 <- (if 1 <? version then load (named "numerical_rank" c_int) (snd r2) else Ok ((-1)%Z, snd r2)) ;;
  Ok ((fst r1, fst r2, fst r3), snd r3).
(* block_utils.hpp:18-25 *)
Definition c_block_symmetric {C} (cc : codec C) : codec (C * matrix E * C) :=
  c_pair (c_pair (named "A" cc) (named "Ai_B" c_mat)) (named "S" cc).
(* gp.hpp:80-85 *)
Definition c_linear_combination {X} (cx : codec X) : codec (list X * matrix E) :=
  c_pair (named "values" (c_vector cx)) (named "coefficients" c_mat).
(* ransac.hpp:26-44 *)
Definition c_ransac_iteration {K} `{OrdKey K} (ck : codec K) : codec (list K * smap K xr * smap K xr * xr) :=
  c_pair (c_pair (c_pair (named "candidates" (c_vector ck)) (named "inliers" (c_map ck c_double)))
                 (named "outliers" (c_map ck c_double))) (named "consensus_metric_value" c_double).
Definition c_ransac_output {K} `{OrdKey K} (ck : codec K) :=
  c_pair (c_pair (named "return_code" c_int) (named "best" (c_ransac_iteration ck))) (named "iterations" (c_vector (c_ransac_iteration ck))).
End Aggregates.

(* fit_model.hpp:17-24: a fitted Gaussian process, loaded over an existing model *)
Definition save_fit_model {F} (cf : codec F) (m : gp_model * F) : outcome stream :=
  s1 <- save_gp (fst m) ;; s2 <- save (named "fit" cf) (snd m) ;; Ok (("model", TOpen) :: s1 ++ s2).
Definition load_fit_model {F} (cf : codec F) (version : nat) (gp : gp_model) (s : stream) : outcome ((gp_model * F) * stream) :=
  r <- next "model" s ;;
  match r with
  | (TOpen, s') =>
    r1 <- load_gp version gp s' ;; r2 <- load (named "fit" cf) (snd r1) ;; Ok ((fst r1, fst r2), snd r2)
  | _ => Throw
  end.

End Archives.
Arguments Codec {bytes A} _ _.
Arguments save {bytes A} _ _.
Arguments load {bytes A} _ _.
Arguments TNat {bytes} _.
Arguments TInt {bytes} _.
Arguments TBool {bytes} _.
Arguments TDbl {bytes} _.
Arguments TStr {bytes} _.
Arguments TBytes {bytes} _.
Arguments TOpen {bytes}.

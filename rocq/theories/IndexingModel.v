(* Model of indexing/subset.hpp, indexing/filter.hpp, indexing/unique.hpp and
   indexing/group_by.hpp. *)
From Verif Require Import Base StdMapModel.

(* ------------------------------------------------------------------ *)
(* indexing/subset.hpp                                                  *)
(* ------------------------------------------------------------------ *)

(* One read "out[i] = v[indices[i]]" with its assertions,
   indexing/subset.hpp:26-29 (std::vector) and 42-45 (Eigen::VectorXd);
   SizeType = std::size_t. *)
Definition checked_get {A} (v : list A) (i : nat) : outcome A :=
  of_option Abort (nth_error v i).

(* subset(const std::vector<X>&, const std::vector<SizeType>&) and
   subset(const Eigen::VectorXd&, ...), indexing/subset.hpp:21-48. *)
Definition subset {A} (v : list A) (indices : list nat) : outcome (list A) :=
  mapM (checked_get v) indices.

(* The same function with a signed SizeType: "indices[i] >= 0" is asserted,
   indexing/subset.hpp:26 and 43. *)
Definition subset_signed {A} (v : list A) (indices : list Z)
  : outcome (list A) :=
  mapM (fun i => assert_then (0 <=? i)%Z (checked_get v (Z.to_nat i))) indices.

(* A dense matrix: number of columns and list of rows (the number of columns is
   kept for matrices without rows).  Storage order of Eigen is not modelled. *)
Record matrix (A : Type) := Mat { mat_cols : nat; mat_rows : list (list A) }.
Arguments Mat {A}.
Arguments mat_cols {A}.
Arguments mat_rows {A}.

Definition wf_mat {A} (M : matrix A) : Prop :=
  Forall (fun r => length r = mat_cols M) (mat_rows M).

(* M(i,j) *)
Definition mat_get {A} (M : matrix A) (i j : nat) : option A :=
  match nth_error (mat_rows M) i with
  | Some r => nth_error r j
  | None => None
  end.

(* subset_cols, indexing/subset.hpp:53-66: every column index is asserted, also
   if the matrix has no rows. *)
Definition subset_cols {A} (M : matrix A) (cols : list nat)
  : outcome (matrix A) :=
  assert_then (forallb (fun j => j <? mat_cols M) cols)
    (rows <- mapM (fun r => subset r cols) (mat_rows M) ;;
     Ok (Mat (length cols) rows)).

(* subset_rows, indexing/subset.hpp:71-84. *)
Definition subset_rows {A} (M : matrix A) (rows : list nat)
  : outcome (matrix A) :=
  rs <- subset (mat_rows M) rows ;; Ok (Mat (mat_cols M) rs).

(* subset(v, row_indices, col_indices), indexing/subset.hpp:90-112: assertions
   sit in the inner loop. *)
Definition subset_matrix {A} (M : matrix A) (rows cols : list nat)
  : outcome (matrix A) :=
  rs <- mapM (fun i =>
          mapM (fun j =>
            assert_then (i <? length (mat_rows M))
              (assert_then (j <? mat_cols M)
                 (of_option Abort (mat_get M i j)))) cols) rows ;;
  Ok (Mat (length cols) rs).

(* symmetric_subset of a dense matrix, indexing/subset.hpp:118-123. *)
Definition symmetric_subset {A} (M : matrix A) (indices : list nat)
  : outcome (matrix A) :=
  assert_then (length (mat_rows M) =? mat_cols M)
    (subset_matrix M indices indices).

(* set_subset for vectors, indexing/subset.hpp:141-153: writes happen in index
   order, so a repeated index keeps the last value.  A failing assertion aborts
   the program, partially written state is not observable. *)
Fixpoint set_subset_loop {A} (from : list A) (indices : list nat)
         (to : list A) {struct indices} : outcome (list A) :=
  match indices, from with
  | [], _ => Ok to
  | i :: is, f :: fs =>
      assert_then (i <? length to) (set_subset_loop fs is (set_nth to i f))
  | _ :: _, [] => UB
  end.

Definition set_subset {A} (from : list A) (indices : list nat) (to : list A)
  : outcome (list A) :=
  assert_then (length indices =? length from) (set_subset_loop from indices to).

(* set_subset for DiagonalMatrix, indexing/subset.hpp:161-173.  The matrix is
   its diagonal.  The bound asserted is "to->size()", and size() of an Eigen
   diagonal matrix is rows()*cols(), so an index between the number of diagonal
   entries and its square passes the assertion and writes out of bounds. *)
Fixpoint set_subset_diag_loop {A} (from : list A) (indices : list nat)
         (to : list A) {struct indices} : outcome (list A) :=
  match indices, from with
  | [], _ => Ok to
  | i :: is, f :: fs =>
      assert_then (i <? length to * length to)
        (if i <? length to
         then set_subset_diag_loop fs is (set_nth to i f)
         else UB)
  | _ :: _, [] => UB
  end.

Definition set_subset_diag {A} (from : list A) (indices : list nat)
  (to : list A) : outcome (list A) :=
  assert_then (length indices =? length from)
    (set_subset_diag_loop from indices to).

(* std::set_difference on sorted ranges, used by indexing/subset.hpp:175-181. *)
Fixpoint merge_difference {K} `{OrdKey K} (x : list K) : list K -> list K :=
  fix go (y : list K) : list K :=
    match x, y with
    | [], _ => []
    | _ :: _, [] => x
    | a :: x', b :: y' =>
        match kcmp a b with
        | Lt => a :: merge_difference x' y
        | Gt => go y'
        | Eq => merge_difference x' y'
        end
    end.

(* set_difference(std::set, std::set), indexing/subset.hpp:175-181; the results
   are inserted into a new set. *)
Definition set_difference {K} `{OrdKey K} (x y : list K) : list K :=
  sof_list (merge_difference x y).

(* vector_set_difference, indexing/subset.hpp:183-189. *)
Definition vector_set_difference {K} `{OrdKey K} (x y : list K) : list K :=
  set_difference (sof_list x) (sof_list y).

(* indices_complement, indexing/subset.hpp:198-205. *)
Definition indices_complement (indices : list nat) (n : nat) : list nat :=
  vector_set_difference (seq 0 n) indices.

(* indices_from_groups, indexing/subset.hpp:207-215: std::map::at throws. *)
Fixpoint indices_from_groups {K} `{OrdKey K} (indexer : smap K (list nat))
         (ks : list K) : outcome (list nat) :=
  match ks with
  | [] => Ok []
  | k :: ks' =>
      l <- mat k indexer ;; r <- indices_from_groups indexer ks' ;; Ok (l ++ r)
  end.

(* ------------------------------------------------------------------ *)
(* indexing/filter.hpp                                                  *)
(* ------------------------------------------------------------------ *)

(* filter on std::vector, std::copy_if with a back inserter,
   indexing/filter.hpp:20-30. *)
Fixpoint filter_vector {A} (values : list A) (to_keep : A -> bool) : list A :=
  match values with
  | [] => []
  | x :: xs => if to_keep x then x :: filter_vector xs to_keep
               else filter_vector xs to_keep
  end.

(* filter on std::set, indexing/filter.hpp:34-45. *)
Definition filter_set {K} `{OrdKey K} (values : list K) (to_keep : K -> bool)
  : list K :=
  fold_left (fun out k => if to_keep k then sinsert k out else out) values [].

(* filter_map with a key-value predicate, indexing/filter.hpp:65-80; the value
   only version (49-63) is [filter_map m (fun _ v => p v)]. *)
Definition filter_map {K V} `{OrdKey K} (m : smap K V)
  (to_keep : K -> V -> bool) : smap K V :=
  fold_left (fun out kv => if to_keep (fst kv) (snd kv)
                           then memplace (fst kv) (snd kv) out else out) m [].

(* the index list built by filter on a dataset, indexing/filter.hpp:102-107. *)
Fixpoint inds_to_keep {A} (features : list A) (to_keep : A -> bool) (i : nat)
  : list nat :=
  match features with
  | [] => []
  | x :: xs => if to_keep x then i :: inds_to_keep xs to_keep (S i)
               else inds_to_keep xs to_keep (S i)
  end.

(* ------------------------------------------------------------------ *)
(* indexing/unique.hpp                                                  *)
(* ------------------------------------------------------------------ *)

(* unique_values, indexing/unique.hpp:18-20. *)
Definition unique_values {K} `{OrdKey K} (values : list K) : list K :=
  sof_list values.

(* unique_values with a function, indexing/unique.hpp:23-51. *)
Definition unique_values_f {A K} `{OrdKey K} (xs : list A) (f : A -> K)
  : list K := sof_list (map f xs).

(* unique_value, indexing/unique.hpp:57-79: plain assert, active in debug. *)
Definition unique_value {K} `{OrdKey K} (values : list K) : outcome K :=
  match unique_values values with
  | [k] => Ok k
  | _ => Abort
  end.

(* The same in a release build: *values.begin(), undefined for an empty set. *)
Definition unique_value_release {K} `{OrdKey K} (values : list K)
  : outcome K :=
  match unique_values values with
  | k :: _ => Ok k
  | [] => UB
  end.

(* ------------------------------------------------------------------ *)
(* indexing/group_by.hpp                                                *)
(* ------------------------------------------------------------------ *)

(* m[key].push_back(i): operator[] inserts an empty vector when needed. *)
Definition mpush {K A} `{OrdKey K} (k : K) (i : A) (m : smap K (list A))
  : smap K (list A) :=
  massign k ((match mfind k m with Some l => l | None => [] end) ++ [i]) m.

(* loop body of IndexerBuilder::build, indexing/group_by.hpp:363-374. *)
Definition build_step {A K} `{OrdKey K} (grouper : A -> K)
  (st : smap K (list nat) * nat) (value : A) : smap K (list nat) * nat :=
  let '(output, i) := st in
  let group_key := grouper value in
  let output1 := if mcontains group_key output then output
                 else massign group_key [] output in
  (mpush group_key i output1, S i).

(* IndexerBuilder<GrouperFunction>::build, indexing/group_by.hpp:349-377. *)
Definition build_indexer {A K} `{OrdKey K} (grouper : A -> K) (xs : list A)
  : smap K (list nat) :=
  fst (fold_left (build_step grouper) xs ([], 0)).

(* IndexerBuilder<LeaveOneOutGrouper>::build, indexing/group_by.hpp:389-404. *)
Definition build_loo_indexer {A} (xs : list A) : smap nat (list nat) :=
  fst (fold_left (fun '(output, i) (_ : A) => (massign i [i] output, S i))
                 xs ([], 0)).

(* IndexerBuilder<KFoldGrouper>::build, indexing/group_by.hpp:420-435;
   i % 0 is undefined behaviour. *)
Definition build_kfold_indexer {A} (k : nat) (xs : list A)
  : outcome (smap nat (list nat)) :=
  st <- foldM (fun '(output, i) (_ : A) =>
                 if k =? 0 then UB
                 else Ok (mpush (i mod k) i output, S i)) xs ([], 0) ;;
  Ok (fst st).

(* GroupByBase::groups, indexing/group_by.hpp:463-470, for a std::vector. *)
Definition groups_of {A K} `{OrdKey K} (parent : list A)
  (indexers : smap K (list nat)) : outcome (smap K (list A)) :=
  foldM (fun output kv =>
           g <- subset parent (snd kv) ;; Ok (memplace (fst kv) g output))
        indexers [].

(* GroupByBase::get_group, indexing/group_by.hpp:515-517. *)
Definition get_group {A K} `{OrdKey K} (parent : list A)
  (indexers : smap K (list nat)) (key : K) : outcome (list A) :=
  inds <- mat key indexers ;; subset parent inds.

(* GroupByBase::counts, indexing/group_by.hpp:559-565. *)
Definition counts {K} `{OrdKey K} (indexers : smap K (list nat))
  : smap K nat :=
  fold_left (fun output kv => memplace (fst kv) (length (snd kv)) output)
            indexers [].

(* serial apply_map with a key-value function, indexing/apply.hpp:63-79, also
   index_apply, indexing/group_by.hpp:252-258 and 533-539. *)
Definition apply_map {K V W} `{OrdKey K} (m : smap K V) (f : K -> V -> W)
  : smap K W :=
  fold_left (fun output kv => memplace (fst kv) (f (fst kv) (snd kv)) output)
            m [].

(* combine for Grouped<K, std::vector<X>>, indexing/group_by.hpp:273-278:
   concatenate(map_values(groups)); for Grouped<K, Eigen::VectorXd>,
   indexing/group_by.hpp:292-307, the blocks are written one after the other,
   which gives the same list. *)
Definition combine_groups {K A} (groups : smap K (list A)) : list A :=
  concat (mvals groups).

(* combine for Grouped<K, double>, indexing/group_by.hpp:280-290. *)
Definition combine_values {K A} (groups : smap K A) : list A := mvals groups.

(* Grouped::first_value / last_value, indexing/group_by.hpp:112-119: begin() of
   an empty map is not dereferenceable. *)
Definition first_value {K V} (m : smap K V) : outcome V :=
  match m with [] => UB | kv :: _ => Ok (snd kv) end.
Definition last_value {K V} (m : smap K V) : outcome V :=
  match rev m with [] => UB | kv :: _ => Ok (snd kv) end.

(* Grouped::min / max, indexing/group_by.hpp:122-135: std::min_element returns
   the first smallest entry, std::max_element the first largest one.  [lt] is
   operator< of the value type. *)
Definition min_entry {K V} (lt : V -> V -> bool) (m : smap K V)
  : outcome (K * V) :=
  match m with
  | [] => UB
  | kv :: m' =>
      Ok (fold_left (fun best x => if lt (snd x) (snd best) then x else best)
                    m' kv)
  end.
Definition max_entry {K V} (lt : V -> V -> bool) (m : smap K V)
  : outcome (K * V) :=
  match m with
  | [] => UB
  | kv :: m' =>
      Ok (fold_left (fun best x => if lt (snd best) (snd x) then x else best)
                    m' kv)
  end.

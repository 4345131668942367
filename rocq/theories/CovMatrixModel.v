(* Model of the covariance matrix assembly of covariance_functions/callers.hpp.

   An Eigen::MatrixXd is its column major buffer: entry (row, col) of a matrix
   with num_rows rows is at position row + col * num_rows. A freshly allocated
   matrix is uninitialised, its entries are None. Writing outside the buffer,
   reading outside a vector and reading an uninitialised entry are UB.
   Entries have an arbitrary type V; the caller is any function. *)
From Verif Require Import Base StdMapModel AsyncModel.

Definition buffer (V : Type) := outcome (list (option V)).

Definition alloc {V} (rows cols : nat) : buffer V := Ok (repeat None (rows * cols)).

Definition write {V} (pos : nat) (v : V) (b : buffer V) : buffer V :=
  m <- b ;; if pos <? length m then Ok (set_nth m pos (Some v)) else UB.

Section Assembly.
Context {X Y V : Type}.
Variable caller : X -> Y -> V.

(* output(row, col) = caller(xs[row], ys[col]) in a matrix with num_rows rows *)
Definition entry_step (num_rows : nat) (xs : list X) (ys : list Y) (rc : nat * nat)
  (b : buffer V) : buffer V :=
  match nth_error xs (fst rc), nth_error ys (snd rc) with
  | Some x, Some y => write (fst rc + snd rc * num_rows) (caller x y) b
  | _, _ => UB
  end.

(* compute_covariance_matrix(caller, xs, ys), covariance_functions/callers.hpp:38-60. *)
Definition compute_covariance_matrix (xs : list X) (ys : list Y) : buffer V :=
  let m := length xs in let n := length ys in
  fold_left (fun C i => fold_left (fun C j => entry_step m xs ys (i, j) C) (seq 0 n) C)
            (seq 0 m) (alloc m n).

(* block_size, covariance_functions/callers.hpp:79-82: the ceiling of the quotient,
   in exact arithmetic. *)
Definition cov_block_size (num_cols thread_count : nat) : nat :=
  (num_cols + thread_count - 1) / thread_count.

(* apply_block, covariance_functions/callers.hpp:87-97: the entries written by a
   task, in order. *)
Definition cross_block (num_rows num_cols block_size block_index : nat) : list (nat * nat) :=
  let start := block_index * block_size in
  let stop := Nat.min num_cols ((block_index + 1) * block_size) in
  concat (map (fun col => map (fun row => (row, col)) (seq 0 num_rows)) (seq start (stop - start))).

Definition cross_tasks (thread_count : nat) (xs : list X) (ys : list Y)
  : list (task (buffer V) unit) :=
  let m := length xs in let n := length ys in
  map (fun b => Task (map (entry_step m xs ys) (cross_block m n (cov_block_size n thread_count) b)) (Some tt))
      (seq 0 thread_count).

(* compute_covariance_matrix(caller, xs, ys, pool), covariance_functions/callers.hpp:66-103,
   under the given schedule of the pool; None if the schedule is impossible or
   incomplete. *)
Definition compute_covariance_matrix_pool (pool : option nat) (xs : list X) (ys : list Y)
  (sched : list event) : option (buffer V) :=
  if should_serial_apply pool then Some (compute_covariance_matrix xs ys)
  else match pool with
       | None => None
       | Some threads =>
           let tasks := cross_tasks threads xs ys in
           let order := seq 0 threads in
           match pool_run threads tasks order
                   (pool_init tasks order (alloc (length xs) (length ys))) sched with
           | Some st => match pool_outcome st with
                        | Some (Ok _) => Some (ps_mem st)
                        | _ => None
                        end
           | None => None
           end
       end.
End Assembly.

(* C(row, col) = C(row', col') *)
Definition copy_step {V} (n : nat) (dst src : nat * nat) (b : buffer V) : buffer V :=
  m <- b ;; match nth_error m (fst src + snd src * n) with
            | Some (Some v) => write (fst dst + snd dst * n) v b
            | _ => UB
            end.

Section Symmetric.
Context {X V : Type}.
Variable caller : X -> X -> V.

(* compute_covariance_matrix(caller, xs), covariance_functions/callers.hpp:109-131. *)
Definition compute_covariance_matrix_symmetric (xs : list X) : buffer V :=
  let n := length xs in
  fold_left (fun C i => fold_left (fun C j =>
      copy_step n (j, i) (i, j) (entry_step caller n xs xs (i, j) C))
    (seq 0 (i + 1)) C) (seq 0 n) (alloc n n).

(* apply_block, covariance_functions/callers.hpp:152-160. *)
Definition triangle_block (indices : nat * nat) : list (nat * nat) :=
  concat (map (fun col => map (fun row => (row, col)) (seq 0 (col + 1)))
              (seq (fst indices) (snd indices - fst indices))).

Definition triangle_tasks (blocks : list (nat * nat)) (xs : list X) : list (task (buffer V) unit) :=
  map (fun b => Task (map (entry_step caller (length xs) xs xs) (triangle_block b)) (Some tt)) blocks.

(* output.triangularView<Eigen::Lower>() = output.transpose(),
   covariance_functions/callers.hpp:167. *)
Definition copy_upper_to_lower (n : nat) (b : buffer V) : buffer V :=
  fold_left (fun b col => fold_left (fun b row => copy_step n (row, col) (col, row) b)
    (seq col (n - col)) b) (seq 0 n) b.

(* compute_covariance_matrix(caller, xs, pool), covariance_functions/callers.hpp:136-169;
   blocks is the result of partition_triangular(size, thread_count). *)
Definition compute_covariance_matrix_symmetric_pool (pool : option nat) (blocks : list (nat * nat))
  (xs : list X) (sched : list event) : option (buffer V) :=
  if should_serial_apply pool then Some (compute_covariance_matrix_symmetric xs)
  else match pool with
       | None => None
       | Some threads =>
           let n := length xs in
           let tasks := triangle_tasks blocks xs in
           let order := seq 0 (length blocks) in
           match pool_run threads tasks order (pool_init tasks order (alloc n n)) sched with
           | Some st => match pool_outcome st with
                        | Some (Ok _) => Some (copy_upper_to_lower n (ps_mem st))
                        | _ => None
                        end
           | None => None
           end
       end.
End Symmetric.

(* compute_mean_vector, covariance_functions/callers.hpp:171-189. *)
Definition compute_mean_vector {X V} (caller : X -> V) (xs : list X) : buffer V :=
  fold_left (fun m i => match nth_error xs i with
                        | Some x => write i (caller x) m
                        | None => UB
                        end) (seq 0 (length xs)) (alloc (length xs) 1).

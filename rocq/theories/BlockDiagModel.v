(* Model of linalg/block_diagonal.hpp, linalg/block_utils.hpp and vertical_stack of
   utils/eigen_utils.hpp, in exact real arithmetic.

   A matrix argument is its two sizes and a function giving its entries; a matrix that
   is being filled is a buffer as in CovMatrixModel.v, uninitialised at first. Eigen
   checks the sizes of blocks, sums, products and assignments with eigen_assert only;
   a violation is UB here. *)
From Coq Require Import Reals.
From Verif Require Import Base StdMapModel FoldsModel AsyncModel CovMatrixModel.

Record dmx := Dmx { drows : nat; dcols : nat; dat : nat -> nat -> R }.

Fixpoint rsum (f : nat -> R) (n : nat) : R :=
  match n with 0 => R0 | S k => Rplus (rsum f k) (f k) end.

(* m.block(i, 0, k, m.cols()) *)
Definition row_block (m : dmx) (i k : nat) : outcome dmx :=
  if i + k <=? drows m then Ok (Dmx k (dcols m) (fun a b => dat m (i + a) b)) else UB.

(* a * b *)
Definition dmul (a b : dmx) : outcome dmx :=
  if dcols a =? drows b
  then Ok (Dmx (drows a) (dcols b) (fun i j => rsum (fun k => Rmult (dat a i k) (dat b k j)) (dcols a)))
  else UB.

(* a - b and a + b *)
Definition same_size (a b : dmx) : bool := (drows a =? drows b) && (dcols a =? dcols b).
Definition dsub (a b : dmx) : outcome dmx :=
  if same_size a b then Ok (Dmx (drows a) (dcols a) (fun i j => Rminus (dat a i j) (dat b i j))) else UB.
Definition dadd (a b : dmx) : outcome dmx :=
  if same_size a b then Ok (Dmx (drows a) (dcols a) (fun i j => Rplus (dat a i j) (dat b i j))) else UB.
Definition dtr (a : dmx) : dmx := Dmx (dcols a) (drows a) (fun i j => dat a j i).

(* output.block(i, j, v.rows(), v.cols()) = v, entry by entry, in a matrix with num_rows rows *)
Definition block_cells (v : dmx) : list (nat * nat) :=
  concat (map (fun c => map (fun r => (r, c)) (seq 0 (drows v))) (seq 0 (dcols v))).
Definition write_block (num_rows i j : nat) (v : dmx) : list (buffer R -> buffer R) :=
  map (fun rc => write ((i + fst rc) + (j + snd rc) * num_rows) (dat v (fst rc) (snd rc))) (block_cells v).
Definition run_writes (steps : list (buffer R -> buffer R)) (b : buffer R) : buffer R :=
  fold_left (fun b a => a b) steps b.

(* Matrix::Zero(rows, cols) *)
Definition zeros (rows cols : nat) : buffer R := Ok (repeat (Some R0) (rows * cols)).

(* ---- BlockDiagonalLDLT ---- *)

(* one block: its size, what solve, sqrt_solve and log_determinant return (LdltModel.v) *)
Record ldlt_block := LdltBlock {
  lb_rows : nat;
  lb_solve : dmx -> outcome dmx;
  lb_sqrt_solve : dmx -> outcome dmx;
  lb_log_determinant : R }.

(* rows(), cols(), linalg/block_diagonal.hpp:231-245 *)
Definition ldlt_rows (blocks : list ldlt_block) : nat := fold_left (fun n b => n + lb_rows b) blocks 0.

Section Rowwise.
(* solve or sqrt_solve of a block *)
Variable op : ldlt_block -> dmx -> outcome dmx.

(* the body of the loops, linalg/block_diagonal.hpp:102-106, 116-120, 132-136, 157-161 and of
   solve_and_fill_one_block, 185-189, 202-206: the entries written into output, in order *)
Definition fill_one_block (num_rows : nat) (rhs : dmx) (row : nat) (b : ldlt_block) : list (buffer R -> buffer R) :=
  match (chunk <- row_block rhs row (lb_rows b) ;; v <- op b chunk ;;
         if (drows v =? lb_rows b) && (dcols v =? dcols rhs) then Ok v else UB) with
  | Ok v => write_block num_rows row 0 v
  | Abort => [fun _ => Abort]
  | Throw => [fun _ => Throw]
  | UB => [fun _ => UB]
  end.

(* solve(rhs) and sqrt_solve(rhs), linalg/block_diagonal.hpp:96-122, 124-147 and 149-163 *)
Definition rowwise (blocks : list ldlt_block) (rhs : dmx) : buffer R :=
  assert_then (ldlt_rows blocks =? drows rhs)
    (snd (fold_left (fun st b => (fst st + lb_rows b,
                                  run_writes (fill_one_block (ldlt_rows blocks) rhs (fst st) b) (snd st)))
                    blocks (0, alloc (ldlt_rows blocks) (dcols rhs)))).

(* block_to_row_map, linalg/block_diagonal.hpp:165-177 *)
Definition block_to_row_map (blocks : list ldlt_block) : outcome (smap nat nat) :=
  let st := fold_left (fun st ib => (fst st + lb_rows (snd ib), massign (fst ib) (fst st) (snd st)))
                      (combine (seq 0 (length blocks)) blocks) (0, []) in
  assert_then (fst st =? ldlt_rows blocks) (Ok (snd st)).

(* solve(rhs, pool) and sqrt_solve(rhs, pool), linalg/block_diagonal.hpp:179-210, with apply_map of
   utils/async_utils.hpp:125-148, under the given schedule; None if the schedule is impossible or
   incomplete *)
Definition rowwise_pool (pool : option nat) (blocks : list ldlt_block) (rhs : dmx) (sched : list event)
  : option (buffer R) :=
  if ldlt_rows blocks =? drows rhs then
    match block_to_row_map blocks with
    | Ok rows =>
        let start := alloc (ldlt_rows blocks) (dcols rhs) in
        let fill (ir : nat * nat) :=
          match nth_error blocks (fst ir) with
          | Some b => fill_one_block (ldlt_rows blocks) rhs (snd ir) b
          | None => [fun _ => UB]
          end in
        if should_serial_apply pool
        then Some (fold_left (fun out ir => run_writes (fill ir) out) rows start)
        else match pool with
             | None => None
             | Some threads =>
                 let tasks := map (fun ir => Task (fill ir) (Some tt)) rows in
                 let order := seq 0 (length rows) in
                 match pool_run threads tasks order (pool_init tasks order start) sched with
                 | Some st => match pool_outcome st with Some (Ok _) => Some (ps_mem st) | _ => None end
                 | None => None
                 end
             end
    | _ => Some Abort
    end
  else Some Abort.
End Rowwise.

(* log_determinant, linalg/block_diagonal.hpp:212-218 *)
Definition ldlt_log_determinant (blocks : list ldlt_block) : R :=
  fold_left (fun out b => Rplus out (lb_log_determinant b)) blocks R0.

(* ---- BlockDiagonal ---- *)

(* rows() and cols(), linalg/block_diagonal.hpp:315-329 *)
Definition bd_rows (blocks : list dmx) : nat := fold_left (fun n b => n + drows b) blocks 0.
Definition bd_cols (blocks : list dmx) : nat := fold_left (fun n b => n + dcols b) blocks 0.

(* assignment of the value of an expression *)
Definition assign (v : outcome dmx) (rows cols : nat) (writes : dmx -> list (buffer R -> buffer R)) (b : buffer R) : buffer R :=
  v' <- v ;; if (drows v' =? rows) && (dcols v' =? cols) then run_writes (writes v') b else UB.

(* operator*, linalg/block_diagonal.hpp:255-268 *)
Definition bd_mul (blocks : list dmx) (rhs : dmx) : buffer R :=
  assert_then (bd_cols blocks =? drows rhs)
    (snd (fold_left (fun st b =>
            (fst st + drows b,
             assign (chunk <- row_block rhs (fst st) (drows b) ;; dmul b chunk) (drows b) (dcols rhs)
                    (write_block (bd_rows blocks) (fst st) 0) (snd st)))
          blocks (0, zeros (bd_rows blocks) (dcols rhs)))).

(* operator-, linalg/block_diagonal.hpp:270-280; only the number of entries is compared *)
Definition bd_sub (lhs rhs : list dmx) : outcome (list dmx) :=
  assert_then (bd_cols lhs =? bd_rows rhs)
    (assert_then (length lhs =? length rhs)
      (mapM (fun ab => assert_then (drows (fst ab) * dcols (fst ab) =? drows (snd ab) * dcols (snd ab))
                         (dsub (fst ab) (snd ab))) (combine lhs rhs))).

(* toDense, linalg/block_diagonal.hpp:282-293 *)
Definition bd_to_dense (blocks : list dmx) : buffer R :=
  snd (fold_left (fun st b =>
         ((fst (fst st) + drows b, snd (fst st) + dcols b),
          run_writes (write_block (bd_rows blocks) (fst (fst st)) (snd (fst st)) b) (snd st)))
       blocks ((0, 0), zeros (bd_rows blocks) (bd_cols blocks))).

(* b.diagonal() *)
Definition ddiagonal (b : dmx) : dmx := Dmx (Nat.min (drows b) (dcols b)) 1 (fun i _ => dat b i i).

(* diagonal, linalg/block_diagonal.hpp:295-305 *)
Definition bd_diagonal (blocks : list dmx) : buffer R :=
  assert_then (bd_rows blocks =? bd_cols blocks)
    (snd (fold_left (fun st b =>
            (fst st + drows b,
             assign (Ok (ddiagonal b)) (drows b) 1 (write_block (bd_rows blocks) (fst st) 0) (snd st)))
          blocks (0, alloc (bd_rows blocks) 1))).

(* ---- block_utils ---- *)

(* block_sum, linalg/block_utils.hpp:23-36; xs[0] of an empty vector is UB *)
Definition block_sum (xs : list dmx) : outcome dmx :=
  match xs with
  | [] => UB
  | x :: rest => foldM dadd rest x
  end.

Section Grouped.
Context {K : Type} `{OrdKey K}.

(* block_accumulate, linalg/block_utils.hpp:44-69 *)
Definition block_accumulate {X Y} (lhs : smap K X) (rhs : smap K Y) (f : X -> Y -> outcome dmx) : outcome dmx :=
  assert_then (length lhs =? length rhs)
    (assert_then (0 <? length lhs)
      (blocks <- mapM (fun key => assert_then (mcontains key lhs && mcontains key rhs)
                                    (x <- mat key lhs ;; y <- mat key rhs ;; f x y)) (mkeys lhs) ;;
       block_sum blocks)).

(* block_product, linalg/block_utils.hpp:71-93, and block_inner_product, 95-117 *)
Definition block_product (lhs rhs : smap K dmx) : outcome dmx := block_accumulate lhs rhs dmul.
Definition block_inner_product (lhs rhs : smap K dmx) : outcome dmx :=
  block_accumulate lhs rhs (fun x y => dmul (dtr x) y).

(* block_diag_solve, linalg/block_utils.hpp:119-140: solvers are given by what their solve returns *)
Definition block_diag_solve (lhs : smap K (dmx -> outcome dmx)) (rhs : smap K dmx) : outcome (smap K dmx) :=
  apply_mapM rhs (fun key x => s <- mat key lhs ;; s x).

(* block_subtract, linalg/block_utils.hpp:142-153 *)
Definition block_subtract (lhs rhs : smap K dmx) : outcome (smap K dmx) :=
  assert_then (length lhs =? length rhs)
    (apply_mapM rhs (fun key rhs_i => lhs_i <- mat key lhs ;; dsub lhs_i rhs_i)).
End Grouped.

(* vertical_stack, utils/eigen_utils.hpp:29-47 *)
Definition vertical_stack (blocks : list dmx) : buffer R :=
  match blocks with
  | [] => UB
  | b0 :: _ =>
      let cols := dcols b0 in
      rows <- foldM (fun rows b => assert_then (dcols b =? cols) (Ok (rows + drows b))) blocks 0 ;;
      snd (fold_left (fun st b => (fst st + drows b, run_writes (write_block rows (fst st) 0 b) (snd st)))
                     blocks (0, zeros rows cols))
  end.

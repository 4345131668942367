(* C44 and C63: BlockDiagonal, BlockDiagonalLDLT and the block utilities agree with the dense
   computations.  dense_at (BlockDiagSpec.v) gives the entries of the block diagonal matrix and
   stacked those of the blocks on top of each other. *)
From Coq Require Import Reals Lra.
From Verif Require Import Base BaseProofs StdMapModel StdMapProofs AsyncModel CovMatrixModel CovMatrixSpec
  BlockDiagModel BlockDiagSpec BlockDiagProofs BlockUtilsProofs.

Theorem C44_to_dense bs : matrix_is (bd_to_dense bs) (sum_rows bs) (sum_cols bs) (dense_at bs).
Proof. exact (bd_to_dense_spec bs). Qed.
Print Assumptions C44_to_dense.

Theorem C44_product bs rhs : Forall square bs -> drows rhs = sum_cols bs ->
  matrix_is (bd_mul bs rhs) (sum_rows bs) (dcols rhs)
    (fun r c => rsum (fun k => (dense_at bs r k * dat rhs k c)%R) (drows rhs)).
Proof. exact (bd_mul_spec bs rhs). Qed.
Print Assumptions C44_product.

Theorem C44_product_size bs rhs : drows rhs <> sum_cols bs -> bd_mul bs rhs = Abort.
Proof. exact (bd_mul_mismatch bs rhs). Qed.
Print Assumptions C44_product_size.

(* dense_at takes entries outside of a block for 0, so this is about all of the entries *)
Theorem C44_difference ls rs :
  Forall2 (fun a b => drows a = drows b /\ dcols a = dcols b) ls rs -> sum_cols ls = sum_rows rs ->
  exists ds, bd_sub ls rs = Ok ds /\
    Forall2 (fun d a => drows d = drows a /\ dcols d = dcols a) ds ls /\
    forall i j, dense_at ds i j = (dense_at ls i j - dense_at rs i j)%R.
Proof. exact (bd_sub_spec ls rs). Qed.
Print Assumptions C44_difference.

Theorem C44_difference_size ls rs : sum_cols ls <> sum_rows rs \/ length ls <> length rs -> bd_sub ls rs = Abort.
Proof. exact (bd_sub_abort ls rs). Qed.
Print Assumptions C44_difference_size.

Theorem C44_diagonal bs : Forall square bs ->
  matrix_is (bd_diagonal bs) (sum_rows bs) 1 (fun r _ => dense_at bs r r).
Proof. exact (bd_diagonal_spec bs). Qed.
Print Assumptions C44_diagonal.

(* solve and sqrt_solve of BlockDiagonalLDLT when each block multiplies by a matrix: serial, and
   with a pool for every schedule *)
Definition block_multiplies (op : ldlt_block -> dmx -> outcome dmx) (b : ldlt_block) (M : dmx) : Prop :=
  drows M = lb_rows b /\ dcols M = lb_rows b /\ multiplies (op b) M.
Definition dense_product (Ms : list dmx) (rhs : dmx) (r c : nat) : R :=
  rsum (fun k => (dense_at Ms r k * dat rhs k c)%R) (drows rhs).

Theorem C44_blockwise op blocks Ms rhs :
  Forall2 (block_multiplies op) blocks Ms -> drows rhs = list_sum (map lb_rows blocks) ->
  matrix_is (rowwise op blocks rhs) (drows rhs) (dcols rhs) (dense_product Ms rhs).
Proof. exact (rowwise_spec op blocks Ms rhs). Qed.
Print Assumptions C44_blockwise.

Theorem C44_blockwise_threaded op pool blocks Ms rhs sched out :
  Forall2 (block_multiplies op) blocks Ms -> drows rhs = list_sum (map lb_rows blocks) ->
  rowwise_pool op pool blocks rhs sched = Some out ->
  matrix_is out (drows rhs) (dcols rhs) (dense_product Ms rhs).
Proof. exact (rowwise_pool_spec op pool blocks Ms rhs sched out). Qed.
Print Assumptions C44_blockwise_threaded.

Theorem C44_threaded_completes op pool blocks rhs : exists sched out, rowwise_pool op pool blocks rhs sched = Some out.
Proof. exact (rowwise_pool_completes op pool blocks rhs). Qed.
Print Assumptions C44_threaded_completes.

Theorem C44_blockwise_size op pool blocks rhs sched : drows rhs <> list_sum (map lb_rows blocks) ->
  rowwise op blocks rhs = Abort /\ rowwise_pool op pool blocks rhs sched = Some Abort.
Proof.
  intros H. split; [exact (rowwise_mismatch op blocks rhs H)|exact (rowwise_pool_mismatch op pool blocks rhs sched H)].
Qed.
Print Assumptions C44_blockwise_size.

(* ---- examples ---- *)
Definition ex_a : dmx := Dmx 1 1 (fun _ _ => 2%R).
Definition ex_b : dmx := Dmx 2 2 (fun i j => INR (1 + i + 2 * j)).
Definition ex_rhs : dmx := Dmx 3 1 (fun i _ => INR (i + 1)).
Example C44_example : Forall square [ex_a; ex_b] /\ drows ex_rhs = sum_cols [ex_a; ex_b] /\
  dense_at [ex_a; ex_b] 2 1 = 2%R /\ dense_at [ex_a; ex_b] 0 1 = 0%R.
Proof. repeat split; repeat constructor; cbn; lra. Qed.
Definition ex_double : ldlt_block :=
  LdltBlock 1 (fun x => if drows x =? 1 then Ok (Dmx 1 (dcols x) (fun i j => (2 * dat x i j)%R)) else UB) (fun x => Ok x) 0%R.
Example C44_blockwise_example : Forall2 (block_multiplies lb_solve) [ex_double; ex_double] [ex_a; ex_a].
Proof.
  repeat constructor; intros x Hx; cbn in *; rewrite Hx; eexists; (split; [reflexivity|]); cbn; repeat split;
    intros i j Hi Hj; replace i with 0 by lia; change R0 with 0%R; lra.
Qed.

(* ---- findings ---- *)
(* With blocks that are not square, operator* takes a chunk of rhs with as many rows as the block
   instead of as many as it has columns: the sizes of the product do not match, although rhs
   passed the assertion and the dense product exists. *)
Theorem C44_product_not_square_refuted :
  exists bs rhs, drows rhs = sum_cols bs /\ bd_mul bs rhs = UB /\
    matrix_is (bd_to_dense bs) (sum_rows bs) (sum_cols bs) (dense_at bs).
Proof.
  exists [Dmx 1 2 (fun _ _ => 1%R)], (Dmx 2 1 (fun _ _ => 1%R)). split; [reflexivity|]. split; [reflexivity|].
  apply bd_to_dense_spec.
Qed.
Print Assumptions C44_product_not_square_refuted.

(* operator- compares the number of entries of the blocks, not their shapes *)
Theorem C44_difference_shape_refuted :
  exists ls rs, length ls = length rs /\ sum_cols ls = sum_rows rs /\
    Forall2 (fun a b => drows a * dcols a = drows b * dcols b) ls rs /\ bd_sub ls rs = UB.
Proof.
  exists [Dmx 1 2 (fun _ _ => 1%R)], [Dmx 2 1 (fun _ _ => 1%R)]. repeat split; repeat constructor.
Qed.
Print Assumptions C44_difference_shape_refuted.

(* ---- C63 ---- *)
Section Grouped.
Context {K : Type} `{OrdKey K}.

Definition sum_of (l : list R) : R := fold_right Rplus 0%R l.

(* block_accumulate: the sum over the keys of what the function returns *)
Theorem C63_accumulate {X Y} (lhs : smap K X) (rhs : smap K Y) f p q zs :
  wf_map lhs -> wf_map rhs -> mkeys lhs = mkeys rhs -> lhs <> [] ->
  Forall2 (fun xy z => f (fst xy) (snd xy) = Ok z /\ drows z = p /\ dcols z = q) (combine (mvals lhs) (mvals rhs)) zs ->
  exists out, block_accumulate lhs rhs f = Ok out /\ drows out = p /\ dcols out = q /\
    forall i j, dat out i j = sum_of (map (fun z => dat z i j) zs).
Proof. exact (block_accumulate_spec lhs rhs f p q zs). Qed.

(* different keys are rejected *)
Theorem C63_accumulate_keys {X Y} (lhs : smap K X) (rhs : smap K Y) f : wf_map lhs -> wf_map rhs ->
  (forall k x y, In (k, x) lhs -> In (k, y) rhs -> is_ok (f x y) = true) ->
  lhs = [] \/ ~ (forall k, In k (mkeys lhs) <-> In k (mkeys rhs)) ->
  block_accumulate lhs rhs f = Abort.
Proof. exact (block_accumulate_abort lhs rhs f). Qed.

(* lhs^T rhs of the stacked blocks *)
Theorem C63_inner_product (lhs rhs : smap K dmx) p q :
  wf_map lhs -> wf_map rhs -> mkeys lhs = mkeys rhs -> lhs <> [] ->
  Forall2 (fun x y => drows x = drows y /\ dcols x = p /\ dcols y = q) (mvals lhs) (mvals rhs) ->
  exists out, block_inner_product lhs rhs = Ok out /\ drows out = p /\ dcols out = q /\
    forall i j, dat out i j = rsum (fun k => (stacked (mvals lhs) k i * stacked (mvals rhs) k j)%R) (sum_rows (mvals lhs)).
Proof. exact (block_inner_product_spec lhs rhs p q). Qed.

(* the blocks of lhs side by side times those of rhs on top of each other *)
Theorem C63_product (lhs rhs : smap K dmx) p q :
  wf_map lhs -> wf_map rhs -> mkeys lhs = mkeys rhs -> lhs <> [] ->
  Forall2 (fun x y => dcols x = drows y /\ drows x = p /\ dcols y = q) (mvals lhs) (mvals rhs) ->
  exists out, block_product lhs rhs = Ok out /\ drows out = p /\ dcols out = q /\
    forall i j, dat out i j =
      rsum (fun k => (stacked (map dtr (mvals lhs)) k i * stacked (mvals rhs) k j)%R) (sum_rows (mvals rhs)).
Proof. exact (block_product_spec lhs rhs p q). Qed.

Theorem C63_subtract (lhs rhs : smap K dmx) : wf_map lhs -> wf_map rhs -> mkeys lhs = mkeys rhs ->
  Forall2 (fun x y => drows x = drows y /\ dcols x = dcols y) (mvals lhs) (mvals rhs) ->
  exists out, block_subtract lhs rhs = Ok out /\ mkeys out = mkeys lhs /\
    Forall2 (fun d x => drows d = drows x /\ dcols d = dcols x) (mvals out) (mvals lhs) /\
    forall i j, stacked (mvals out) i j = (stacked (mvals lhs) i j - stacked (mvals rhs) i j)%R.
Proof. exact (block_subtract_spec lhs rhs). Qed.

Theorem C63_subtract_keys (lhs rhs : smap K dmx) : wf_map lhs -> wf_map rhs ->
  (length lhs <> length rhs -> block_subtract lhs rhs = Abort) /\
  (forall k, length lhs = length rhs -> In k (mkeys rhs) -> ~ In k (mkeys lhs) ->
     (forall k x y, In (k, x) lhs -> In (k, y) rhs -> drows x = drows y /\ dcols x = dcols y) ->
     block_subtract lhs rhs = Throw).
Proof.
  intros W1 W2. unfold block_subtract. split.
  - intros Hne. rewrite (proj2 (Nat.eqb_neq _ _) Hne). reflexivity.
  - intros k Hl Hin Hn Hs. rewrite (proj2 (Nat.eqb_eq _ _) Hl). apply (apply_missing lhs rhs dsub k W2); auto.
    intros k' x y H1 H2. destruct (Hs k' x y H1 H2). rewrite dsub_ok by assumption. reflexivity.
Qed.

(* the block diagonal matrix of the inverses times the stacked right hand sides *)
Theorem C63_diag_solve (lhs : smap K (dmx -> outcome dmx)) (rhs : smap K dmx) Ms q :
  wf_map lhs -> wf_map rhs -> mkeys lhs = mkeys rhs ->
  Forall2 multiplies (mvals lhs) Ms ->
  Forall2 (fun M y => dcols M = drows y /\ dcols y = q) Ms (mvals rhs) ->
  exists out, block_diag_solve lhs rhs = Ok out /\ mkeys out = mkeys rhs /\
    Forall2 (fun d M => drows d = drows M /\ dcols d = q) (mvals out) Ms /\
    forall i j, i < sum_rows Ms -> j < q -> stacked (mvals out) i j =
      rsum (fun k => (dense_at Ms i k * stacked (mvals rhs) k j)%R) (sum_cols Ms).
Proof. exact (block_diag_solve_spec lhs rhs Ms q). Qed.

Theorem C63_diag_solve_keys (lhs : smap K (dmx -> outcome dmx)) (rhs : smap K dmx) k : wf_map rhs ->
  (forall k s y, In (k, s) lhs -> In (k, y) rhs -> is_ok (s y) = true) ->
  In k (mkeys rhs) -> ~ In k (mkeys lhs) -> block_diag_solve lhs rhs = Throw.
Proof. exact (apply_missing lhs rhs (fun s x => s x) k). Qed.
End Grouped.
Print Assumptions C63_accumulate.
Print Assumptions C63_accumulate_keys.
Print Assumptions C63_inner_product.
Print Assumptions C63_product.
Print Assumptions C63_subtract.
Print Assumptions C63_subtract_keys.
Print Assumptions C63_diag_solve.
Print Assumptions C63_diag_solve_keys.

Theorem C63_vertical_stack b0 bs : Forall (fun b => dcols b = dcols b0) bs ->
  matrix_is (vertical_stack (b0 :: bs)) (sum_rows (b0 :: bs)) (dcols b0) (stacked (b0 :: bs)).
Proof. exact (vertical_stack_spec b0 bs). Qed.
Print Assumptions C63_vertical_stack.

Theorem C63_vertical_stack_columns b0 bs : ~ Forall (fun b => dcols b = dcols b0) bs -> vertical_stack (b0 :: bs) = Abort.
Proof. exact (vertical_stack_abort b0 bs). Qed.
Print Assumptions C63_vertical_stack_columns.

(* nothing to stack or to sum: the first element is read all the same *)
Theorem C63_empty_refuted : vertical_stack [] = UB /\ block_sum [] = UB.
Proof. split; reflexivity. Qed.
Print Assumptions C63_empty_refuted.

Definition ex_lhs : smap nat dmx := [(1, ex_a); (4, Dmx 2 1 (fun i _ => INR i))].
Definition ex_rhs2 : smap nat dmx := [(1, Dmx 1 2 (fun _ j => INR j)); (4, ex_b)].
Example C63_example : wf_map ex_lhs /\ wf_map ex_rhs2 /\ mkeys ex_lhs = mkeys ex_rhs2 /\ ex_lhs <> [] /\
  Forall2 (fun x y => drows x = drows y /\ dcols x = 1 /\ dcols y = 2) (mvals ex_lhs) (mvals ex_rhs2) /\
  ~ (forall k, In k (mkeys ex_lhs) <-> In k (mkeys [(1, ex_a); (5, ex_a)])) /\
  stacked (mvals ex_lhs) 2 0 = 1%R.
Proof.
  repeat split; try (repeat constructor; cbn; auto; fail); try discriminate.
  - intros H. destruct (H 4) as [H1 _]. cbn in H1. destruct H1 as [|[|]]; lia.
Qed.

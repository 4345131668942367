From Coq Require Import Reals Lra Permutation.
From Verif Require Import Base BaseProofs StdMapModel StdMapProofs FoldsModel FoldsProofs AsyncModel AsyncProofs
  CovMatrixModel CovMatrixSpec CovMatrixProofs BlockDiagModel BlockDiagSpec.

(* ---- sums ---- *)
Lemma lsc a l : list_sum (a :: l) = a + list_sum l.
Proof. reflexivity. Qed.
Lemma rsum_ext f g n : (forall k, k < n -> f k = g k) -> rsum f n = rsum g n.
Proof. induction n as [|n IH]; intros E; cbn; [reflexivity|]. rewrite IH, E by (auto; lia). reflexivity. Qed.
Lemma rsum_0 n : rsum (fun _ => 0%R) n = 0%R.
Proof. induction n as [|n IH]; cbn; [reflexivity|]. rewrite IH. lra. Qed.
Lemma rsum_zero f n : (forall k, k < n -> f k = 0%R) -> rsum f n = 0%R.
Proof. intros E. rewrite <- (rsum_0 n). apply rsum_ext. exact E. Qed.
Lemma rsum_split f a b : rsum f (a + b) = (rsum f a + rsum (fun k => f (a + k)%nat) b)%R.
Proof.
  induction b as [|b IH]; cbn; [rewrite Nat.add_0_r; lra|].
  rewrite Nat.add_succ_r. cbn. rewrite IH. lra.
Qed.

(* ---- assignments of blocks ---- *)
Lemma holds_cells cells : forall b rows cols f i j (g : nat -> nat -> R),
  holds b rows cols f ->
  Forall (fun rc => i + fst rc < rows /\ j + snd rc < cols) cells ->
  holds (run_writes (map (fun rc => write ((i + fst rc) + (j + snd rc) * rows) (g (fst rc) (snd rc))) cells) b) rows cols
    (fun r c => if (i <=? r) && (j <=? c) && mem_cell (r - i, c - j) cells then Some (g (r - i) (c - j)) else f r c).
Proof.
  induction cells as [|[r c] cells IH]; intros b rows cols f i j g Hb HF.
  - cbn. eapply holds_ext; [|exact Hb]. intros. rewrite andb_false_r. reflexivity.
  - inversion HF as [|? ? [Hr Hc] HF']; subst. cbn [fst snd] in *. cbn [map run_writes fold_left].
    pose proof (holds_write b rows cols f (i + r) (j + c) (g r c) Hb Hr Hc) as Hw.
    specialize (IH _ _ _ _ i j g Hw HF'). eapply holds_ext; [|exact IH].
    intros r' c' _ _. cbn beta. rewrite mem_cell_cons. unfold upd.
    destruct (Nat.leb_spec i r'); cbn [andb].
    2:{ destruct (Nat.eqb_spec r' (i + r)); [lia|reflexivity]. }
    destruct (Nat.leb_spec j c'); cbn [andb].
    2:{ destruct (Nat.eqb_spec c' (j + c)); [lia|]. rewrite andb_false_r. reflexivity. }
    destruct (mem_cell (r' - i, c' - j) cells); [rewrite orb_true_r; reflexivity|]. rewrite orb_false_r.
    destruct (Nat.eqb_spec r' (i + r)) as [->|Hne].
    + replace (i + r - i) with r by lia. rewrite Nat.eqb_refl. cbn [andb].
      destruct (Nat.eqb_spec c' (j + c)) as [->|Hne].
      * replace (j + c - j) with c by lia. rewrite Nat.eqb_refl. reflexivity.
      * destruct (Nat.eqb_spec c (c' - j)); [lia|reflexivity].
    + destruct (Nat.eqb_spec r (r' - i)); [lia|reflexivity].
Qed.

Lemma in_block_cells v r c : In (r, c) (block_cells v) <-> r < drows v /\ c < dcols v.
Proof. pose proof (in_columns (drows v) 0 (dcols v) r c) as H. unfold columns in H. unfold block_cells. rewrite H. lia. Qed.

Definition in_block (i j : nat) (v : dmx) (r c : nat) : bool :=
  (i <=? r) && (r <? i + drows v) && ((j <=? c) && (c <? j + dcols v)).
Lemma holds_block b rows cols f i j v :
  holds b rows cols f -> i + drows v <= rows -> j + dcols v <= cols ->
  holds (run_writes (write_block rows i j v) b) rows cols
    (fun r c => if in_block i j v r c then Some (dat v (r - i) (c - j)) else f r c).
Proof.
  intros Hb Hr Hc. unfold write_block. eapply holds_ext; [|apply (holds_cells _ _ _ _ _ i j (dat v) Hb)].
  - intros r c _ _. cbn beta. unfold in_block.
    assert (mem_cell (r - i, c - j) (block_cells v) = (r - i <? drows v) && (c - j <? dcols v)) as ->.
    { apply Bool.eq_true_iff_eq. rewrite mem_cell_spec, in_block_cells, andb_true_iff, !Nat.ltb_lt. reflexivity. }
    destruct (Nat.leb_spec i r); cbn [andb]; [|reflexivity].
    destruct (Nat.leb_spec j c); cbn [andb]; [|rewrite andb_false_r; reflexivity].
    destruct (Nat.ltb_spec (r - i) (drows v)), (Nat.ltb_spec r (i + drows v)); try lia; cbn [andb]; [|reflexivity].
    destruct (Nat.ltb_spec (c - j) (dcols v)), (Nat.ltb_spec c (j + dcols v)); try lia; reflexivity.
  - apply Forall_forall. intros [r c] Hin. apply in_block_cells in Hin. cbn. lia.
Qed.

Lemma holds_zeros rows cols : holds (zeros rows cols) rows cols (fun _ _ => Some 0%R).
Proof.
  exists (repeat (Some 0%R) (rows * cols)). split; [reflexivity|]. split; [apply repeat_length|].
  intros r c Hr Hc. apply nth_error_repeat. apply pos_lt; assumption.
Qed.

(* ---- stacking ---- *)
Definition stack_loop (rows : nat) (vs : list dmx) (st : nat * buffer R) : nat * buffer R :=
  fold_left (fun st v => (fst st + drows v, run_writes (write_block rows (fst st) 0 v) (snd st))) vs st.

Lemma stack_loop_holds vs : forall rows cols i b f,
  holds b rows cols f -> Forall (fun v => dcols v = cols) vs -> i + sum_rows vs <= rows ->
  fst (stack_loop rows vs (i, b)) = i + sum_rows vs /\
  holds (snd (stack_loop rows vs (i, b))) rows cols
    (fun r c => if (i <=? r) && (r <? i + sum_rows vs) then Some (stacked vs (r - i) c) else f r c).
Proof.
  induction vs as [|v vs IH]; intros rows cols i b f Hb HF Hi; cbn [stack_loop fold_left fst snd] in *.
  - cbn. split; [lia|]. eapply holds_ext; [|exact Hb]. intros r c _ _. cbn.
    destruct (Nat.leb_spec i r), (Nat.ltb_spec r (i + 0)); try lia; reflexivity.
  - inversion HF as [|? ? Hv HF']; subst. cbn [sum_rows map list_sum fold_right] in *.
    change (fold_right Nat.add 0 (map drows vs)) with (sum_rows vs) in *.
    assert (holds (run_writes (write_block rows i 0 v) b) rows (dcols v)
              (fun r c => if in_block i 0 v r c then Some (dat v (r - i) (c - 0)) else f r c)) as Hw
      by (apply holds_block; [exact Hb|lia|lia]).
    destruct (IH rows (dcols v) (i + drows v) _ _ Hw HF' ltac:(lia)) as [E H]. unfold stack_loop in E, H.
    split; [rewrite E; lia|]. eapply holds_ext; [|exact H]. intros r c Hr Hc. cbn beta. cbn [stacked]. unfold in_block.
    destruct (Nat.leb_spec (i + drows v) r); cbn [andb].
    + destruct (Nat.leb_spec i r); [|lia]. destruct (Nat.ltb_spec r (i + drows v)); [lia|]. cbn [andb].
      destruct (Nat.ltb_spec (r - i) (drows v)); [lia|].
      destruct (Nat.ltb_spec r (i + drows v + sum_rows vs)), (Nat.ltb_spec r (i + (drows v + sum_rows vs))); try lia; [|reflexivity].
      do 2 f_equal. lia.
    + destruct (Nat.leb_spec i r); cbn [andb]; [|reflexivity].
      destruct (Nat.ltb_spec r (i + drows v)); [|lia]. cbn [andb]. cbn.
      destruct (Nat.ltb_spec c (dcols v)); [|lia]. destruct (Nat.ltb_spec r (i + (drows v + sum_rows vs))); [|lia].
      destruct (Nat.ltb_spec (r - i) (drows v)); [|lia]. rewrite Nat.sub_0_r. reflexivity.
Qed.

Lemma stack_is vs rows cols b : holds b rows cols (fun _ _ => None) \/ holds b rows cols (fun _ _ => Some 0%R) ->
  Forall (fun v => dcols v = cols) vs -> rows = sum_rows vs ->
  matrix_is (snd (stack_loop rows vs (0, b))) rows cols (stacked vs).
Proof.
  intros Hb HF ->.
  assert (exists f, holds b (sum_rows vs) cols f) as [f Hf] by (destruct Hb; eauto).
  destruct (stack_loop_holds vs (sum_rows vs) cols 0 b f Hf HF ltac:(lia)) as [_ H].
  eapply holds_is_matrix; [exact H|]. intros r c Hr Hc. cbn beta.
  destruct (Nat.ltb_spec r (0 + sum_rows vs)); [|lia]. rewrite Nat.sub_0_r. change (0 <=? r) with true. cbn [andb]. eauto.
Qed.

Lemma stacked_ext vs : forall ws i j, Forall2 (fun v w => drows v = drows w /\ forall i, i < drows v -> dat v i j = dat w i j) vs ws ->
  stacked vs i j = stacked ws i j.
Proof.
  induction vs as [|v vs IH]; intros ws i j HF; inversion HF; subst; [reflexivity|].
  destruct H1 as [E H1]. cbn. rewrite <- E. destruct (Nat.ltb_spec i (drows v)); auto.
Qed.

(* dense row times a vector *)
Lemma dense_row Ms : forall r N (x : nat -> R), N = sum_cols Ms -> r < sum_rows Ms ->
  rsum (fun k => (dense_at Ms r k * x k)%R) N =
  (match Ms with
   | [] => 0%R
   | M :: rest => if r <? drows M then rsum (fun k => (dat M r k * x k)%R) (dcols M)
                  else rsum (fun k => (dense_at rest (r - drows M)%nat k * x (dcols M + k)%nat)%R) (sum_cols rest)
   end).
Proof.
  intros r N x -> Hr. destruct Ms as [|M rest]; [cbn in Hr; lia|].
  change (sum_cols (M :: rest)) with (dcols M + sum_cols rest). rewrite rsum_split.
  destruct (Nat.ltb_spec r (drows M)) as [H|H].
  - rewrite (rsum_zero (fun k => (dense_at (M :: rest) r (dcols M + k)%nat * x (dcols M + k)%nat)%R)).
    + rewrite Rplus_0_r. apply rsum_ext. intros k Hk. cbn.
      destruct (Nat.ltb_spec r (drows M)); [|lia]. destruct (Nat.ltb_spec k (dcols M)); [reflexivity|lia].
    + intros k Hk. cbn. destruct (Nat.ltb_spec r (drows M)); [|lia].
      destruct (Nat.ltb_spec (dcols M + k) (dcols M)); [lia|]. lra.
  - rewrite (rsum_zero (fun k => (dense_at (M :: rest) r k * x k)%R)).
    + rewrite Rplus_0_l. apply rsum_ext. intros k Hk. cbn.
      destruct (Nat.ltb_spec r (drows M)); [lia|]. destruct (Nat.ltb_spec (dcols M + k) (dcols M)); [lia|].
      replace (dcols M + k - dcols M) with k by lia. reflexivity.
    + intros k Hk. cbn. destruct (Nat.ltb_spec r (drows M)); [lia|].
      destruct (Nat.ltb_spec k (dcols M)); [lra|lia].
Qed.

Fixpoint chunks (Ms : list dmx) (i : nat) (x : nat -> nat -> R) (cols : nat) : list dmx :=
  match Ms with
  | [] => []
  | M :: rest => Dmx (drows M) cols (fun a b => rsum (fun k => (dat M a k * x (i + k)%nat b)%R) (dcols M))
                 :: chunks rest (i + dcols M) x cols
  end.
Lemma chunks_rows Ms : forall i x cols, sum_rows (chunks Ms i x cols) = sum_rows Ms.
Proof. unfold sum_rows. induction Ms as [|M Ms IH]; intros; cbn [chunks map]; [reflexivity|]. rewrite !lsc, IH. reflexivity. Qed.
Lemma chunks_cols Ms : forall i x cols, Forall (fun v => dcols v = cols) (chunks Ms i x cols).
Proof. induction Ms as [|M Ms IH]; intros; cbn; constructor; auto. Qed.
Lemma stacked_chunks Ms : forall i x cols r c, r < sum_rows Ms ->
  stacked (chunks Ms i x cols) r c = rsum (fun k => (dense_at Ms r k * x (i + k)%nat c)%R) (sum_cols Ms).
Proof.
  induction Ms as [|M Ms IH]; intros i x cols r c Hr; [cbn in Hr; lia|].
  rewrite (dense_row (M :: Ms) r _ (fun k => x (i + k) c) eq_refl Hr). cbn [chunks stacked drows].
  destruct (Nat.ltb_spec r (drows M)); [reflexivity|].
  rewrite IH by (change (sum_rows (M :: Ms)) with (drows M + sum_rows Ms) in Hr; lia).
  apply rsum_ext. intros k _. rewrite Nat.add_assoc. reflexivity.
Qed.

(* ---- BlockDiagonalLDLT ---- *)
Lemma fold_add {A} (g : A -> nat) l : forall n, fold_left (fun n b => n + g b) l n = n + list_sum (map g l).
Proof. induction l as [|a l IH]; intros n; cbn -[list_sum]; [cbn; lia|]. rewrite IH, lsc. lia. Qed.
Lemma ldlt_rows_eq blocks : ldlt_rows blocks = list_sum (map lb_rows blocks).
Proof. apply (fold_add lb_rows). Qed.
Lemma bd_rows_eq blocks : bd_rows blocks = sum_rows blocks.
Proof. apply (fold_add drows). Qed.
Lemma bd_cols_eq blocks : bd_cols blocks = sum_cols blocks.
Proof. apply (fold_add dcols). Qed.

Section Rowwise.
Variable op : ldlt_block -> dmx -> outcome dmx.
Definition acts (b : ldlt_block) (M : dmx) : Prop :=
  drows M = lb_rows b /\ dcols M = lb_rows b /\ multiplies (op b) M.

(* what a block writes: the entries of some v that agrees with the product *)
Definition written (num_rows : nat) (rhs : dmx) (row : nat) (b : ldlt_block) (M v : dmx) : Prop :=
  fill_one_block op num_rows rhs row b = write_block num_rows row 0 v /\
  drows v = lb_rows b /\ dcols v = dcols rhs /\
  forall i j, i < drows v -> j < dcols v -> dat v i j = rsum (fun k => (dat M i k * dat rhs (row + k)%nat j)%R) (dcols M).

Lemma fill_written num_rows rhs row b M : acts b M -> row + lb_rows b <= drows rhs ->
  exists v, written num_rows rhs row b M v.
Proof.
  intros [E1 [E2 Hm]] Hr. unfold written, fill_one_block, row_block.
  destruct (Nat.leb_spec (row + lb_rows b) (drows rhs)); [|lia]. cbn [bind].
  destruct (Hm (Dmx (lb_rows b) (dcols rhs) (fun a b => dat rhs (row + a) b)) ltac:(cbn; lia)) as [v [-> [H1 [H2 H3]]]].
  cbn [bind]. cbn in H2. rewrite H1, E1, H2, !Nat.eqb_refl. cbn [andb]. exists v.
  repeat split; try congruence. intros i j Hi Hj. rewrite H3 by (cbn; congruence || lia). reflexivity.
Qed.

(* one value for each block, at consecutive rows *)
Inductive all_written (num_rows : nat) (rhs : dmx) : nat -> list ldlt_block -> list dmx -> list dmx -> Prop :=
| aw_nil row : all_written num_rows rhs row [] [] []
| aw_cons row b bs M Ms v vs : written num_rows rhs row b M v ->
    all_written num_rows rhs (row + lb_rows b) bs Ms vs -> all_written num_rows rhs row (b :: bs) (M :: Ms) (v :: vs).

Lemma all_written_exists blocks Ms : Forall2 acts blocks Ms -> forall num_rows rhs row,
  row + list_sum (map lb_rows blocks) <= drows rhs -> exists vs, all_written num_rows rhs row blocks Ms vs.
Proof.
  induction 1 as [|b M bs Ms Ha HF IH]; intros num_rows rhs row Hr; [exists []; constructor|].
  cbn [map] in Hr. rewrite lsc in Hr.
  destruct (fill_written num_rows rhs row b M Ha ltac:(lia)) as [v Hv].
  destruct (IH num_rows rhs (row + lb_rows b) ltac:(lia)) as [vs Hvs].
  exists (v :: vs). constructor; assumption.
Qed.

Lemma all_written_loop num_rows rhs row blocks Ms vs : all_written num_rows rhs row blocks Ms vs -> forall b,
  fold_left (fun st b => (fst st + lb_rows b, run_writes (fill_one_block op num_rows rhs (fst st) b) (snd st))) blocks (row, b) =
  stack_loop num_rows vs (row, b).
Proof.
  induction 1 as [|row b bs M Ms v vs [E [Hr _]] Ha IH]; intros buf; cbn; [reflexivity|].
  rewrite E, Hr. apply IH.
Qed.

Lemma all_written_chunks num_rows rhs row blocks Ms vs : all_written num_rows rhs row blocks Ms vs ->
  Forall2 acts blocks Ms -> forall j, j < dcols rhs ->
  Forall2 (fun v w => drows v = drows w /\ forall i, i < drows v -> dat v i j = dat w i j)
    vs (chunks Ms row (dat rhs) (dcols rhs)).
Proof.
  induction 1 as [|row b bs M Ms v vs [E [Hr [Hc Hd]]] Ha IH]; intros HF j Hj; cbn; [constructor|].
  inversion HF as [|? ? ? ? [E1 [E2 _]] HF']; subst. constructor.
  - cbn. split; [congruence|]. intros i Hi. apply Hd; [exact Hi|congruence].
  - rewrite E2. apply IH; assumption.
Qed.

Lemma Forall2_rows blocks Ms : Forall2 acts blocks Ms ->
  list_sum (map lb_rows blocks) = sum_rows Ms /\ list_sum (map lb_rows blocks) = sum_cols Ms.
Proof.
  unfold sum_rows, sum_cols. induction 1 as [|b M bs Ms [E1 [E2 _]] HF [IH1 IH2]]; cbn [map]; [auto|]. rewrite !lsc. lia.
Qed.
Lemma all_written_shape num_rows rhs row blocks Ms vs : all_written num_rows rhs row blocks Ms vs ->
  Forall (fun v => dcols v = dcols rhs) vs /\ sum_rows vs = list_sum (map lb_rows blocks).
Proof.
  unfold sum_rows. induction 1 as [|row b bs M Ms v vs [E [Hr [Hc _]]] Ha [IH1 IH2]]; cbn [map]; [auto|].
  split; [constructor; auto|]. rewrite !lsc. lia.
Qed.

Definition product_of (Ms : list dmx) (rhs : dmx) (r c : nat) : R :=
  rsum (fun k => (dense_at Ms r k * dat rhs k c)%R) (drows rhs).

Lemma matrix_is_ext b rows cols X Y : (forall r c, r < rows -> c < cols -> X r c = Y r c) ->
  matrix_is b rows cols X -> matrix_is b rows cols Y.
Proof.
  intros E [cells [H1 [H2 H3]]]. exists cells. repeat split; auto. intros r c Hr Hc.
  destruct (H3 r c Hr Hc) as [v [Hv ->]]. exists (X r c). auto.
Qed.

Lemma all_written_result rhs blocks Ms vs b : Forall2 acts blocks Ms -> drows rhs = list_sum (map lb_rows blocks) ->
  all_written (ldlt_rows blocks) rhs 0 blocks Ms vs ->
  holds b (ldlt_rows blocks) (dcols rhs) (fun _ _ => None) ->
  matrix_is (snd (stack_loop (ldlt_rows blocks) vs (0, b))) (drows rhs) (dcols rhs) (product_of Ms rhs).
Proof.
  intros HF Hr Hw Hb. destruct (Forall2_rows _ _ HF) as [R1 R2]. destruct (all_written_shape _ _ _ _ _ _ Hw) as [S1 S2].
  rewrite ldlt_rows_eq in *. rewrite Hr.
  eapply matrix_is_ext; [|eapply stack_is; [left; exact Hb|exact S1|symmetry; exact S2]].
  intros r c Hi Hj. rewrite (stacked_ext _ _ r c (all_written_chunks _ _ _ _ _ _ Hw HF c Hj)).
  rewrite stacked_chunks by lia. unfold product_of. rewrite Hr, R2. reflexivity.
Qed.

Lemma rowwise_spec blocks Ms rhs : Forall2 acts blocks Ms -> drows rhs = list_sum (map lb_rows blocks) ->
  matrix_is (rowwise op blocks rhs) (drows rhs) (dcols rhs) (product_of Ms rhs).
Proof.
  intros HF Hr. unfold rowwise. rewrite (proj2 (Nat.eqb_eq (ldlt_rows blocks) (drows rhs))) by (rewrite ldlt_rows_eq; congruence).
  cbn [assert_then].
  destruct (all_written_exists _ _ HF (ldlt_rows blocks) rhs 0 ltac:(lia)) as [vs Hw].
  rewrite (all_written_loop _ _ _ _ _ _ Hw).
  apply all_written_result; auto. apply holds_alloc.
Qed.

Lemma rowwise_mismatch blocks rhs : drows rhs <> list_sum (map lb_rows blocks) -> rowwise op blocks rhs = Abort.
Proof.
  intros Hne. unfold rowwise. rewrite ldlt_rows_eq.
  destruct (Nat.eqb_spec (list_sum (map lb_rows blocks)) (drows rhs)); [congruence|reflexivity].
Qed.

(* ---- threaded ---- *)
Fixpoint offsets (row : nat) (blocks : list ldlt_block) : list nat :=
  match blocks with [] => [] | b :: bs => row :: offsets (row + lb_rows b) bs end.
Lemma offsets_length blocks : forall row, length (offsets row blocks) = length blocks.
Proof. induction blocks; intros; cbn; auto. Qed.

Lemma row_map_loop blocks : forall k row acc, Forall (fun k' => k' < k) (mkeys acc) ->
  fold_left (fun st ib => (fst st + lb_rows (snd ib), massign (fst ib) (fst st) (snd st)))
    (combine (seq k (length blocks)) blocks) (row, acc) =
  (row + list_sum (map lb_rows blocks), acc ++ combine (seq k (length blocks)) (offsets row blocks)).
Proof.
  induction blocks as [|b bs IH]; intros k row acc Hk.
  - cbn. rewrite app_nil_r, Nat.add_0_r. reflexivity.
  - cbn [length seq combine fold_left fst snd offsets map]. rewrite massign_snoc.
    + rewrite IH.
      * rewrite lsc, <- app_assoc. cbn [app]. f_equal. lia.
      * unfold mkeys. rewrite map_app. apply Forall_app. split; [|repeat constructor].
        eapply Forall_impl; [|exact Hk]. cbn. lia.
    + eapply Forall_impl; [|exact Hk]. intros k' H. apply Nat.compare_lt_iff. exact H.
Qed.

Lemma row_map_eq blocks : block_to_row_map blocks = Ok (combine (seq 0 (length blocks)) (offsets 0 blocks)).
Proof.
  unfold block_to_row_map. rewrite row_map_loop by constructor. cbn [fst snd].
  rewrite ldlt_rows_eq, Nat.add_0_l, Nat.eqb_refl. reflexivity.
Qed.

Fixpoint stack_steps (num_rows row : nat) (vs : list dmx) : list (list (buffer R -> buffer R)) :=
  match vs with [] => [] | v :: vs => write_block num_rows row 0 v :: stack_steps num_rows (row + drows v) vs end.

Lemma stack_steps_run num_rows vs : forall row b,
  run_writes (concat (stack_steps num_rows row vs)) b = snd (stack_loop num_rows vs (row, b)).
Proof.
  induction vs as [|v vs IH]; intros row b; cbn; [reflexivity|]. unfold run_writes at 1. rewrite fold_left_app. apply IH.
Qed.

Lemma stack_steps_nth num_rows vs : forall row i l, nth_error (stack_steps num_rows row vs) i = Some l ->
  exists v, nth_error vs i = Some v /\ l = write_block num_rows (row + sum_rows (firstn i vs)) 0 v.
Proof.
  induction vs as [|v vs IH]; intros row i l E; [destruct i; discriminate|].
  destruct i as [|i]; cbn [stack_steps nth_error firstn] in *.
  - injection E as <-. exists v. split; [reflexivity|]. cbn. rewrite Nat.add_0_r. reflexivity.
  - destruct (IH _ _ _ E) as [w [H1 H2]]. exists w. split; [exact H1|].
    rewrite H2. unfold sum_rows. cbn [map]. rewrite lsc, Nat.add_assoc. reflexivity.
Qed.

Lemma sum_rows_firstn vs : forall i j v, i < j -> nth_error vs i = Some v ->
  sum_rows (firstn i vs) + drows v <= sum_rows (firstn j vs).
Proof.
  unfold sum_rows. induction vs as [|w vs IH]; intros i j v Hij E; [destruct i; discriminate|].
  destruct j as [|j]; [lia|]. destruct i as [|i]; cbn [nth_error firstn map] in *; rewrite ?lsc.
  - injection E as ->. cbn. lia.
  - specialize (IH i j v ltac:(lia) E). lia.
Qed.
Lemma sum_rows_nth vs i v : nth_error vs i = Some v -> sum_rows (firstn i vs) + drows v <= sum_rows vs.
Proof.
  intros E. pose proof (sum_rows_firstn vs i (length vs) v) as H. rewrite firstn_all in H. apply H; [|exact E].
  apply nth_error_Some. rewrite E. discriminate.
Qed.

Lemma stack_steps_commute num_rows vs i j li lj a b : sum_rows vs <= num_rows -> i <> j ->
  nth_error (stack_steps num_rows 0 vs) i = Some li -> nth_error (stack_steps num_rows 0 vs) j = Some lj ->
  In a li -> In b lj -> forall s, a (b s) = b (a s).
Proof.
  intros Hs Hij Hi Hj Ha Hb s.
  destruct (stack_steps_nth _ _ _ _ _ Hi) as [v [Ev ->]]. destruct (stack_steps_nth _ _ _ _ _ Hj) as [w [Ew ->]].
  unfold write_block in Ha, Hb.
  apply in_map_iff in Ha as [[r c] [<- Ha]]. apply in_map_iff in Hb as [[r' c'] [<- Hb]].
  apply in_block_cells in Ha, Hb. cbn [fst snd]. apply write_commute.
  pose proof (sum_rows_nth _ _ _ Ev). pose proof (sum_rows_nth _ _ _ Ew).
  intros E. apply pos_inj in E; [|lia|lia]. destruct E as [E _].
  destruct (Nat.lt_gt_cases i j) as [H1 _]. destruct (H1 Hij) as [Hlt|Hlt].
  - pose proof (sum_rows_firstn vs i j v Hlt Ev). lia.
  - pose proof (sum_rows_firstn vs j i w Hlt Ew). lia.
Qed.

Definition fill_at (blocks : list ldlt_block) (rhs : dmx) (ir : nat * nat) : list (buffer R -> buffer R) :=
  match nth_error blocks (fst ir) with
  | Some b => fill_one_block op (ldlt_rows blocks) rhs (snd ir) b
  | None => [fun _ => UB]
  end.

Lemma fill_at_steps blocks rhs bs Ms vs row : all_written (ldlt_rows blocks) rhs row bs Ms vs ->
  forall pre, blocks = pre ++ bs ->
  map (fill_at blocks rhs) (combine (seq (length pre) (length bs)) (offsets row bs)) = stack_steps (ldlt_rows blocks) row vs.
Proof.
  induction 1 as [|row b bs M Ms v vs [E [Hr _]] Ha IH]; intros pre Eb; [reflexivity|].
  cbn [length seq offsets combine map stack_steps]. f_equal.
  - unfold fill_at. cbn [fst snd]. rewrite Eb at 1. rewrite nth_error_app2 by lia. rewrite Nat.sub_diag. cbn. exact E.
  - rewrite Hr. specialize (IH (pre ++ [b])). rewrite app_length in IH. cbn [length] in IH.
    rewrite Nat.add_1_r in IH. apply IH. rewrite <- app_assoc. exact Eb.
Qed.

Lemma fold_run (steps : list (list (buffer R -> buffer R))) : forall b,
  fold_left (fun out l => run_writes l out) steps b = run_writes (concat steps) b.
Proof.
  induction steps as [|l ls IH]; intros b; cbn; [reflexivity|]. rewrite IH. unfold run_writes. rewrite fold_left_app. reflexivity.
Qed.

Lemma rowwise_pool_spec pool blocks Ms rhs sched out : Forall2 acts blocks Ms -> drows rhs = list_sum (map lb_rows blocks) ->
  rowwise_pool op pool blocks rhs sched = Some out ->
  matrix_is out (drows rhs) (dcols rhs) (product_of Ms rhs).
Proof.
  intros HF Hr. unfold rowwise_pool.
  rewrite (proj2 (Nat.eqb_eq (ldlt_rows blocks) (drows rhs))) by (rewrite ldlt_rows_eq; congruence).
  rewrite row_map_eq. cbv zeta. fold (fill_at blocks rhs).
  destruct (all_written_exists _ _ HF (ldlt_rows blocks) rhs 0 ltac:(lia)) as [vs Hw].
  destruct (all_written_shape _ _ _ _ _ _ Hw) as [_ Hs].
  pose proof (fill_at_steps blocks rhs blocks Ms vs 0 Hw [] eq_refl) as Hst. cbn [length] in Hst.
  set (rows := combine _ _) in *.
  set (start := alloc (ldlt_rows blocks) (dcols rhs)).
  assert (matrix_is (run_writes (concat (stack_steps (ldlt_rows blocks) 0 vs)) start) (drows rhs) (dcols rhs) (product_of Ms rhs)) as Hres.
  { rewrite stack_steps_run. apply all_written_result; auto. apply holds_alloc. }
  destruct (should_serial_apply pool) eqn:Es.
  - intros E. injection E as <-.
    rewrite <- (fold_left_map (fill_at blocks rhs) (fun out l => run_writes l out)), Hst, fold_run. exact Hres.
  - destruct pool as [threads|]; [|discriminate].
    set (tasks := map (fun ir => Task (fill_at blocks rhs ir) (Some tt)) rows).
    change (map (fun ir => Task _ _) rows) with tasks.
    destruct (pool_run _ _ _ _ _) as [st|] eqn:E; [|discriminate].
    destruct (pool_outcome st) as [[o| | |]|] eqn:Ho; try discriminate. intros Eb. injection Eb as <-.
    assert (length tasks = length rows) as Hl by apply map_length.
    assert (Permutation (seq 0 (length rows)) (seq 0 (length tasks))) as Hord by (rewrite Hl; reflexivity).
    assert (map t_steps tasks = stack_steps (ldlt_rows blocks) 0 vs) as Ht.
    { unfold tasks. rewrite map_map. cbn [t_steps]. rewrite <- Hst. reflexivity. }
    rewrite (fun Hc => pool_memory threads tasks _ Hord _ sched st o Hc E Ho).
    + rewrite Ht. exact Hres.
    + intros i j a b Hij Ha Hb. unfold steps_of in Ha, Hb.
      assert (forall k, nth_error (stack_steps (ldlt_rows blocks) 0 vs) k = option_map t_steps (nth_error tasks k)) as Hk.
      { intros k. rewrite <- Ht. apply nth_error_map'. }
      destruct (nth_error tasks i) as [ti|] eqn:Ei; [|destruct Ha].
      destruct (nth_error tasks j) as [tj|] eqn:Ej; [|destruct Hb].
      apply (stack_steps_commute (ldlt_rows blocks) vs i j (t_steps ti) (t_steps tj)); auto.
      * rewrite ldlt_rows_eq. lia.
      * rewrite Hk, Ei. reflexivity.
      * rewrite Hk, Ej. reflexivity.
Qed.

Lemma rowwise_pool_completes pool blocks rhs : exists sched out, rowwise_pool op pool blocks rhs sched = Some out.
Proof.
  unfold rowwise_pool. destruct (ldlt_rows blocks =? drows rhs); [|exists []; eauto].
  rewrite row_map_eq. cbv zeta. fold (fill_at blocks rhs). set (rows := combine _ _).
  destruct (should_serial_apply pool) eqn:Es; [exists []; eauto|].
  destruct pool as [threads|]; [|discriminate]. cbn in Es. apply Nat.leb_gt in Es.
  set (tasks := map (fun ir => Task (fill_at blocks rhs ir) (Some tt)) rows).
  change (map (fun ir => Task _ _) rows) with tasks.
  set (start := alloc (ldlt_rows blocks) (dcols rhs)).
  assert (length tasks = length rows) as Hl by apply map_length.
  assert (Permutation (seq 0 (length rows)) (seq 0 (length tasks))) as Hord by (rewrite Hl; reflexivity).
  destruct (pool_no_deadlock threads tasks (seq 0 (length rows)) Hord start [] _ ltac:(lia) eq_refl)
    as [more [st' [H1 H2]]]. exists more. cbn [app] in H1. rewrite H1.
  destruct (pool_outcome st') as [r|] eqn:Eo; [|contradiction].
  pose proof (pool_outcome_spec threads tasks (seq 0 (length rows)) _ _ _ _ H1 Eo) as Hr.
  destruct (all_ok_tasks tasks (seq 0 (length rows)) Hord) as [out Hout].
  { unfold tasks. apply Forall_forall. intros t Ht. apply in_map_iff in Ht as [k [<- _]]. reflexivity. }
  rewrite Hr, Hout. eauto.
Qed.

Lemma rowwise_pool_mismatch pool blocks rhs sched : drows rhs <> list_sum (map lb_rows blocks) ->
  rowwise_pool op pool blocks rhs sched = Some Abort.
Proof.
  intros Hne. unfold rowwise_pool. rewrite ldlt_rows_eq.
  destruct (Nat.eqb_spec (list_sum (map lb_rows blocks)) (drows rhs)); [congruence|reflexivity].
Qed.
End Rowwise.

(* ---- inverses of block diagonal matrices ---- *)
Lemma dense_inverse As Ms : Forall2 inverse_of As Ms -> forall i j, i < sum_rows As -> j < sum_rows As ->
  rsum (fun k => (dense_at As i k * dense_at Ms k j)%R) (sum_rows As) = if i =? j then 1%R else 0%R.
Proof.
  intros HF. assert (sum_rows As = sum_cols As) as Esq.
  { unfold sum_rows, sum_cols. induction HF as [|A M As Ms [H1 _] HF IH]; cbn [map]; [reflexivity|]. rewrite !lsc. red in H1. lia. }
  induction HF as [|A M As Ms [SA [SM [E H]]] HF IH]; intros i j Hi Hj; [cbn in Hi; lia|].
  red in SA, SM.
  assert (sum_rows As = sum_cols As) as Esq' by (unfold sum_rows, sum_cols in *; cbn [map] in Esq; rewrite !lsc in Esq; lia).
  rewrite (dense_row (A :: As) i _ (fun k => dense_at (M :: Ms) k j) Esq Hi).
  unfold sum_rows in Hi, Hj. cbn [map] in Hi, Hj. rewrite lsc in Hi, Hj. fold (sum_rows As) in Hi, Hj.
  destruct (Nat.ltb_spec i (drows A)) as [Ha|Ha].
  - rewrite <- SA. destruct (Nat.ltb_spec j (drows A)) as [Hb|Hb].
    + rewrite <- H by lia. apply rsum_ext. intros k Hk. cbn [dense_at].
      destruct (Nat.ltb_spec k (drows M)); [|lia]. destruct (Nat.ltb_spec j (dcols M)); [reflexivity|lia].
    + destruct (Nat.eqb_spec i j); [lia|]. apply rsum_zero. intros k Hk. cbn [dense_at].
      destruct (Nat.ltb_spec k (drows M)); [|lia]. destruct (Nat.ltb_spec j (dcols M)); [lia|]. lra.
  - rewrite <- Esq'. destruct (Nat.ltb_spec j (drows A)) as [Hb|Hb].
    + destruct (Nat.eqb_spec i j); [lia|]. apply rsum_zero. intros k Hk. cbn [dense_at].
      destruct (Nat.ltb_spec (dcols A + k) (drows M)); [lia|]. destruct (Nat.ltb_spec j (dcols M)); [|lia]. lra.
    + rewrite (rsum_ext _ (fun k => (dense_at As (i - drows A) k * dense_at Ms k (j - drows A))%R)).
      * rewrite IH by lia. destruct (Nat.eqb_spec i j), (Nat.eqb_spec (i - drows A) (j - drows A)); lia || reflexivity.
      * intros k Hk. cbn [dense_at]. destruct (Nat.ltb_spec (dcols A + k) (drows M)); [lia|].
        destruct (Nat.ltb_spec j (dcols M)); [lia|].
        replace (dcols A + k - drows M) with k by lia. replace (dcols M) with (drows A) by lia. reflexivity.
Qed.

(* ---- BlockDiagonal ---- *)
Lemma sum_square bs : Forall square bs -> sum_rows bs = sum_cols bs.
Proof. unfold sum_rows, sum_cols. induction 1 as [|b bs Hb HF IH]; cbn [map]; [reflexivity|]. rewrite !lsc. red in Hb. lia. Qed.

Lemma bd_mul_loop N rhs bs : Forall square bs -> forall row b, row + sum_rows bs <= drows rhs ->
  fold_left (fun st b => (fst st + drows b,
             assign (chunk <- row_block rhs (fst st) (drows b) ;; dmul b chunk) (drows b) (dcols rhs)
                    (write_block N (fst st) 0) (snd st))) bs (row, b) =
  stack_loop N (chunks bs row (dat rhs) (dcols rhs)) (row, b).
Proof.
  induction 1 as [|m bs Hm HF IH]; intros row b Hr; [reflexivity|]. red in Hm.
  unfold sum_rows in Hr. cbn [map] in Hr. rewrite lsc in Hr. fold (sum_rows bs) in Hr.
  cbn [fold_left chunks fst snd]. unfold stack_loop at 1. cbn [fold_left fst snd].
  unfold row_block. destruct (Nat.leb_spec (row + drows m) (drows rhs)); [|lia]. cbn [bind]. unfold dmul. cbn [drows dcols dat].
  rewrite (proj2 (Nat.eqb_eq (dcols m) (drows m))) by congruence. unfold assign. cbn [bind drows dcols].
  rewrite !Nat.eqb_refl. cbn [andb]. rewrite <- Hm. apply IH. lia.
Qed.

Lemma bd_mul_spec bs rhs : Forall square bs -> drows rhs = sum_cols bs ->
  matrix_is (bd_mul bs rhs) (sum_rows bs) (dcols rhs) (fun r c => rsum (fun k => (dense_at bs r k * dat rhs k c)%R) (drows rhs)).
Proof.
  intros HF Hr. pose proof (sum_square _ HF) as Hs. unfold bd_mul.
  rewrite (proj2 (Nat.eqb_eq (bd_cols bs) (drows rhs))) by (rewrite bd_cols_eq; congruence). cbn [assert_then].
  rewrite bd_mul_loop by (auto; lia). rewrite bd_rows_eq.
  eapply matrix_is_ext; [|eapply stack_is; [right; apply holds_zeros|apply chunks_cols|symmetry; apply chunks_rows]].
  intros r c Hi Hj. rewrite stacked_chunks by exact Hi. rewrite Hr. reflexivity.
Qed.
Lemma bd_mul_mismatch bs rhs : drows rhs <> sum_cols bs -> bd_mul bs rhs = Abort.
Proof.
  intros Hne. unfold bd_mul. rewrite bd_cols_eq. destruct (Nat.eqb_spec (sum_cols bs) (drows rhs)); [congruence|reflexivity].
Qed.

(* toDense *)
Definition dense_loop (N : nat) (bs : list dmx) (st : (nat * nat) * buffer R) :=
  fold_left (fun st b => ((fst (fst st) + drows b, snd (fst st) + dcols b),
          run_writes (write_block N (fst (fst st)) (snd (fst st)) b) (snd st))) bs st.
Lemma dense_loop_holds bs : forall N cols i j b f, holds b N cols f ->
  (forall r c, i <= r -> r < N -> c < cols -> f r c = Some 0%R) ->
  i + sum_rows bs = N -> j + sum_cols bs = cols ->
  holds (snd (dense_loop N bs ((i, j), b))) N cols
    (fun r c => if i <=? r then Some (if j <=? c then dense_at bs (r - i) (c - j) else 0%R) else f r c).
Proof.
  induction bs as [|m bs IH]; intros N cols i j b f Hb Hf Hi Hj.
  - cbn in *. eapply holds_ext; [|exact Hb]. intros r c Hr Hc. destruct (Nat.leb_spec i r); [lia|reflexivity].
  - unfold sum_rows in Hi. unfold sum_cols in Hj. cbn [map] in Hi, Hj. rewrite lsc in Hi, Hj.
    fold (sum_rows bs) in Hi. fold (sum_cols bs) in Hj.
    unfold dense_loop. cbn [fold_left fst snd].
    assert (holds (run_writes (write_block N i j m) b) N cols
              (fun r c => if in_block i j m r c then Some (dat m (r - i) (c - j)) else f r c)) as Hw
      by (apply holds_block; [exact Hb|lia|lia]).
    specialize (IH N cols (i + drows m) (j + dcols m) _ _ Hw). eapply holds_ext; [|apply IH; try lia].
    + intros r c Hr Hc. cbn beta. unfold in_block. cbn [dense_at].
      destruct (Nat.leb_spec (i + drows m) r).
      * destruct (Nat.leb_spec i r); [|lia]. f_equal.
        destruct (Nat.ltb_spec (r - i) (drows m)); [lia|].
        destruct (Nat.leb_spec (j + dcols m) c), (Nat.leb_spec j c), (Nat.ltb_spec (c - j) (dcols m)); try lia; try reflexivity.
        f_equal; lia.
      * destruct (Nat.leb_spec i r).
        -- destruct (Nat.ltb_spec r (i + drows m)); [|lia]. cbn [andb].
           destruct (Nat.ltb_spec (r - i) (drows m)); [|lia].
           destruct (Nat.leb_spec j c); cbn [andb]; [|apply Hf; lia].
           destruct (Nat.ltb_spec c (j + dcols m)), (Nat.ltb_spec (c - j) (dcols m)); try lia; [reflexivity|apply Hf; lia].
        -- cbn [andb]. reflexivity.
    + intros r c H1 H2 H3. unfold in_block. destruct (Nat.ltb_spec r (i + drows m)); [lia|].
      rewrite andb_false_r. cbn [andb]. apply Hf; lia.
Qed.

Lemma bd_to_dense_spec bs : matrix_is (bd_to_dense bs) (sum_rows bs) (sum_cols bs) (dense_at bs).
Proof.
  unfold bd_to_dense. rewrite bd_rows_eq, bd_cols_eq.
  pose proof (dense_loop_holds bs (sum_rows bs) (sum_cols bs) 0 0 _ _ (holds_zeros _ _) ltac:(auto) eq_refl eq_refl) as H.
  eapply holds_is_matrix; [exact H|]. intros r c Hr Hc. cbn beta. change (0 <=? r) with true. change (0 <=? c) with true.
  cbn [andb]. rewrite !Nat.sub_0_r. eauto.
Qed.

(* diagonal *)
Lemma bd_diag_loop N bs : Forall square bs -> forall row b,
  fold_left (fun st b => (fst st + drows b,
             assign (Ok (ddiagonal b)) (drows b) 1 (write_block N (fst st) 0) (snd st))) bs (row, b) =
  stack_loop N (map ddiagonal bs) (row, b).
Proof.
  induction 1 as [|m bs Hm HF IH]; intros row b; [reflexivity|]. red in Hm.
  unfold stack_loop. cbn [fold_left map fst snd]. unfold assign. cbn [bind ddiagonal drows dcols].
  rewrite (proj2 (Nat.eqb_eq (Nat.min (drows m) (dcols m)) (drows m))) by lia. cbn [Nat.eqb andb].
  replace (Nat.min (drows m) (dcols m)) with (drows m) by lia. apply IH.
Qed.
Lemma stacked_diagonal bs : Forall square bs -> forall r, r < sum_rows bs -> stacked (map ddiagonal bs) r 0 = dense_at bs r r.
Proof.
  induction 1 as [|m bs Hm HF IH]; intros r Hr; [reflexivity|]. red in Hm.
  unfold sum_rows in Hr. cbn [map] in Hr. rewrite lsc in Hr. fold (sum_rows bs) in Hr.
  cbn [map stacked dense_at ddiagonal drows dat]. rewrite <- Hm, Nat.min_id.
  destruct (Nat.ltb_spec r (drows m)); [reflexivity|]. apply IH. lia.
Qed.
Lemma bd_diagonal_spec bs : Forall square bs ->
  matrix_is (bd_diagonal bs) (sum_rows bs) 1 (fun r _ => dense_at bs r r).
Proof.
  intros HF. unfold bd_diagonal. rewrite bd_rows_eq, bd_cols_eq, <- (sum_square _ HF), Nat.eqb_refl. cbn [assert_then].
  rewrite bd_diag_loop by exact HF.
  assert (sum_rows bs = sum_rows (map ddiagonal bs)) as E.
  { unfold sum_rows. clear -HF. induction HF as [|m bs Hm HF IH]; [reflexivity|]. cbn [map]. rewrite !lsc.
    cbn [ddiagonal drows]. red in Hm. lia. }
  eapply matrix_is_ext; [|eapply stack_is; [left; apply holds_alloc| |exact E]].
  - intros r c Hr Hc. replace c with 0 by lia. apply stacked_diagonal; assumption.
  - apply Forall_map. apply Forall_forall. reflexivity.
Qed.

(* difference *)
Lemma dsub_ok a b : drows a = drows b -> dcols a = dcols b ->
  dsub a b = Ok (Dmx (drows a) (dcols a) (fun i j => (dat a i j - dat b i j)%R)).
Proof. intros E1 E2. unfold dsub, same_size. rewrite E1, E2, !Nat.eqb_refl. reflexivity. Qed.
Lemma bd_sub_spec ls rs : Forall2 (fun a b => drows a = drows b /\ dcols a = dcols b) ls rs -> sum_cols ls = sum_rows rs ->
  exists ds, bd_sub ls rs = Ok ds /\
    Forall2 (fun d a => drows d = drows a /\ dcols d = dcols a) ds ls /\
    forall i j, dense_at ds i j = (dense_at ls i j - dense_at rs i j)%R.
Proof.
  intros HF Hs. unfold bd_sub. rewrite bd_cols_eq, bd_rows_eq, (proj2 (Nat.eqb_eq _ _) Hs). cbn [assert_then].
  rewrite (proj2 (Nat.eqb_eq (length ls) (length rs))) by (eapply Forall2_len; exact HF). cbn [assert_then]. clear Hs.
  induction HF as [|a b ls rs [E1 E2] HF IH].
  - exists []. split; [reflexivity|]. split; [constructor|]. intros. cbn. change R0 with 0%R. lra.
  - destruct IH as [ds [E [H1 H2]]]. cbn [combine mapM fst snd].
    rewrite <- E1, <- E2, Nat.eqb_refl. cbn [assert_then]. rewrite dsub_ok by assumption. cbn [bind].
    rewrite E. cbn [bind]. eexists. split; [reflexivity|]. split; [constructor; [cbn; auto|exact H1]|].
    intros i j. cbn [dense_at drows dcols dat]. rewrite <- E1, <- E2.
    destruct (i <? drows a), (j <? dcols a); cbn; try reflexivity; change R0 with 0%R; try lra. apply H2.
Qed.
Lemma bd_sub_abort ls rs : sum_cols ls <> sum_rows rs \/ length ls <> length rs -> bd_sub ls rs = Abort.
Proof.
  intros H. unfold bd_sub. rewrite bd_cols_eq, bd_rows_eq.
  destruct (Nat.eqb_spec (sum_cols ls) (sum_rows rs)); cbn [assert_then]; [|reflexivity].
  destruct (Nat.eqb_spec (length ls) (length rs)); cbn [assert_then]; [|reflexivity]. tauto.
Qed.

(* ---- solving ---- *)
Lemma rsum_add f g n : rsum (fun k => (f k + g k)%R) n = (rsum f n + rsum g n)%R.
Proof. induction n as [|n IH]; cbn; [lra|]. rewrite IH. lra. Qed.
Lemma rsum_mult a f n : rsum (fun k => (a * f k)%R) n = (a * rsum f n)%R.
Proof. induction n as [|n IH]; cbn; [change R0 with 0%R; lra|]. rewrite IH. lra. Qed.
Lemma rsum_swap (f : nat -> nat -> R) m n :
  rsum (fun i => rsum (fun j => f i j) n) m = rsum (fun j => rsum (fun i => f i j) m) n.
Proof.
  induction m as [|m IH]; cbn; [symmetry; apply rsum_0|]. rewrite IH, <- rsum_add. reflexivity.
Qed.
Lemma rsum_delta n i (x : nat -> R) : i < n -> rsum (fun k => ((if i =? k then 1 else 0) * x k)%R) n = x i.
Proof.
  induction n as [|n IH]; intros Hi; [lia|]. cbn. destruct (Nat.eqb_spec i n) as [->|Hne].
  - rewrite rsum_zero; [lra|]. intros k Hk. destruct (Nat.eqb_spec n k); [lia|lra].
  - rewrite IH by lia. lra.
Qed.

Lemma solve_dense As Ms rhs i j : Forall2 inverse_of As Ms -> drows rhs = sum_rows As -> i < sum_rows As ->
  rsum (fun k => (dense_at As i k * product_of Ms rhs k j)%R) (sum_rows As) = dat rhs i j.
Proof.
  intros HF Hr Hi. unfold product_of. rewrite Hr.
  rewrite (rsum_ext _ (fun k => rsum (fun l => (dense_at As i k * dense_at Ms k l * dat rhs l j)%R) (sum_rows As))).
  2:{ intros k _. rewrite <- rsum_mult. apply rsum_ext. intros. ring. }
  rewrite rsum_swap.
  rewrite (rsum_ext _ (fun l => ((if i =? l then 1 else 0) * dat rhs l j)%R)); [apply (rsum_delta _ i (fun l => dat rhs l j)); exact Hi|].
  intros l Hl. rewrite <- (dense_inverse As Ms HF i l Hi Hl).
  rewrite (rsum_ext _ (fun k => (dat rhs l j * (dense_at As i k * dense_at Ms k l))%R)) by (intros; ring).
  rewrite rsum_mult. ring.
Qed.

Lemma dense_root As Ss : Forall2 root_of As Ss -> forall i j, i < sum_rows As -> j < sum_rows As ->
  rsum (fun k => (dense_at Ss i k * dense_at Ss j k)%R) (sum_rows As) = dense_at As i j.
Proof.
  intros HF. induction HF as [|A S As Ss [SA [SM [E H]]] HF IH]; intros i j Hi Hj; [cbn in Hi; lia|].
  red in SA, SM.
  assert (sum_rows As = sum_rows Ss /\ sum_rows As = sum_cols Ss) as [E1 E2].
  { clear -HF. unfold sum_rows, sum_cols. induction HF as [|A M As Ms [H0 [H1 [H2 _]]] HF [IH1 IH2]]; cbn [map]; [auto|].
    rewrite !lsc. red in H0, H1. lia. }
  rewrite (dense_row (S :: Ss) i _ (fun k => dense_at (S :: Ss) j k)).
  2:{ unfold sum_rows, sum_cols. cbn [map]. rewrite !lsc. fold (sum_rows As) (sum_cols Ss). lia. }
  2:{ unfold sum_rows in *. cbn [map] in *. rewrite !lsc in *. fold (sum_rows As) in *. fold (sum_rows Ss) in *. lia. }
  unfold sum_rows in Hi, Hj. cbn [map] in Hi, Hj. rewrite lsc in Hi, Hj. fold (sum_rows As) in Hi, Hj.
  change (dense_at (A :: As) i j) with
    (if i <? drows A then (if j <? dcols A then dat A i j else R0)
     else if j <? dcols A then R0 else dense_at As (i - drows A) (j - dcols A)).
  rewrite E, <- SA. destruct (Nat.ltb_spec i (drows A)) as [Ha|Ha].
  - destruct (Nat.ltb_spec j (drows A)) as [Hb|Hb].
    + rewrite <- H by lia. replace (dcols S) with (drows A) by lia. apply rsum_ext. intros k Hk. cbn [dense_at].
      destruct (Nat.ltb_spec j (drows S)); [|lia]. destruct (Nat.ltb_spec k (dcols S)); [reflexivity|lia].
    + apply rsum_zero. intros k Hk. cbn [dense_at].
      destruct (Nat.ltb_spec j (drows S)); [lia|]. destruct (Nat.ltb_spec k (dcols S)); [|lia]. change R0 with 0%R. lra.
  - destruct (Nat.ltb_spec j (drows A)) as [Hb|Hb].
    + apply rsum_zero. intros k Hk. cbn [dense_at].
      destruct (Nat.ltb_spec j (drows S)); [|lia]. destruct (Nat.ltb_spec (dcols S + k) (dcols S)); [lia|]. change R0 with 0%R. lra.
    + rewrite <- (IH (i - drows A) (j - drows A)) by lia. rewrite <- E2. apply rsum_ext. intros k Hk. cbn [dense_at].
      destruct (Nat.ltb_spec j (drows S)); [lia|]. destruct (Nat.ltb_spec (dcols S + k) (dcols S)); [lia|].
      replace (dcols S + k - dcols S) with k by lia. rewrite E. reflexivity.
Qed.

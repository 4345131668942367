From Verif Require Import Base BaseProofs StdMapModel StdMapProofs FoldsProofs AsyncModel AsyncProofs CovMatrixModel CovMatrixSpec.
From Coq Require Import Permutation.

Definition holds {V} (b : buffer V) (rows cols : nat) (f : nat -> nat -> option V) : Prop :=
  exists m, b = Ok m /\ length m = rows * cols /\
    forall r c, r < rows -> c < cols -> nth_error m (r + c * rows) = Some (f r c).

Definition upd {V} (f : nat -> nat -> option V) (r c : nat) (v : V) : nat -> nat -> option V :=
  fun r' c' => if (r' =? r) && (c' =? c) then Some v else f r' c'.

Lemma pos_lt r c rows cols : r < rows -> c < cols -> r + c * rows < rows * cols.
Proof. intros. nia. Qed.

Lemma pos_inj r c r' c' rows : r < rows -> r' < rows ->
  r + c * rows = r' + c' * rows -> r = r' /\ c = c'.
Proof. intros. assert (c = c') by nia. split; [nia|assumption]. Qed.

Lemma holds_ext {V} (b : buffer V) rows cols f g :
  (forall r c, r < rows -> c < cols -> f r c = g r c) -> holds b rows cols f -> holds b rows cols g.
Proof.
  intros E [m [H1 [H2 H3]]]. exists m. repeat split; auto. intros r c Hr Hc.
  rewrite <- E by assumption. auto.
Qed.

Lemma holds_alloc {V} rows cols : holds (@alloc V rows cols) rows cols (fun _ _ => None).
Proof.
  exists (repeat None (rows * cols)). split; [reflexivity|]. split; [apply repeat_length|].
  intros r c Hr Hc. apply nth_error_repeat. apply pos_lt; assumption.
Qed.

Lemma holds_write {V} (b : buffer V) rows cols f r c v :
  holds b rows cols f -> r < rows -> c < cols ->
  holds (write (r + c * rows) v b) rows cols (upd f r c v).
Proof.
  intros [m [-> [Hl Hm]]] Hr Hc. unfold write. cbn [bind].
  pose proof (pos_lt r c rows cols Hr Hc) as Hp.
  destruct (Nat.ltb_spec (r + c * rows) (length m)); [|lia].
  eexists. split; [reflexivity|]. split; [rewrite set_nth_length; exact Hl|].
  intros r' c' Hr' Hc'. unfold upd.
  destruct (Nat.eqb_spec r' r) as [->|Hne].
  - destruct (Nat.eqb_spec c' c) as [->|Hne]; cbn [andb].
    + apply nth_error_set_nth_eq. exact H.
    + rewrite nth_error_set_nth_neq; [apply Hm; assumption|].
      intros E. apply pos_inj in E; [|assumption|assumption]. lia.
  - cbn [andb]. rewrite nth_error_set_nth_neq; [apply Hm; assumption|].
    intros E. apply pos_inj in E; [|assumption|assumption]. lia.
Qed.

Lemma holds_is_matrix {V} (b : buffer V) rows cols f (entry : nat -> nat -> V -> Prop) :
  holds b rows cols f ->
  (forall r c, r < rows -> c < cols -> exists v, f r c = Some v /\ entry r c v) ->
  is_matrix b rows cols entry.
Proof.
  intros [m [-> [Hl Hm]]] Hf.
  assert (exists cells, m = map Some cells) as [cells ->].
  { assert (forall p, p < length m -> exists v, nth_error m p = Some (Some v)) as Hall.
    { intros p Hp. rewrite Hl in Hp. assert (0 < rows) by (destruct rows; lia).
      pose proof (Nat.div_mod p rows ltac:(lia)) as Hd.
      assert (p mod rows < rows) by (apply Nat.mod_upper_bound; lia).
      assert (p / rows < cols) by (apply Nat.div_lt_upper_bound; lia).
      destruct (Hf (p mod rows) (p / rows)) as [v [Hv _]]; [assumption|assumption|].
      exists v. rewrite <- Hv. rewrite <- Hm by assumption. f_equal. nia. }
    clear -Hall. induction m as [|o m IH]; [exists []; reflexivity|].
    destruct (Hall 0) as [v Hv]; [cbn; lia|]. cbn in Hv. injection Hv as ->.
    destruct IH as [cells ->].
    - intros p Hp. apply (Hall (S p)). cbn. lia.
    - exists (v :: cells). reflexivity. }
  exists cells. rewrite map_length in Hl. split; [reflexivity|]. split; [exact Hl|].
  intros r c Hr Hc. destruct (Hf r c Hr Hc) as [v [Hv He]]. exists v. split; [|exact He].
  specialize (Hm r c Hr Hc). rewrite nth_error_map' in Hm.
  destruct (nth_error cells (r + c * rows)); cbn in Hm; congruence.
Qed.

Lemma is_matrix_unique {V} (b b' : buffer V) rows cols e :
  is_matrix b rows cols e -> is_matrix b' rows cols e ->
  (forall r c v w, r < rows -> c < cols -> e r c v -> e r c w -> v = w) -> b = b'.
Proof.
  intros [cs [-> [Hl Hc]]] [cs' [-> [Hl' Hc']]] Hu. do 2 f_equal.
  apply list_ext. intros p.
  destruct (Nat.lt_ge_cases p (rows * cols)) as [Hp|Hp].
  - assert (0 < rows) by (destruct rows; lia).
    pose proof (Nat.div_mod p rows ltac:(lia)) as Hd.
    assert (p mod rows < rows) as H1 by (apply Nat.mod_upper_bound; lia).
    assert (p / rows < cols) as H2 by (apply Nat.div_lt_upper_bound; lia).
    replace p with (p mod rows + p / rows * rows) by nia.
    destruct (Hc _ _ H1 H2) as [v [-> Hv]]. destruct (Hc' _ _ H1 H2) as [w [-> Hw]].
    f_equal. eapply (Hu (p mod rows) (p / rows)); eauto.
  - rewrite (proj2 (nth_error_None cs p)) by lia. rewrite (proj2 (nth_error_None cs' p)) by lia. reflexivity.
Qed.

(* ---------------- entries ---------------- *)

Definition mem_cell (rc : nat * nat) (cells : list (nat * nat)) : bool :=
  existsb (fun x => (fst x =? fst rc) && (snd x =? snd rc)) cells.

Lemma mem_cell_spec r c cells : mem_cell (r, c) cells = true <-> In (r, c) cells.
Proof.
  unfold mem_cell. rewrite existsb_exists. split.
  - intros [[a b] [Hin E]]. cbn in E. apply andb_true_iff in E as [E1 E2].
    apply Nat.eqb_eq in E1. apply Nat.eqb_eq in E2. subst. exact Hin.
  - intros Hin. exists (r, c). split; [exact Hin|]. cbn. rewrite !Nat.eqb_refl. reflexivity.
Qed.

Lemma mem_cell_cons r c r' c' cells :
  mem_cell (r', c') ((r, c) :: cells) = ((r =? r') && (c =? c')) || mem_cell (r', c') cells.
Proof. reflexivity. Qed.

Section Entries.
Context {X Y V : Type}.
Variable caller : X -> Y -> V.

Lemma holds_entries xs ys cells b f :
  holds b (length xs) (length ys) f ->
  Forall (fun rc => fst rc < length xs /\ snd rc < length ys) cells ->
  holds (fold_left (fun b rc => entry_step caller (length xs) xs ys rc b) cells b) (length xs) (length ys)
    (fun r c => if mem_cell (r, c) cells then
       match nth_error xs r, nth_error ys c with Some x, Some y => Some (caller x y) | _, _ => None end
     else f r c).
Proof.
  revert b f. induction cells as [|[r c] cells IH]; intros b f Hb HF; cbn [fold_left].
  - exact Hb.
  - inversion HF as [|? ? [Hr Hc] HF']; subst. cbn in Hr, Hc.
    destruct (nth_error xs r) as [x|] eqn:Ex; [|apply nth_error_None in Ex; lia].
    destruct (nth_error ys c) as [y|] eqn:Ey; [|apply nth_error_None in Ey; lia].
    assert (holds (entry_step caller (length xs) xs ys (r, c) b) (length xs) (length ys) (upd f r c (caller x y))) as Hs.
    { unfold entry_step. cbn [fst snd]. rewrite Ex, Ey. apply holds_write; assumption. }
    specialize (IH _ _ Hs HF'). eapply holds_ext; [|exact IH].
    intros r' c' _ _. cbn. unfold mem_cell. cbn [existsb fst snd].
    destruct (existsb _ cells) eqn:Em; [rewrite orb_true_r; reflexivity|]. rewrite orb_false_r.
    unfold upd. rewrite (Nat.eqb_sym r r'), (Nat.eqb_sym c c').
    destruct (Nat.eqb_spec r' r) as [->|]; [|reflexivity]. destruct (Nat.eqb_spec c' c) as [->|]; [|reflexivity].
    cbn. rewrite Ex, Ey. reflexivity.
Qed.

Lemma write_commute p q (v w : V) b : p <> q -> write p v (write q w b) = write q w (write p v b).
Proof.
  intros Hne. destruct b as [m| | |]; try reflexivity. unfold write. cbn [bind].
  destruct (q <? length m) eqn:Eq, (p <? length m) eqn:Ep; cbn [bind]; rewrite ?set_nth_length, ?Ep, ?Eq; try reflexivity.
  f_equal. apply list_ext. intros k. rewrite !nth_error_set_nth, ?set_nth_length.
  destruct (Nat.eqb_spec p k), (Nat.eqb_spec q k); subst; try reflexivity; contradiction.
Qed.

Lemma entry_step_commute xs ys rc rc' b :
  fst rc < length xs -> fst rc' < length xs -> rc <> rc' ->
  entry_step caller (length xs) xs ys rc (entry_step caller (length xs) xs ys rc' b) =
  entry_step caller (length xs) xs ys rc' (entry_step caller (length xs) xs ys rc b).
Proof.
  destruct rc as [r c], rc' as [r' c']. cbn [fst]. intros Hr Hr' Hne. unfold entry_step. cbn [fst snd].
  destruct (nth_error xs r), (nth_error ys c), (nth_error xs r'), (nth_error ys c'); try reflexivity.
  apply write_commute. intros E. apply pos_inj in E; [|assumption|assumption].
  destruct E; subst. contradiction.
Qed.

Lemma fold_left_concat {A C D} (g : C -> list A) (f : D -> A -> D) l d :
  fold_left (fun d c => fold_left f (g c) d) l d = fold_left f (concat (map g l)) d.
Proof.
  revert d. induction l as [|c l IH]; intros d; cbn; [reflexivity|]. rewrite fold_left_app. apply IH.
Qed.

Lemma fold_left_map {A C D} (g : C -> A) (f : D -> A -> D) l d :
  fold_left f (map g l) d = fold_left (fun d c => f d (g c)) l d.
Proof. revert d. induction l as [|c l IH]; intros d; cbn; [reflexivity|]. apply IH. Qed.

Definition grid_rc m n := concat (map (fun i => map (fun j => (i, j)) (seq 0 n)) (seq 0 m)).

Lemma in_grid m n r c : In (r, c) (grid_rc m n) <-> r < m /\ c < n.
Proof.
  unfold grid_rc. rewrite in_concat. split.
  - intros [l [Hl Hin]]. apply in_map_iff in Hl as [i [<- Hi]]. apply in_map_iff in Hin as [j [E Hj]].
    injection E as <- <-. apply in_seq in Hi. apply in_seq in Hj. lia.
  - intros [Hr Hc]. exists (map (fun j => (r, j)) (seq 0 n)). split.
    + apply (in_map (fun i => map (fun j => (i, j)) (seq 0 n))). apply in_seq. lia.
    + apply in_map. apply in_seq. lia.
Qed.

Lemma serial_cross_spec xs ys :
  is_matrix (compute_covariance_matrix caller xs ys) (length xs) (length ys)
    (fun r c v => exists x y, nth_error xs r = Some x /\ nth_error ys c = Some y /\ v = caller x y).
Proof.
  assert (compute_covariance_matrix caller xs ys =
    fold_left (fun b rc => entry_step caller (length xs) xs ys rc b) (grid_rc (length xs) (length ys))
      (alloc (length xs) (length ys))) as ->.
  { unfold compute_covariance_matrix, grid_rc. rewrite <- fold_left_concat.
    generalize (@alloc V (length xs) (length ys)) as b.
    induction (seq 0 (length xs)) as [|i l IH]; intros b; cbn; [reflexivity|].
    rewrite fold_left_map. apply IH. }
  assert (Forall (fun rc => fst rc < length xs /\ snd rc < length ys) (grid_rc (length xs) (length ys))) as HF.
  { apply Forall_forall. intros [r c] Hin. apply in_grid in Hin. exact Hin. }
  eapply holds_is_matrix; [apply (holds_entries _ _ _ _ _ (holds_alloc _ _) HF)|].
  intros r c Hr Hc. cbn.
  rewrite (proj2 (mem_cell_spec r c _)) by (apply in_grid; auto).
  destruct (nth_error xs r) as [x|] eqn:Ex; [|apply nth_error_None in Ex; lia].
  destruct (nth_error ys c) as [y|] eqn:Ey; [|apply nth_error_None in Ey; lia].
  eauto 10.
Qed.

(* ---------------- generic threaded assembly ---------------- *)

Definition block_tasks (cells : list (list (nat * nat))) xs ys : list (task (buffer V) unit) :=
  map (fun cs => Task (map (entry_step caller (length xs) xs ys) cs) (Some tt)) cells.

Lemma NoDup_concat_disjoint {A} (ls : list (list A)) i j a b x :
  NoDup (concat ls) -> i <> j -> nth_error ls i = Some a -> nth_error ls j = Some b -> In x a -> In x b -> False.
Proof.
  revert i j. induction ls as [|l ls IH]; intros i j Hn Hij Hi Hj Ha Hb; [destruct i; discriminate|].
  cbn in Hn. assert (forall y, In y l -> In y (concat ls) -> False) as Hd.
  { clear -Hn. induction l as [|z l IHl]; intros y Hy Hc; [destruct Hy|].
    cbn in Hn. inversion Hn; subst. destruct Hy as [->|Hy]; [|eapply IHl; eauto].
    apply H1. apply in_or_app. auto. }
  destruct i as [|i], j as [|j]; cbn in Hi, Hj.
  - contradiction.
  - injection Hi as ->. apply (Hd x Ha). apply in_concat. exists b. split; [eapply nth_error_In; eauto|exact Hb].
  - injection Hj as ->. apply (Hd x Hb). apply in_concat. exists a. split; [eapply nth_error_In; eauto|exact Ha].
  - apply (IH i j); auto. eapply NoDup_app_r; eauto.
Qed.

Lemma block_tasks_memory threads cells xs ys sched st out :
  NoDup (concat cells) ->
  Forall (fun rc => fst rc < length xs /\ snd rc < length ys) (concat cells) ->
  pool_run threads (block_tasks cells xs ys) (seq 0 (length cells))
    (pool_init (block_tasks cells xs ys) (seq 0 (length cells)) (alloc (length xs) (length ys))) sched = Some st ->
  pool_outcome st = Some (Ok out) ->
  holds (ps_mem st) (length xs) (length ys)
    (fun r c => if mem_cell (r, c) (concat cells) then
       match nth_error xs r, nth_error ys c with Some x, Some y => Some (caller x y) | _, _ => None end
     else None).
Proof.
  intros Hnd HF E Ho.
  assert (length (block_tasks cells xs ys) = length cells) as Hl by apply map_length.
  assert (Permutation (seq 0 (length cells)) (seq 0 (length (block_tasks cells xs ys)))) as Hord by (rewrite Hl; reflexivity).
  rewrite (fun Hc => pool_memory threads (block_tasks cells xs ys) _ Hord _ sched st out Hc E Ho).
  - unfold block_tasks. rewrite map_map. cbn [t_steps].
    unfold run_steps. rewrite <- (map_map (fun cs => cs) (map (entry_step caller (length xs) xs ys))), map_id, <- concat_map, fold_left_map.
    apply (holds_entries xs ys (concat cells) _ (fun _ _ => None)); [apply holds_alloc|exact HF].
  - intros i j a b Hij Ha Hb s. unfold steps_of, block_tasks in Ha, Hb.
    rewrite nth_error_map' in Ha. rewrite nth_error_map' in Hb.
    destruct (nth_error cells i) as [ci|] eqn:Ei; [|destruct Ha].
    destruct (nth_error cells j) as [cj|] eqn:Ej; [|destruct Hb]. cbn in Ha, Hb.
    apply in_map_iff in Ha as [rc [<- Ha]]. apply in_map_iff in Hb as [rc' [<- Hb]].
    rewrite Forall_forall in HF.
    apply entry_step_commute.
    + apply HF. apply in_concat. exists ci. split; [eapply nth_error_In; eauto|exact Ha].
    + apply HF. apply in_concat. exists cj. split; [eapply nth_error_In; eauto|exact Hb].
    + intros ->. eapply NoDup_concat_disjoint; eauto.
Qed.

(* ---------------- cross covariance blocks ---------------- *)

Definition columns (m s k : nat) : list (nat * nat) :=
  concat (map (fun col => map (fun row => (row, col)) (seq 0 m)) (seq s k)).

Lemma columns_app m s k k' : columns m s (k + k') = columns m s k ++ columns m (s + k) k'.
Proof. unfold columns. rewrite seq_app, map_app, concat_app. reflexivity. Qed.

Lemma cross_blocks_concat m n bs t : n <= t * bs ->
  concat (map (cross_block m n bs) (seq 0 t)) = columns m 0 n.
Proof.
  intros Hn.
  assert (forall k, concat (map (cross_block m n bs) (seq 0 k)) = columns m 0 (Nat.min n (k * bs))) as G.
  { induction k as [|k IH].
    - cbn. rewrite Nat.min_0_r. reflexivity.
    - rewrite seq_S, map_app, concat_app, IH. cbn [map concat Nat.add]. rewrite app_nil_r.
      unfold cross_block. fold (columns m (k * bs) (Nat.min n ((k + 1) * bs) - k * bs)).
      destruct (Nat.le_gt_cases n (k * bs)) as [Hle|Hgt].
      + replace (Nat.min n (k * bs)) with n by lia.
        replace (Nat.min n ((k + 1) * bs) - k * bs) with 0 by lia.
        replace (Nat.min n (S k * bs)) with n by (cbn; lia). cbn. rewrite app_nil_r. reflexivity.
      + replace (Nat.min n (k * bs)) with (k * bs) by lia.
        replace (columns m (k * bs)) with (columns m (0 + k * bs)) by reflexivity.
        rewrite <- columns_app. f_equal. replace (S k) with (k + 1) by lia. nia. }
  rewrite G. f_equal. lia.
Qed.

Lemma block_size_covers n t : 0 < t -> n <= t * cov_block_size n t.
Proof.
  intros Ht. unfold cov_block_size.
  pose proof (Nat.div_mod (n + t - 1) t ltac:(lia)). pose proof (Nat.mod_upper_bound (n + t - 1) t ltac:(lia)). nia.
Qed.

Lemma in_columns m s k r c : In (r, c) (columns m s k) <-> r < m /\ s <= c < s + k.
Proof.
  unfold columns. rewrite in_concat. split.
  - intros [l [Hl Hin]]. apply in_map_iff in Hl as [i [<- Hi]]. apply in_map_iff in Hin as [j [E Hj]].
    injection E as <- <-. apply in_seq in Hi. apply in_seq in Hj. lia.
  - intros [Hr Hc]. exists (map (fun row => (row, c)) (seq 0 m)). split.
    + apply (in_map (fun col => map (fun row => (row, col)) (seq 0 m))). apply in_seq. lia.
    + apply (in_map (fun row => (row, c))). apply in_seq. lia.
Qed.

Lemma NoDup_by_col (g : nat -> nat) (cols : list nat) : NoDup cols ->
  NoDup (concat (map (fun col => map (fun row => (row, col)) (seq 0 (g col))) cols)).
Proof.
  induction 1 as [|c cols Hc Hn IH]; cbn; [constructor|].
  apply NoDup_app_intro.
  - apply FinFun.Injective_map_NoDup; [|apply seq_NoDup]. intros a b E. injection E as ->. reflexivity.
  - exact IH.
  - intros [r c'] Hin Hin'. apply in_map_iff in Hin as [x [E _]]. injection E as <- <-.
    apply in_concat in Hin' as [l [Hl Hin']]. apply in_map_iff in Hl as [c'' [<- Hc'']].
    apply in_map_iff in Hin' as [y [E _]]. injection E as _ <-. contradiction.
Qed.

Lemma cross_cells threads (xs : list X) (ys : list Y) : 0 < threads ->
  concat (map (cross_block (length xs) (length ys) (cov_block_size (length ys) threads)) (seq 0 threads)) =
    columns (length xs) 0 (length ys) /\
  NoDup (columns (length xs) 0 (length ys)) /\
  Forall (fun rc => fst rc < length xs /\ snd rc < length ys) (columns (length xs) 0 (length ys)).
Proof.
  intros Ht. split; [apply cross_blocks_concat, block_size_covers, Ht|]. split.
  - apply (NoDup_by_col (fun _ => length xs)). apply seq_NoDup.
  - apply Forall_forall. intros [r c] Hin. apply in_columns in Hin. cbn. lia.
Qed.

Lemma pool_cross_spec pool xs ys sched b :
  compute_covariance_matrix_pool caller pool xs ys sched = Some b ->
  is_matrix b (length xs) (length ys)
    (fun r c v => exists x y, nth_error xs r = Some x /\ nth_error ys c = Some y /\ v = caller x y).
Proof.
  unfold compute_covariance_matrix_pool. destruct (should_serial_apply pool) eqn:Es.
  { intros E. injection E as <-. apply serial_cross_spec. }
  destruct pool as [threads|]; [|discriminate]. cbn in Es. apply Nat.leb_gt in Es.
  destruct (pool_run _ _ _ _ _) as [st|] eqn:E; [|discriminate].
  destruct (pool_outcome st) as [[out| | |]|] eqn:Ho; try discriminate. intros Eb. injection Eb as <-.
  set (cells := map (cross_block (length xs) (length ys) (cov_block_size (length ys) threads)) (seq 0 threads)).
  destruct (cross_cells threads xs ys ltac:(lia)) as [Hc [Hnd HF]]. fold cells in Hc.
  assert (cross_tasks caller threads xs ys = block_tasks cells xs ys) as Et.
  { unfold cross_tasks, block_tasks, cells. rewrite map_map. reflexivity. }
  rewrite Et in E.
  assert (length cells = threads) as Hl by (unfold cells; rewrite map_length, seq_length; reflexivity).
  rewrite <- Hl in E at 2 3.
  pose proof (block_tasks_memory threads cells xs ys sched st out) as Hm. rewrite Hc in Hm.
  specialize (Hm Hnd HF E Ho).
  eapply holds_is_matrix; [exact Hm|]. intros r c Hr Hcc. cbn.
  rewrite (proj2 (mem_cell_spec r c _)) by (apply in_columns; lia).
  destruct (nth_error xs r) as [x|] eqn:Ex; [|apply nth_error_None in Ex; lia].
  destruct (nth_error ys c) as [y|] eqn:Ey; [|apply nth_error_None in Ey; lia].
  eauto 10.
Qed.

Lemma pool_cross_serial pool xs ys sched b :
  compute_covariance_matrix_pool caller pool xs ys sched = Some b ->
  b = compute_covariance_matrix caller xs ys.
Proof.
  intros E. eapply is_matrix_unique; [eapply pool_cross_spec; eauto|apply serial_cross_spec|].
  intros r c v w _ _ [x [y [H1 [H2 ->]]]] [x' [y' [H3 [H4 ->]]]]. congruence.
Qed.

Lemma all_ok_tasks (tasks : list (task (buffer V) unit)) order :
  Permutation order (seq 0 (length tasks)) -> Forall (fun t => t_result t = Some tt) tasks ->
  exists out, mapM (result_of tasks) order = Ok out.
Proof.
  intros Hord HF. exists (map (fun _ => tt) order).
  assert (forall l, (forall j, In j l -> j < length tasks) -> mapM (result_of tasks) l = Ok (map (fun _ => tt) l)) as G.
  { induction l as [|j l IH]; intros Hl; cbn; [reflexivity|]. rewrite IH by (intros; apply Hl; right; assumption).
    unfold result_of. destruct (nth_error tasks j) as [t|] eqn:En.
    - rewrite Forall_forall in HF. rewrite (HF t) by (eapply nth_error_In; eauto). reflexivity.
    - apply nth_error_None in En. specialize (Hl j (or_introl eq_refl)). lia. }
  apply G. intros j Hj. apply (Permutation_in _ Hord) in Hj. apply in_seq in Hj. lia.
Qed.

Lemma pool_cross_completes pool xs ys :
  exists sched b, compute_covariance_matrix_pool caller pool xs ys sched = Some b.
Proof.
  unfold compute_covariance_matrix_pool. destruct (should_serial_apply pool) eqn:Es; [exists []; eauto|].
  destruct pool as [threads|]; [|discriminate]. cbn in Es. apply Nat.leb_gt in Es.
  set (tasks := cross_tasks caller threads xs ys).
  assert (length tasks = threads) as Hl by (unfold tasks, cross_tasks; rewrite map_length, seq_length; reflexivity).
  assert (Permutation (seq 0 threads) (seq 0 (length tasks))) as Hord by (rewrite Hl; reflexivity).
  destruct (pool_no_deadlock threads tasks (seq 0 threads) Hord (alloc (length xs) (length ys)) [] _ ltac:(lia) eq_refl)
    as [more [st' [H1 H2]]]. exists more. cbn [app] in H1. rewrite H1.
  destruct (pool_outcome st') as [r|] eqn:Eo; [|contradiction].
  pose proof (pool_outcome_spec threads tasks (seq 0 threads) _ _ _ _ H1 Eo) as Hr.
  destruct (all_ok_tasks tasks (seq 0 threads) Hord) as [out Hout].
  { unfold tasks, cross_tasks. apply Forall_forall. intros t Ht. apply in_map_iff in Ht as [k [<- _]]. reflexivity. }
  rewrite Hr, Hout. eauto.
Qed.
End Entries.

(* ---------------- symmetric ---------------- *)

Section Sym.
Context {X V : Type}.
Variable caller : X -> X -> V.

Lemma holds_copy (b : buffer V) n f dst src v :
  holds b n n f -> fst dst < n -> snd dst < n -> fst src < n -> snd src < n ->
  f (fst src) (snd src) = Some v ->
  holds (copy_step n dst src b) n n (upd f (fst dst) (snd dst) v).
Proof.
  intros Hb H1 H2 H3 H4 Hv. unfold copy_step. pose proof Hb as [m [-> [Hl Hm]]]. cbn [bind].
  rewrite Hm by assumption. rewrite Hv. apply holds_write; assumption.
Qed.

Lemma serial_symmetric_loop xs cells b f :
  holds b (length xs) (length xs) f ->
  Forall (fun rc => fst rc < length xs /\ snd rc < length xs /\ snd rc <= fst rc) cells ->
  holds (fold_left (fun C rc => copy_step (length xs) (snd rc, fst rc) rc (entry_step caller (length xs) xs xs rc C)) cells b)
    (length xs) (length xs)
    (fun r c => if mem_cell (r, c) cells then
       match nth_error xs r, nth_error xs c with Some x, Some y => Some (caller x y) | _, _ => None end
     else if mem_cell (c, r) cells then
       match nth_error xs c, nth_error xs r with Some x, Some y => Some (caller x y) | _, _ => None end
     else f r c).
Proof.
  revert b f. induction cells as [|[r c] cells IH]; intros b f Hb HF; cbn [fold_left].
  - exact Hb.
  - inversion HF as [|? ? [Hr [Hc Hle]] HF']; subst. cbn [fst snd] in Hr, Hc, Hle |- *.
    destruct (nth_error xs r) as [x|] eqn:Ex; [|apply nth_error_None in Ex; lia].
    destruct (nth_error xs c) as [y|] eqn:Ey; [|apply nth_error_None in Ey; lia].
    assert (holds (entry_step caller (length xs) xs xs (r, c) b) (length xs) (length xs) (upd f r c (caller x y))) as Hs.
    { unfold entry_step. cbn [fst snd]. rewrite Ex, Ey. apply holds_write; assumption. }
    apply (holds_copy _ _ _ (c, r) (r, c) (caller x y)) in Hs; cbn [fst snd]; try assumption.
    2:{ unfold upd. rewrite !Nat.eqb_refl. reflexivity. }
    specialize (IH _ _ Hs HF'). eapply holds_ext; [|exact IH].
    intros r' c' _ _. cbn [fst snd]. rewrite !mem_cell_cons.
    destruct (mem_cell (r', c') cells) eqn:Em.
    + rewrite !orb_true_r. reflexivity.
    + rewrite orb_false_r. rewrite (Nat.eqb_sym r r'), (Nat.eqb_sym c c'), (Nat.eqb_sym r c'), (Nat.eqb_sym c r').
      destruct (mem_cell (c', r') cells) eqn:Em2.
      * rewrite orb_true_r.
        destruct (Nat.eqb_spec r' r) as [->|]; [|reflexivity]. destruct (Nat.eqb_spec c' c) as [->|]; [|reflexivity].
        cbn [andb]. apply mem_cell_spec in Em2. rewrite Forall_forall in HF'.
        specialize (HF' _ Em2). cbn in HF'. assert (r = c) as -> by lia. reflexivity.
      * rewrite orb_false_r. unfold upd.
        destruct (Nat.eqb_spec r' r) as [->|], (Nat.eqb_spec c' c) as [->|]; cbn [andb].
        -- rewrite Ex, Ey. destruct (Nat.eqb_spec r c) as [->|]; cbn [andb].
           ++ rewrite Nat.eqb_refl. cbn. reflexivity.
           ++ reflexivity.
        -- destruct (Nat.eqb_spec c' r) as [->|]; cbn [andb].
           ++ rewrite andb_true_r. destruct (Nat.eqb_spec r c); subst; [contradiction|]. reflexivity.
           ++ rewrite andb_false_r. reflexivity.
        -- destruct (Nat.eqb_spec c r) as [->|]; cbn [andb].
           ++ destruct (Nat.eqb_spec r' r); [contradiction|]. reflexivity.
           ++ rewrite andb_false_r. reflexivity.
        -- rewrite (andb_comm (c' =? r)). destruct (Nat.eqb_spec r' c) as [->|]; cbn [andb]; [|reflexivity].
           destruct (Nat.eqb_spec c' r) as [->|]; cbn [andb]; [|reflexivity].
           rewrite Ex, Ey. reflexivity.
Qed.

(* lower triangle of the row by row loop *)
Definition lower_rc n := concat (map (fun i => map (fun j => (i, j)) (seq 0 (i + 1))) (seq 0 n)).
Lemma in_lower n r c : In (r, c) (lower_rc n) <-> r < n /\ c <= r.
Proof.
  unfold lower_rc. rewrite in_concat. split.
  - intros [l [Hl Hin]]. apply in_map_iff in Hl as [i [<- Hi]]. apply in_map_iff in Hin as [j [E Hj]].
    injection E as <- <-. apply in_seq in Hi. apply in_seq in Hj. lia.
  - intros [Hr Hc]. exists (map (fun j => (r, j)) (seq 0 (r + 1))). split.
    + apply (in_map (fun i => map (fun j => (i, j)) (seq 0 (i + 1)))). apply in_seq. lia.
    + apply in_map. apply in_seq. lia.
Qed.

Lemma serial_symmetric_spec xs :
  is_matrix (compute_covariance_matrix_symmetric caller xs) (length xs) (length xs)
    (fun r c v => exists x y, nth_error xs (Nat.max r c) = Some x /\ nth_error xs (Nat.min r c) = Some y /\ v = caller x y).
Proof.
  assert (compute_covariance_matrix_symmetric caller xs =
    fold_left (fun C rc => copy_step (length xs) (snd rc, fst rc) rc (entry_step caller (length xs) xs xs rc C))
      (lower_rc (length xs)) (alloc (length xs) (length xs))) as ->.
  { unfold compute_covariance_matrix_symmetric, lower_rc. rewrite <- fold_left_concat.
    generalize (@alloc V (length xs) (length xs)) as b.
    induction (seq 0 (length xs)) as [|i l IH]; intros b; cbn [fold_left]; [reflexivity|].
    rewrite fold_left_map. cbn [fst snd]. apply IH. }
  assert (Forall (fun rc => fst rc < length xs /\ snd rc < length xs /\ snd rc <= fst rc) (lower_rc (length xs))) as HF.
  { apply Forall_forall. intros [r c] Hin. apply in_lower in Hin. cbn. lia. }
  eapply holds_is_matrix; [apply (serial_symmetric_loop _ _ _ _ (holds_alloc _ _) HF)|].
  intros r c Hr Hc. cbn.
  destruct (nth_error xs r) as [x|] eqn:Ex; [|apply nth_error_None in Ex; lia].
  destruct (nth_error xs c) as [y|] eqn:Ey; [|apply nth_error_None in Ey; lia].
  destruct (Nat.le_gt_cases c r) as [Hcr|Hcr].
  - rewrite (proj2 (mem_cell_spec r c _)) by (apply in_lower; auto).
    rewrite Nat.max_l, Nat.min_r by lia. eauto 10.
  - destruct (mem_cell (r, c) (lower_rc (length xs))) eqn:Em.
    { apply mem_cell_spec, in_lower in Em. lia. }
    rewrite (proj2 (mem_cell_spec c r _)) by (apply in_lower; lia).
    rewrite Nat.max_r, Nat.min_l by lia. eauto 10.
Qed.

(* copying the upper triangle down *)
Lemma copy_loop n cells (b : buffer V) f :
  holds b n n f ->
  Forall (fun rc => fst rc < n /\ snd rc <= fst rc /\ f (snd rc) (fst rc) <> None) cells ->
  holds (fold_left (fun b rc => copy_step n rc (snd rc, fst rc) b) cells b) n n
    (fun r c => if mem_cell (r, c) cells then f c r else f r c).
Proof.
  revert b f. induction cells as [|[r c] cells IH]; intros b f Hb HF; cbn [fold_left].
  - exact Hb.
  - inversion HF as [|? ? [Hr [Hc Hv]] HF']; subst. cbn [fst snd] in Hr, Hc, Hv |- *.
    destruct (f c r) as [v|] eqn:Ev; [|contradiction].
    assert (holds (copy_step n (r, c) (c, r) b) n n (upd f r c v)) as Hs.
    { apply (holds_copy _ _ _ (r, c) (c, r) v); cbn [fst snd]; try assumption; lia. }
    assert (forall r' c', c' <= r' -> upd f r c v c' r' = f c' r') as Hup.
    { intros r' c' Hle. unfold upd. destruct (Nat.eqb_spec c' r) as [->|]; [|reflexivity].
      destruct (Nat.eqb_spec r' c) as [->|]; [|reflexivity]. cbn. assert (r = c) by lia. subst. congruence. }
    specialize (IH _ _ Hs). eapply holds_ext; [|apply IH].
    + intros r' c' _ _. cbn. unfold mem_cell. cbn [existsb fst snd].
      destruct (existsb (fun x => (fst x =? r') && (snd x =? c')) cells) eqn:Em.
      * rewrite orb_true_r. change (mem_cell (r', c') cells = true) in Em.
        apply mem_cell_spec in Em. rewrite Forall_forall in HF'. specialize (HF' _ Em). cbn in HF'.
        apply Hup. lia.
      * rewrite orb_false_r. unfold upd. rewrite (Nat.eqb_sym r r'), (Nat.eqb_sym c c').
        destruct (Nat.eqb_spec r' r) as [->|]; [|reflexivity]. destruct (Nat.eqb_spec c' c) as [->|]; [|reflexivity].
        cbn. symmetry. exact Ev.
    + apply Forall_forall. intros [r' c'] Hin. rewrite Forall_forall in HF'. specialize (HF' _ Hin). cbn in *.
      rewrite Hup by lia. exact HF'.
Qed.

Definition lower_cr n := concat (map (fun col => map (fun row => (row, col)) (seq col (n - col))) (seq 0 n)).
Lemma copy_upper_eq n (b : buffer V) :
  copy_upper_to_lower n b = fold_left (fun b rc => copy_step n rc (snd rc, fst rc) b) (lower_cr n) b.
Proof.
  unfold copy_upper_to_lower, lower_cr. rewrite <- fold_left_concat.
  revert b. induction (seq 0 n) as [|i l IH]; intros b; cbn [fold_left]; [reflexivity|].
  rewrite fold_left_map. cbn [fst snd]. apply IH.
Qed.
Lemma in_lower_cr n r c : In (r, c) (lower_cr n) <-> r < n /\ c <= r.
Proof.
  unfold lower_cr. rewrite in_concat. split.
  - intros [l [Hl Hin]]. apply in_map_iff in Hl as [i [<- Hi]]. apply in_map_iff in Hin as [j [E Hj]].
    injection E as <- <-. apply in_seq in Hi. apply in_seq in Hj. lia.
  - intros [Hr Hc]. exists (map (fun row => (row, c)) (seq c (n - c))). split.
    + apply (in_map (fun col => map (fun row => (row, col)) (seq col (n - col)))). apply in_seq. lia.
    + apply (in_map (fun row => (row, c))). apply in_seq. lia.
Qed.

Lemma tiles_concat start stop blocks : tiles start stop blocks ->
  start <= stop /\
  concat (map triangle_block blocks) =
    concat (map (fun col => map (fun row => (row, col)) (seq 0 (col + 1))) (seq start (stop - start))).
Proof.
  revert start. induction blocks as [|[a b] blocks IH]; intros start Ht; cbn in Ht.
  - subst. split; [lia|]. rewrite Nat.sub_diag. reflexivity.
  - destruct Ht as [-> [Hle Ht]]. destruct (IH b Ht) as [H1 H2]. split; [lia|].
    cbn [map concat]. rewrite H2. unfold triangle_block. cbn [fst snd].
    replace (stop - start) with ((b - start) + (stop - b)) by lia.
    rewrite seq_app, map_app, concat_app. replace (start + (b - start)) with b by lia. reflexivity.
Qed.

Lemma in_upper n r c :
  In (r, c) (concat (map (fun col => map (fun row => (row, col)) (seq 0 (col + 1))) (seq 0 n))) <-> r <= c /\ c < n.
Proof.
  rewrite in_concat. split.
  - intros [l [Hl Hin]]. apply in_map_iff in Hl as [i [<- Hi]]. apply in_map_iff in Hin as [j [E Hj]].
    injection E as <- <-. apply in_seq in Hi. apply in_seq in Hj. lia.
  - intros [Hr Hc]. exists (map (fun row => (row, c)) (seq 0 (c + 1))). split.
    + apply (in_map (fun col => map (fun row => (row, col)) (seq 0 (col + 1)))). apply in_seq. lia.
    + apply (in_map (fun row => (row, c))). apply in_seq. lia.
Qed.

Lemma pool_symmetric_threaded threads blocks xs sched b :
  1 < threads -> tiles 0 (length xs) blocks ->
  compute_covariance_matrix_symmetric_pool caller (Some threads) blocks xs sched = Some b ->
  is_matrix b (length xs) (length xs)
    (fun r c v => exists x y, nth_error xs (Nat.min r c) = Some x /\ nth_error xs (Nat.max r c) = Some y /\ v = caller x y).
Proof.
  intros Hth Ht. unfold compute_covariance_matrix_symmetric_pool. cbn [should_serial_apply].
  destruct (Nat.leb_spec threads 1); [lia|].
  destruct (pool_run _ _ _ _ _) as [st|] eqn:E; [|discriminate].
  destruct (pool_outcome st) as [[out| | |]|] eqn:Ho; try discriminate. intros Eb. injection Eb as <-.
  set (n := length xs) in *. set (cells := map triangle_block blocks).
  destruct (tiles_concat _ _ _ Ht) as [_ Hc]. fold cells in Hc. rewrite Nat.sub_0_r in Hc.
  assert (triangle_tasks caller blocks xs = block_tasks caller cells xs xs) as Et.
  { unfold triangle_tasks, block_tasks, cells. rewrite map_map. reflexivity. }
  rewrite Et in E.
  assert (length cells = length blocks) as Hl by (unfold cells; rewrite map_length; reflexivity).
  rewrite <- Hl in E.
  assert (NoDup (concat cells)) as Hnd by (rewrite Hc; apply (NoDup_by_col (fun c => c + 1)), seq_NoDup).
  assert (Forall (fun rc => fst rc < length xs /\ snd rc < length xs) (concat cells)) as HF.
  { rewrite Hc. apply Forall_forall. intros [r c] Hin. apply in_upper in Hin. cbn. unfold n in *. lia. }
  pose proof (block_tasks_memory caller threads cells xs xs sched st out Hnd HF E Ho) as Hm. rewrite Hc in Hm.
  fold n in Hm.
  rewrite copy_upper_eq.
  set (up := concat (map (fun col => map (fun row => (row, col)) (seq 0 (col + 1))) (seq 0 n))) in *.
  assert (Forall (fun rc => fst rc < n /\ snd rc <= fst rc /\
     (fun r c => if mem_cell (r, c) up then
       match nth_error xs r, nth_error xs c with Some x, Some y => Some (caller x y) | _, _ => None end
     else None) (snd rc) (fst rc) <> None) (lower_cr n)) as HF2.
  { apply Forall_forall. intros [r c] Hin. apply in_lower_cr in Hin. cbn [fst snd].
    split; [lia|]. split; [lia|].
    rewrite (proj2 (mem_cell_spec c r _)) by (apply in_upper; lia).
    destruct (nth_error xs r) as [x|] eqn:Ex; [|apply nth_error_None in Ex; unfold n in *; lia].
    destruct (nth_error xs c) as [y|] eqn:Ey; [|apply nth_error_None in Ey; unfold n in *; lia]. discriminate. }
  eapply holds_is_matrix; [apply (copy_loop n _ _ _ Hm HF2)|].
  intros r c Hr Hcc. cbn beta.
  destruct (nth_error xs r) as [x|] eqn:Ex; [|apply nth_error_None in Ex; unfold n in *; lia].
  destruct (nth_error xs c) as [y|] eqn:Ey; [|apply nth_error_None in Ey; unfold n in *; lia].
  destruct (Nat.le_gt_cases c r) as [Hcr|Hcr].
  - rewrite (proj2 (mem_cell_spec r c _)) by (apply in_lower_cr; lia).
    rewrite (proj2 (mem_cell_spec c r _)) by (apply in_upper; lia).
    rewrite Nat.min_r, Nat.max_l by lia. rewrite ?Ex, ?Ey. eauto 10.
  - destruct (mem_cell (r, c) (lower_cr n)) eqn:Em; [apply mem_cell_spec, in_lower_cr in Em; lia|].
    rewrite (proj2 (mem_cell_spec r c _)) by (apply in_upper; lia).
    rewrite Nat.min_l, Nat.max_r by lia. rewrite ?Ex, ?Ey. eauto 10.
Qed.

Lemma pool_symmetric_serial pool blocks xs sched b :
  (forall x y, caller x y = caller y x) -> tiles 0 (length xs) blocks ->
  compute_covariance_matrix_symmetric_pool caller pool blocks xs sched = Some b ->
  b = compute_covariance_matrix_symmetric caller xs.
Proof.
  intros Hsym Ht E. destruct (should_serial_apply pool) eqn:Es.
  { unfold compute_covariance_matrix_symmetric_pool in E. rewrite Es in E. congruence. }
  destruct pool as [threads|]; [|discriminate]. cbn in Es. apply Nat.leb_gt in Es.
  pose proof (pool_symmetric_threaded threads blocks xs sched b Es Ht E) as Hb.
  eapply is_matrix_unique; [exact Hb| |].
  - destruct (serial_symmetric_spec xs) as [cells [H1 [H2 H3]]]. exists cells. split; [exact H1|]. split; [exact H2|].
    intros r c Hr Hc. destruct (H3 r c Hr Hc) as [v [Hv [x [y [Hx [Hy ->]]]]]].
    exists (caller x y). split; [exact Hv|]. exists y, x. auto.
  - intros r c v w _ _ [x [y [H1 [H2 ->]]]] [x' [y' [H3 [H4 ->]]]]. congruence.
Qed.

Lemma pool_symmetric_completes pool blocks xs :
  exists sched b, compute_covariance_matrix_symmetric_pool caller pool blocks xs sched = Some b.
Proof.
  unfold compute_covariance_matrix_symmetric_pool. destruct (should_serial_apply pool) eqn:Es; [exists []; eauto|].
  destruct pool as [threads|]; [|discriminate]. cbn in Es. apply Nat.leb_gt in Es.
  set (tasks := triangle_tasks caller blocks xs).
  assert (length tasks = length blocks) as Hl by (unfold tasks, triangle_tasks; rewrite map_length; reflexivity).
  assert (Permutation (seq 0 (length blocks)) (seq 0 (length tasks))) as Hord by (rewrite Hl; reflexivity).
  destruct (pool_no_deadlock threads tasks _ Hord (alloc (length xs) (length xs)) [] _ ltac:(lia) eq_refl)
    as [more [st' [H1 H2]]]. exists more. cbn [app] in H1. rewrite H1.
  destruct (pool_outcome st') as [r|] eqn:Eo; [|contradiction].
  pose proof (pool_outcome_spec threads tasks _ _ _ _ _ H1 Eo) as Hr.
  destruct (all_ok_tasks tasks _ Hord) as [out Hout].
  { unfold tasks, triangle_tasks. apply Forall_forall. intros t Ht. apply in_map_iff in Ht as [k [<- _]]. reflexivity. }
  rewrite Hr, Hout. eauto.
Qed.
End Sym.

Lemma mean_vector_spec {X V} (caller : X -> V) xs :
  compute_mean_vector caller xs = Ok (map (fun x => Some (caller x)) xs).
Proof.
  unfold compute_mean_vector, alloc. rewrite Nat.mul_1_r.
  assert (forall k, k <= length xs ->
    fold_left (fun m i => match nth_error xs i with Some x => write i (caller x) m | None => UB end)
      (seq 0 k) (Ok (repeat None (length xs))) =
    Ok (map (fun x => Some (caller x)) (firstn k xs) ++ repeat None (length xs - k))) as G.
  { induction k as [|k IH]; intros Hk; [rewrite Nat.sub_0_r; reflexivity|].
    rewrite seq_S, fold_left_app, IH by lia. cbn [fold_left Nat.add].
    destruct (nth_error xs k) as [x|] eqn:E; [|apply nth_error_None in E; lia].
    unfold write. cbn [bind]. rewrite app_length, map_length, firstn_length, repeat_length.
    destruct (Nat.ltb_spec k (Nat.min k (length xs) + (length xs - k))); [|lia]. f_equal.
    replace (S k) with (k + 1) by lia. rewrite (firstn_snoc _ _ _ E), map_app. cbn [map].
    replace (length xs - k) with (S (length xs - (k + 1))) by lia. cbn [repeat].
    rewrite <- app_assoc. cbn [app].
    assert (forall (l : list (option V)) r y z, set_nth (l ++ z :: r) (length l) y = l ++ y :: r) as Hset.
    { clear. induction l as [|a l IHl]; intros r y z; cbn; [reflexivity|]. f_equal. apply IHl. }
    assert (length (map (fun x0 => Some (caller x0)) (firstn k xs)) = k) as Hlen by (rewrite map_length, firstn_length; lia).
    generalize (length xs - (k + 1)) as q. intros q. generalize dependent (map (fun x0 => Some (caller x0)) (firstn k xs)).
    intros l0 Hl0 Hk0. subst k. apply Hset. }
  rewrite G by lia. rewrite firstn_all, Nat.sub_diag, app_nil_r. reflexivity.
Qed.

(* Properties C13 and C14 of properties.jsonl. *)
From Coq Require Import Reals.
From Verif Require Import Base StdMapModel AsyncModel CovMatrixModel CovMatrixSpec CovMatrixProofs
  PartitionModel PartitionProofs.
Local Open Scope nat_scope.

(* ------------------------------ C13 ------------------------------ *)

(* entry (r, c) of the cross covariance is caller(xs[r], ys[c]) *)
Theorem C13_cross : forall (X Y V : Type) (caller : X -> Y -> V) (pool : option nat) (xs : list X) (ys : list Y)
    (sched : list event) (b : buffer V),
  compute_covariance_matrix_pool caller pool xs ys sched = Some b ->
  is_matrix b (length xs) (length ys)
    (fun r c v => exists x y, nth_error xs r = Some x /\ nth_error ys c = Some y /\ v = caller x y).
Proof. exact @pool_cross_spec. Qed.
Print Assumptions C13_cross.
Theorem C13_cross_is_serial : forall (X Y V : Type) (caller : X -> Y -> V) (pool : option nat) (xs : list X)
    (ys : list Y) (sched : list event) (b : buffer V),
  compute_covariance_matrix_pool caller pool xs ys sched = Some b ->
  b = compute_covariance_matrix caller xs ys.
Proof. exact @pool_cross_serial. Qed.
Print Assumptions C13_cross_is_serial.
Theorem C13_cross_completes : forall (X Y V : Type) (caller : X -> Y -> V) (pool : option nat) (xs : list X) (ys : list Y),
  exists sched b, compute_covariance_matrix_pool caller pool xs ys sched = Some b.
Proof. exact @pool_cross_completes. Qed.
Print Assumptions C13_cross_completes.

(* together the tasks write every entry exactly once *)
Theorem C13_cross_written_once : forall (X Y : Type) (threads : nat) (xs : list X) (ys : list Y), 0 < threads ->
  let cells := concat (map (cross_block (length xs) (length ys) (cov_block_size (length ys) threads)) (seq 0 threads)) in
  NoDup cells /\ forall r c, In (r, c) cells <-> r < length xs /\ c < length ys.
Proof.
  intros X Y threads xs ys Ht. destruct (cross_cells threads xs ys Ht) as [-> [Hn _]]. split; [exact Hn|].
  intros r c. rewrite in_columns. split; intros; lia.
Qed.
Print Assumptions C13_cross_written_once.

Example C13_cross_ex :
  compute_covariance_matrix_pool (fun x y => x * 10 + y) (Some 2) [1; 2] [3; 4; 5]
    [EEnqueue; EEnqueue; ETake 1; ETake 0; EStep 1; EStep 0; EStep 0; EStep 1; EFinish 1; EStep 0; EStep 0;
     EFinish 0; EGet; EGet] = Some (Ok [Some 13; Some 23; Some 14; Some 24; Some 15; Some 25]).
Proof. reflexivity. Qed.

(* single argument, serial: the arguments are in decreasing position *)
Theorem C13_symmetric_serial : forall (X V : Type) (caller : X -> X -> V) (xs : list X),
  is_matrix (compute_covariance_matrix_symmetric caller xs) (length xs) (length xs)
    (fun r c v => exists x y, nth_error xs (Nat.max r c) = Some x /\ nth_error xs (Nat.min r c) = Some y /\
                              v = caller x y).
Proof. exact @serial_symmetric_spec. Qed.
Print Assumptions C13_symmetric_serial.

(* single argument, threaded: the arguments are in increasing position *)
Theorem C13_symmetric_threaded : forall (X V : Type) (caller : X -> X -> V) (threads : nat) (blocks : list (nat * nat))
    (xs : list X) (sched : list event) (b : buffer V),
  1 < threads -> tiles 0 (length xs) blocks ->
  compute_covariance_matrix_symmetric_pool caller (Some threads) blocks xs sched = Some b ->
  is_matrix b (length xs) (length xs)
    (fun r c v => exists x y, nth_error xs (Nat.min r c) = Some x /\ nth_error xs (Nat.max r c) = Some y /\
                              v = caller x y).
Proof. exact @pool_symmetric_threaded. Qed.
Print Assumptions C13_symmetric_threaded.

(* so for a symmetric function and the blocks of partition_triangular the
   threaded matrix is the serial one, for every thread count and schedule *)
Theorem C13_symmetric_is_serial : forall (X V : Type) (caller : X -> X -> V) (threads : nat) (xs : list X)
    (bs : list (Z * Z)) (sched : list event) (b : buffer V),
  (forall x y, caller x y = caller y x) -> 0 < threads ->
  partition_triangular (Z.of_nat (length xs)) (Z.of_nat threads) = Ok bs ->
  compute_covariance_matrix_symmetric_pool caller (Some threads) (to_nat_blocks bs) xs sched = Some b ->
  b = compute_covariance_matrix_symmetric caller xs.
Proof.
  intros X V caller threads xs bs sched b Hsym Ht Ebs Eb.
  destruct (partition_tiles (length xs) threads Ht) as [bs' [E [_ Htl]]].
  assert (bs' = bs) as -> by congruence.
  eapply pool_symmetric_serial; eauto.
Qed.
Print Assumptions C13_symmetric_is_serial.
Theorem C13_symmetric_completes : forall (X V : Type) (caller : X -> X -> V) (pool : option nat)
    (blocks : list (nat * nat)) (xs : list X),
  exists sched b, compute_covariance_matrix_symmetric_pool caller pool blocks xs sched = Some b.
Proof. exact @pool_symmetric_completes. Qed.
Print Assumptions C13_symmetric_completes.

(* for other functions they differ *)
Theorem C13_asymmetric_refuted : exists (caller : nat -> nat -> nat) blocks xs sched b,
  tiles 0 (length xs) blocks /\
  compute_covariance_matrix_symmetric_pool caller (Some 2) blocks xs sched = Some b /\
  b <> compute_covariance_matrix_symmetric caller xs.
Proof.
  exists (fun x y => x * 10 + y), [(0, 1); (1, 2)], [1; 2],
    [EEnqueue; EEnqueue; ETake 1; ETake 0; EStep 1; EStep 0; EStep 1; EFinish 0; EFinish 1; EGet; EGet].
  eexists. split; [cbn; lia|]. split; [reflexivity|]. discriminate.
Qed.
Print Assumptions C13_asymmetric_refuted.
Example C13_symmetric_ex :
  tiles 0 2 [(0, 1); (1, 2)] /\
  compute_covariance_matrix_symmetric_pool (fun x y => x * y) (Some 2) [(0, 1); (1, 2)] [3; 5]
    [EEnqueue; EEnqueue; ETake 1; ETake 0; EStep 1; EStep 0; EStep 1; EFinish 0; EFinish 1; EGet; EGet] =
    Some (Ok [Some 9; Some 15; Some 15; Some 25]).
Proof. split; [cbn; lia|reflexivity]. Qed.

Theorem C13_mean_vector : forall (X V : Type) (caller : X -> V) (xs : list X),
  compute_mean_vector caller xs = Ok (map (fun x => Some (caller x)) xs).
Proof. exact @mean_vector_spec. Qed.
Print Assumptions C13_mean_vector.

(* ------------------------------ C14 ------------------------------ *)

(* k consecutive ranges from 0 to size, with boundary j at size * sqrt(j / k)
   rounded to a nearest integer *)
Theorem C14_partition_triangular : forall size k : Z, (0 <= size)%Z -> (0 < k)%Z ->
  exists bounds : nat -> Z,
    partition_triangular size k = Ok (map (fun j => (bounds j, bounds (S j))) (seq 0 (Z.to_nat k))) /\
    bounds 0 = 0%Z /\ bounds (Z.to_nat k) = size /\
    (forall i j, i <= j -> (bounds i <= bounds j)%Z) /\
    (forall j, (Rabs (IZR (bounds j) - IZR size * sqrt (INR j / IZR k)) <= / 2)%R).
Proof. exact partition_triangular_spec. Qed.
Print Assumptions C14_partition_triangular.

Theorem C14_tiles : forall size k : nat, 0 < k ->
  exists bs, partition_triangular (Z.of_nat size) (Z.of_nat k) = Ok bs /\
    length bs = k /\ tiles 0 size (to_nat_blocks bs).
Proof. exact partition_tiles. Qed.
Print Assumptions C14_tiles.

Example C14_ex : partition_triangular 4 1 = Ok [(0, 4)]%Z.
Proof.
  rewrite (partition_eq 4 1) by lia. unfold block_list.
  change (Z.to_nat 1) with 1. cbn [seq map]. rewrite bound_0.
  change 1 with (Z.to_nat 1). rewrite bound_last by lia. reflexivity.
Qed.

(* no blocks: back() of an empty vector *)
Theorem C14_no_blocks_refuted : forall size k : Z, (k <= 0)%Z -> partition_triangular size k = UB.
Proof. exact partition_triangular_zero. Qed.
Print Assumptions C14_no_blocks_refuted.

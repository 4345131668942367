From Coq Require Import Reals ZArith List Lra Lia.
From Flocq Require Import Core.Core.
From Verif Require Import Base BaseProofs PartitionModel CovMatrixSpec.
Local Open Scope R_scope.

Definition bound (size k : Z) (j : nat) : Z := ZnearestE (IZR size * sqrt (INR j / IZR k)).

Lemma bound_0 size k : bound size k 0 = 0%Z.
Proof.
  unfold bound. cbn [INR]. replace (0 / IZR k) with 0 by (unfold Rdiv; ring).
  rewrite sqrt_0, Rmult_0_r. exact (@Zrnd_IZR _ (valid_rnd_N _) 0).
Qed.

Lemma bound_last size k : (0 < k)%Z -> bound size k (Z.to_nat k) = size.
Proof.
  intros Hk. unfold bound. rewrite INR_IZR_INZ, Z2Nat.id by lia.
  replace (IZR k / IZR k) with 1; [rewrite sqrt_1, Rmult_1_r; apply (@Zrnd_IZR _ (valid_rnd_N _))|].
  field. apply not_0_IZR. lia.
Qed.

Lemma bound_mono size k i j : (0 <= size)%Z -> (0 < k)%Z -> (i <= j)%nat -> (bound size k i <= bound size k j)%Z.
Proof.
  intros Hs Hk Hij. unfold bound. apply (@Zrnd_le _ (valid_rnd_N _)).
  apply Rmult_le_compat_l; [apply IZR_le; exact Hs|]. apply sqrt_le_1_alt.
  unfold Rdiv. apply Rmult_le_compat_r; [|apply le_INR; exact Hij].
  apply Rlt_le, Rinv_0_lt_compat, IZR_lt. exact Hk.
Qed.

Definition block_list (size k : Z) (n : nat) : list (Z * Z) :=
  map (fun j => (bound size k j, bound size k (S j))) (seq 0 n).

Lemma iterate_spec size k n : (0 < k)%Z ->
  Nat.iter n (partition_step size k) ([], 0, 0%Z) = (block_list size k n, INR n / IZR k, bound size k n).
Proof.
  intros Hk. induction n as [|n IH].
  - cbn [Nat.iter nat_rect]. rewrite bound_0. cbn. f_equal. f_equal. unfold Rdiv. ring.
  - change (Nat.iter (S n) (partition_step size k) ([], 0, 0%Z)) with
      (partition_step size k (Nat.iter n (partition_step size k) ([], 0, 0%Z))).
    rewrite IH. unfold partition_step.
    assert (IZR k <> 0) as Hk0 by (apply not_0_IZR; lia).
    assert (1 / IZR k + INR n / IZR k = INR (S n) / IZR k) as -> by (rewrite S_INR; field; exact Hk0).
    assert (0 <= INR (S n) / IZR k) as Hnn.
    { unfold Rdiv. apply Rmult_le_pos; [apply pos_INR|]. apply Rlt_le, Rinv_0_lt_compat, IZR_lt. exact Hk. }
    rewrite sqrt_sqrt by exact Hnn.
    unfold block_list. rewrite seq_S, map_app. cbn [map Nat.add]. reflexivity.
Qed.

Lemma clamp_last_snoc size l a b : clamp_last size (l ++ [(a, b)]) = Ok (l ++ [(a, Z.min b size)]).
Proof.
  induction l as [|x l IH]; [reflexivity|]. destruct l as [|y l].
  - destruct x. reflexivity.
  - assert (clamp_last size ((x :: y :: l) ++ [(a, b)]) =
      (r <- clamp_last size ((y :: l) ++ [(a, b)]) ;; Ok (x :: r))) as -> by (destruct x; reflexivity).
    rewrite IH. reflexivity.
Qed.

Lemma partition_eq size k : (0 < k)%Z ->
  partition_triangular size k = Ok (block_list size k (Z.to_nat k)).
Proof.
  intros Hk. unfold partition_triangular. rewrite iterate_spec by exact Hk.
  destruct (Z.to_nat k) as [|n] eqn:En; [lia|].
  unfold block_list. rewrite seq_S, map_app. cbn [map Nat.add]. rewrite clamp_last_snoc.
  do 4 f_equal. rewrite <- En, bound_last by exact Hk. apply Z.min_id.
Qed.

Lemma partition_triangular_spec size k : (0 <= size)%Z -> (0 < k)%Z ->
  exists bounds : nat -> Z,
    partition_triangular size k = Ok (map (fun j => (bounds j, bounds (S j))) (seq 0 (Z.to_nat k))) /\
    bounds 0%nat = 0%Z /\ bounds (Z.to_nat k) = size /\
    (forall i j, (i <= j)%nat -> (bounds i <= bounds j)%Z) /\
    (forall j, Rabs (IZR (bounds j) - IZR size * sqrt (INR j / IZR k)) <= / 2).
Proof.
  intros Hs Hk. exists (bound size k). split; [apply partition_eq; exact Hk|].
  split; [apply bound_0|]. split; [apply bound_last; exact Hk|].
  split; [intros i j; apply bound_mono; assumption|].
  intros j. unfold bound. rewrite Rabs_minus_sym. apply Znearest_half.
Qed.

Lemma partition_triangular_zero size k : (k <= 0)%Z -> partition_triangular size k = UB.
Proof. intros Hk. unfold partition_triangular. replace (Z.to_nat k) with 0%nat by lia. reflexivity. Qed.

(* in natural numbers, for the covariance assembly *)
Definition to_nat_blocks (bs : list (Z * Z)) : list (nat * nat) :=
  map (fun ab => (Z.to_nat (fst ab), Z.to_nat (snd ab))) bs.

Lemma partition_tiles (size k : nat) : (0 < k)%nat ->
  exists bs, partition_triangular (Z.of_nat size) (Z.of_nat k) = Ok bs /\
    length bs = k /\ tiles 0 size (to_nat_blocks bs).
Proof.
  intros Hk. destruct (partition_triangular_spec (Z.of_nat size) (Z.of_nat k)) as [b [E [H0 [Hl [Hm _]]]]]; [lia|lia|].
  rewrite Nat2Z.id in *. eexists. split; [exact E|]. split; [rewrite map_length, seq_length; reflexivity|].
  unfold to_nat_blocks. rewrite map_map. cbn [fst snd].
  assert (forall n s, (s + n = k)%nat ->
    tiles (Z.to_nat (b s)) size (map (fun x => (Z.to_nat (b x), Z.to_nat (b (S x)))) (seq s n))) as G.
  { induction n as [|n IH]; intros s Hs; cbn.
    - replace s with k by lia. rewrite Hl. apply Nat2Z.id.
    - split; [reflexivity|]. split; [apply Z2Nat.inj_le; try (rewrite <- H0); apply Hm; lia|].
      apply IH. lia. }
  specialize (G k 0%nat eq_refl). rewrite H0 in G. exact G.
Qed.

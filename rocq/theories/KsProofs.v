From Coq Require Import Reals List Permutation Sorted Lra Lia Psatz.
From Verif Require Import ExtRealModel DistanceProofs KsModel KsSpec.
Import ListNotations.
Local Open Scope R_scope.

(* ---- sorting ---- *)
Lemma insert_perm x s : Permutation (x :: s) (insert x s).
Proof.
  induction s as [|y s IH]; simpl; auto. destruct (Rltb x y); auto.
  eapply perm_trans; [apply perm_swap|]. constructor. auto.
Qed.
Lemma sort_perm s : Permutation s (std_sort s).
Proof. induction s as [|x s IH]; simpl; auto. eapply perm_trans; [|apply insert_perm]. auto. Qed.
Lemma insert_sorted x s : StronglySorted Rle s -> StronglySorted Rle (insert x s).
Proof.
  induction s as [|y s IH]; simpl; intros H. { constructor; constructor. }
  inversion_clear H. destruct (Rltb x y) eqn:E.
  - apply Rltb_true in E. constructor; [constructor; auto|]. constructor; [lra|].
    eapply Forall_impl; [|exact H1]. simpl. intros; lra.
  - apply Rltb_false in E. constructor; auto. eapply Permutation_Forall; [apply insert_perm|]. constructor; auto.
Qed.
Lemma sort_sorted s : StronglySorted Rle (std_sort s).
Proof. induction s; simpl; [constructor|apply insert_sorted; auto]. Qed.
Lemma sorted_unique s s' : StronglySorted Rle s -> StronglySorted Rle s' -> Permutation s s' -> s = s'.
Proof.
  revert s'. induction s as [|x s IH]; intros s' H H' P.
  - apply Permutation_nil in P. auto.
  - destruct s' as [|y s']; [symmetry in P; apply Permutation_nil in P; discriminate|].
    inversion_clear H. inversion_clear H'.
    assert (E : x = y).
    { assert (Ix : In x (y :: s')) by (eapply Permutation_in; [exact P|left; auto]).
      assert (Iy : In y (x :: s)) by (eapply Permutation_in; [symmetry; exact P|left; auto]).
      destruct Ix as [->|Ix]; auto. destruct Iy as [->|Iy]; auto.
      rewrite Forall_forall in H1, H2. apply Rle_antisym; auto. }
    subst y. f_equal. apply IH; auto. eapply Permutation_cons_inv; exact P.
Qed.
Lemma sort_of_perm s s' : Permutation s s' -> std_sort s = std_sort s'.
Proof.
  intros P. apply sorted_unique; try apply sort_sorted.
  eapply perm_trans; [symmetry; apply sort_perm|]. eapply perm_trans; [exact P|apply sort_perm].
Qed.
Lemma sorted_nth s i j : StronglySorted Rle s -> (i <= j < length s)%nat -> nth i s 0 <= nth j s 0.
Proof.
  revert i j. induction s as [|x s IH]; simpl; intros i j H L; [lia|]. inversion_clear H.
  destruct i, j; try lra; try lia.
  - rewrite Forall_forall in H1. apply H1, nth_In. lia.
  - apply IH; auto. lia.
Qed.

(* ---- counting ---- *)
Lemma count_perm t s s' : Permutation s s' -> count_le t s = count_le t s'.
Proof.
  unfold count_le. induction 1; simpl; auto; repeat (destruct (Rle_dec _ t); simpl); auto; congruence.
Qed.
Lemma count_bound t s : (count_le t s <= length s)%nat.
Proof. unfold count_le. induction s; simpl; auto. destruct (Rle_dec a t); simpl; lia. Qed.
Lemma count_none t s : Forall (fun x => t < x) s -> count_le t s = 0%nat.
Proof. unfold count_le. induction 1; simpl; auto. destruct (Rle_dec x t); [lra|auto]. Qed.
Lemma count_sorted t s i : StronglySorted Rle s -> (i < length s)%nat -> (nth i s 0 <= t <-> (i < count_le t s)%nat).
Proof.
  revert i. induction s as [|x s IH]; simpl; intros i H L; [lia|]. inversion_clear H.
  unfold count_le; simpl. fold (count_le t s). destruct (Rle_dec x t) as [E|E]; simpl.
  - change (S (length (filter (fun x => if Rle_dec x t then true else false) s))) with (S (count_le t s)).
    destruct i; [split; intros; [lia|lra]|]. rewrite IH by (auto; lia). lia.
  - change (length (filter (fun x => if Rle_dec x t then true else false) s)) with (count_le t s).
    assert (Z : count_le t s = 0%nat). { apply count_none. eapply Forall_impl; [|exact H1]. simpl. intros; lra. }
    rewrite Z. split; [|lia]. intros C. destruct i; [lra|]. rewrite Forall_forall in H1.
    assert (x <= nth i s 0) by (apply H1, nth_In; lia). lra.
Qed.
Lemma count_all s : (forall x, In x s -> x <= 1) -> forall t, 1 <= t -> count_le t s = length s.
Proof.
  intros H t Ht. unfold count_le. induction s; simpl; auto. destruct (Rle_dec a t); simpl.
  - f_equal. apply IHs. intros; apply H; right; auto.
  - exfalso. assert (a <= 1) by (apply H; left; auto). lra.
Qed.

(* ---- the loop ---- *)
Lemma step_max n l i x : ks_step n l i x = Rmax l (Rmax ((INR i + 1) / n - x) (x - INR i / n)).
Proof.
  unfold ks_step. assert (M : forall a b, (if Rltb a b then b else a) = Rmax a b).
  { intros a b. destruct (Rltb a b) eqn:E; [apply Rltb_true in E; rewrite Rmax_right; lra|apply Rltb_false in E; rewrite Rmax_left; lra]. }
  rewrite !M. auto.
Qed.
Lemma loop_ge n l i s : l <= ks_loop n l i s.
Proof. revert l i. induction s as [|x s IH]; simpl; intros; [lra|]. eapply Rle_trans; [|apply IH]. rewrite step_max. apply Rmax_l. Qed.
Lemma loop_upper n l i s k : (k < length s)%nat ->
  (INR (i + k) + 1) / n - nth k s 0 <= ks_loop n l i s /\ nth k s 0 - INR (i + k) / n <= ks_loop n l i s.
Proof.
  revert l i k. induction s as [|x s IH]; simpl; intros l i k L; [lia|]. destruct k.
  - rewrite Nat.add_0_r. pose proof (loop_ge n (ks_step n l i x) (S i) s) as G. rewrite step_max in G |- *.
    pose proof (Rmax_r l (Rmax ((INR i + 1) / n - x) (x - INR i / n))).
    pose proof (Rmax_l ((INR i + 1) / n - x) (x - INR i / n)). pose proof (Rmax_r ((INR i + 1) / n - x) (x - INR i / n)). lra.
  - replace (i + S k)%nat with (S i + k)%nat by lia. apply IH. lia.
Qed.
Lemma loop_least n l i s b : l <= b -> (forall k, (k < length s)%nat ->
  (INR (i + k) + 1) / n - nth k s 0 <= b /\ nth k s 0 - INR (i + k) / n <= b) -> ks_loop n l i s <= b.
Proof.
  revert l i. induction s as [|x s IH]; simpl; intros l i H K; auto. apply IH.
  - rewrite step_max. apply Rmax_lub; auto. specialize (K 0%nat ltac:(lia)). rewrite Nat.add_0_r in K. simpl in K.
    apply Rmax_lub; lra.
  - intros k L. replace (S i + k)%nat with (i + S k)%nat by lia. apply (K (S k)). lia.
Qed.

(* ---- the supremum ---- *)
Section Sorted.
Variable s : list R.
Hypothesis ss : StronglySorted Rle s.
Hypothesis hs : forall x, In x s -> 0 <= x <= 1.
Hypothesis ne : (0 < length s)%nat.
Let n := INR (length s).
Let D := ks_loop n 0 0 s.
Lemma n_pos : 0 < n. Proof. apply lt_0_INR. auto. Qed.
Lemma D_ge0 : 0 <= D. Proof. apply loop_ge. Qed.
Lemma D_upper k : (k < length s)%nat -> (INR k + 1) / n - nth k s 0 <= D /\ nth k s 0 - INR k / n <= D.
Proof. intros L. exact (loop_upper n 0 0 s k L). Qed.

Lemma below t : Rabs (empirical_cdf s t - uniform_cdf t) <= D.
Proof.
  pose proof n_pos as N. pose proof D_ge0 as D0. set (c := count_le t s). pose proof (count_bound t s) as B. fold c in B.
  assert (U : 0 <= uniform_cdf t <= 1).
  { unfold uniform_cdf. split; [apply Rmax_l|]. apply Rmax_lub; [lra|apply Rmin_l]. }
  unfold empirical_cdf. fold n c.
  (* above *)
  assert (P : INR c / n - uniform_cdf t <= D).
  { destruct c as [|k] eqn:Ec; [simpl; unfold Rdiv; rewrite Rmult_0_l; lra|].
    assert (L : (k < length s)%nat) by lia. pose proof (proj1 (D_upper k L)) as H.
    assert (T : nth k s 0 <= t). { apply (count_sorted t s k ss L). unfold c in Ec. lia. }
    assert (I : 0 <= nth k s 0 <= 1) by (apply hs, nth_In; auto).
    rewrite S_INR. assert (nth k s 0 <= uniform_cdf t).
    { unfold uniform_cdf. eapply Rle_trans; [|apply Rmax_r]. apply Rmin_glb; lra. }
    lra. }
  assert (Q : uniform_cdf t - INR c / n <= D).
  { destruct (Nat.eq_dec c (length s)) as [E|E].
    - rewrite E. fold n. unfold Rdiv. rewrite Rinv_r by lra. lra.
    - assert (L : (c < length s)%nat) by lia. pose proof (proj2 (D_upper c L)) as H.
      assert (T : t < nth c s 0). { apply Rnot_le_lt. intros C. apply (count_sorted t s c ss L) in C. unfold c in C. lia. }
      assert (I : 0 <= nth c s 0 <= 1) by (apply hs, nth_In; auto).
      assert (uniform_cdf t <= nth c s 0).
      { unfold uniform_cdf. apply Rmax_lub; [lra|]. eapply Rle_trans; [apply Rmin_r|lra]. }
      lra. }
  apply Rabs_le. lra.
Qed.

Lemma least b : (forall t, Rabs (empirical_cdf s t - uniform_cdf t) <= b) -> D <= b.
Proof.
  intros H. pose proof n_pos as N. apply loop_least.
  - eapply Rle_trans; [apply Rabs_pos|apply (H 0)].
  - intros k L. rewrite Nat.add_0_l. set (x := nth k s 0). assert (I : 0 <= x <= 1) by (apply hs, nth_In; auto).
    assert (Ux : forall t, 0 <= t <= 1 -> uniform_cdf t = t).
    { intros t Ht. unfold uniform_cdf. rewrite Rmin_right by lra. apply Rmax_right. lra. }
    split.
    + specialize (H x). rewrite Ux in H by auto.
      assert (C : (k < count_le x s)%nat) by (apply (count_sorted x s k ss L); unfold x; lra).
      assert (E : (INR k + 1) / n <= empirical_cdf s x).
      { unfold empirical_cdf. fold n. apply Rmult_le_compat_r; [left; apply Rinv_0_lt_compat; auto|].
        rewrite <- S_INR. apply le_INR. lia. }
      pose proof (Rle_abs (empirical_cdf s x - x)). lra.
    + (* t below x *)
      apply Rnot_lt_le. intros C. assert (X : 0 < x).
      { assert (0 <= INR k / n). { apply Rmult_le_pos; [apply pos_INR|left; apply Rinv_0_lt_compat; auto]. }
        assert (0 <= b). { eapply Rle_trans; [apply Rabs_pos|apply (H 0)]. } lra. }
      set (g := x - INR k / n - b) in *. set (t := Rmax 0 (x - g / 2)).
      assert (T : 0 <= t < x). { unfold t. split; [apply Rmax_l|]. apply Rmax_lub_lt; unfold g; lra. }
      assert (T' : x - g / 2 <= t) by apply Rmax_r.
      specialize (H t). rewrite Ux in H by lra.
      assert (K : (count_le t s <= k)%nat).
      { destruct (le_lt_dec (count_le t s) k); auto. apply (count_sorted t s k ss L) in l. fold x in l. lra. }
      assert (E : empirical_cdf s t <= INR k / n).
      { unfold empirical_cdf. fold n. apply Rmult_le_compat_r; [left; apply Rinv_0_lt_compat; auto|]. apply le_INR. auto. }
      pose proof (Rle_abs (- (empirical_cdf s t - t))) as A. rewrite Rabs_Ropp in A. unfold g in *. lra.
Qed.
End Sorted.

Lemma empirical_perm s s' t : Permutation s s' -> empirical_cdf s t = empirical_cdf s' t.
Proof. intros P. unfold empirical_cdf. rewrite (count_perm t s s' P), (Permutation_length P). auto. Qed.

Lemma ks_lub s : s <> [] -> (forall x, In x s -> 0 <= x <= 1) -> ks_distance s (uniform_ks_test s).
Proof.
  intros ne H. pose proof (sort_perm s) as P. pose proof (sort_sorted s) as S. unfold uniform_ks_test.
  assert (H' : forall x, In x (std_sort s) -> 0 <= x <= 1) by (intros x Ix; apply H; eapply Permutation_in; [symmetry; exact P|auto]).
  assert (L : (0 < length (std_sort s))%nat). { rewrite <- (Permutation_length P). destruct s; [congruence|simpl; lia]. }
  split.
  - intros v [t ->]. rewrite (empirical_perm _ _ t P). apply below; auto.
  - intros b B. apply least; auto. intros t. rewrite <- (empirical_perm _ _ t P). apply B. exists t. auto.
Qed.
Lemma ks_perm s s' : Permutation s s' -> uniform_ks_test s = uniform_ks_test s'.
Proof. intros P. unfold uniform_ks_test. rewrite (sort_of_perm s s' P). auto. Qed.
Lemma ks_bounds s : s <> [] -> (forall x, In x s -> 0 <= x <= 1) -> / (2 * INR (length s)) <= uniform_ks_test s <= 1.
Proof.
  intros ne H. pose proof (sort_perm s) as P. pose proof (Permutation_length P) as Lp. unfold uniform_ks_test.
  assert (H' : forall x, In x (std_sort s) -> 0 <= x <= 1) by (intros x Ix; apply H; eapply Permutation_in; [symmetry; exact P|auto]).
  assert (L : (0 < length (std_sort s))%nat). { rewrite <- Lp. destruct s; [congruence|simpl; lia]. }
  rewrite Lp. set (n := length (std_sort s)) in *. assert (N : 0 < INR n) by (apply lt_0_INR; auto).
  split.
  - pose proof (loop_upper (INR n) 0 0 (std_sort s) 0 L) as [A B]. simpl in A, B. rewrite Rinv_mult_distr by lra.
    unfold Rdiv in A, B. rewrite Rmult_0_l in B. lra.
  - apply loop_least; [lra|]. intros k K. rewrite Nat.add_0_l. assert (I : 0 <= nth k (std_sort s) 0 <= 1) by (apply H', nth_In; auto).
    assert (0 <= INR k / INR n). { apply Rmult_le_pos; [apply pos_INR|left; apply Rinv_0_lt_compat; auto]. }
    assert ((INR k + 1) / INR n <= 1). { apply Rmult_le_reg_r with (INR n); auto. unfold Rdiv. rewrite Rmult_assoc, Rinv_l by lra.
      rewrite <- S_INR, Rmult_1_r, Rmult_1_l. apply le_INR. lia. }
    lra.
Qed.

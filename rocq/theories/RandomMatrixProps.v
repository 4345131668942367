(* Property C87 of properties.jsonl: random_sparse_matrix. *)
From Coq Require Import QArith Qround.
From Verif Require Import Base RandomMatrixModel RandomMatrixSpec RandomMatrixProofs.
Open Scope nat_scope.

Section Props.
Context {G V : Type}.
Variable uniform : Z -> Z -> G -> Z * G.
Variable uniform_real : V -> V -> G -> V * G.
Variable le : V -> V -> bool.
Variable zero : V.
Variable plus : V -> V -> V.
Hypothesis I : in_range uniform uniform_real le.
Hypothesis plus_zero : forall v, plus zero v = v.

(* exactly floor(rows cols fill) entries, at different positions inside the matrix, each with the value drawn for it, between the
   bounds; every other entry is zero *)
Theorem C87_sparse : forall fuel rows cols fill lo hi g ts g', (0 <= fill)%Q ->
  random_sparse_matrix uniform uniform_real le fuel rows cols fill lo hi g = Some (Ok (ts, g')) ->
  Z.of_nat (length ts) = Qfloor (inject_Z rows * inject_Z cols * fill) /\ NoDup (map fst ts) /\
  (forall r c v, In (r, c, v) ts -> (0 <= r < rows)%Z /\ (0 <= c < cols)%Z /\ le lo v = true /\ le v hi = true /\
     entry zero plus ts r c = v) /\
  (forall r c, ~ In (r, c) (map fst ts) -> entry zero plus ts r c = zero).
Proof.
  intros fuel rows cols fill lo hi g ts g' F. unfold random_sparse_matrix.
  destruct (le lo hi) eqn:L; [|discriminate]. destruct (Z.ltb_spec rows 1); [discriminate|].
  destruct (Z.ltb_spec cols 1); [discriminate|]. cbn [negb orb]. unfold to_size.
  assert (P : (0 <= inject_Z rows * (inject_Z cols * fill))%Q).
  { apply Qmult_le_0_compat; [|apply Qmult_le_0_compat; [|exact F]]; unfold Qle; cbn; lia. }
  destruct (Qle_bool _ _) eqn:N; [discriminate|].
  destruct (triplets _ _ _ _ _ _ _ _ _ _) as [[ts1 g1]|] eqn:T; [|discriminate]. intros E. injection E as -> ->.
  destruct (triplets_spec uniform uniform_real le I _ _ _ _ _ _ _ _ _ _ H H0 L T) as (Ln & Fa & Nd & _).
  split; [|split; [|split]].
  - rewrite Ln, Z2Nat.id; [apply Qfloor_comp; ring|]. rewrite <- (Qfloor_Z 0). now apply Qfloor_resp_le.
  - eapply NoDup_positions; eassumption.
  - intros r c v X. rewrite Forall_forall in Fa. specialize (Fa _ X). cbn in Fa. destruct Fa as (A & B & C & D).
    repeat split; try tauto; try lia. apply entry_in; auto. eapply NoDup_positions; eassumption.
  - intros r c X. apply entry_out; auto.
Qed.

(* it returns when no more elements are requested than the matrix has, provided every position keeps being drawn *)
Theorem C87_sparse_returns : forall rows cols fill lo hi g,
  (1 <= rows)%Z -> (1 <= cols)%Z -> (0 <= fill <= 1)%Q -> le lo hi = true -> fair uniform rows cols ->
  exists fuel ts g', random_sparse_matrix uniform uniform_real le fuel rows cols fill lo hi g = Some (Ok (ts, g')).
Proof.
  intros rows cols fill lo hi g Hr Hc [F0 F1] L Fr.
  assert (P : (0 <= inject_Z rows * (inject_Z cols * fill))%Q).
  { apply Qmult_le_0_compat; [|apply Qmult_le_0_compat; [|exact F0]]; unfold Qle; cbn; lia. }
  assert (P1 : (inject_Z rows * (inject_Z cols * fill) <= inject_Z (rows * cols))%Q).
  { rewrite inject_Z_mult. rewrite Qmult_assoc. rewrite <- (Qmult_1_r (inject_Z rows * inject_Z cols)) at 2.
    rewrite Qmult_comm, (Qmult_comm _ 1). apply Qmult_le_compat_r; auto. rewrite <- inject_Z_mult. unfold Qle; cbn; nia. }
  set (x := (inject_Z rows * (inject_Z cols * fill))%Q) in *.
  destruct (triplets_return uniform uniform_real rows cols lo hi Hr Hc Fr (Z.to_nat (Qfloor x)) [] g) as (fuel & [ts g'] & T).
  { cbn [length]. rewrite Nat.add_0_r, Z2Nat.id.
    - rewrite <- (Qfloor_Z (rows * cols)). now apply Qfloor_resp_le.
    - rewrite <- (Qfloor_Z 0). now apply Qfloor_resp_le. }
  exists fuel, ts, g'. unfold random_sparse_matrix. rewrite L. destruct (Z.ltb_spec rows 1); [lia|].
  destruct (Z.ltb_spec cols 1); [lia|]. cbn [negb orb]. fold x. unfold to_size. destruct (Qle_bool x (- (1))) eqn:N.
  - apply Qle_bool_iff in N. exfalso. apply (Qlt_not_le (-(1)) 0); [reflexivity|]. eapply Qle_trans; eassumption.
  - now rewrite T.
Qed.

(* when more are requested it never returns, whatever is drawn *)
Theorem C87_sparse_endless : forall fuel rows cols fill lo hi g,
  (1 <= rows)%Z -> (1 <= cols)%Z -> le lo hi = true -> (rows * cols < Qfloor (inject_Z rows * inject_Z cols * fill))%Z ->
  random_sparse_matrix uniform uniform_real le fuel rows cols fill lo hi g = None.
Proof.
  intros fuel rows cols fill lo hi g Hr Hc L F. unfold random_sparse_matrix. rewrite L.
  destruct (Z.ltb_spec rows 1); [lia|]. destruct (Z.ltb_spec cols 1); [lia|]. cbn [negb orb].
  assert (E : Qfloor (inject_Z rows * (inject_Z cols * fill)) = Qfloor (inject_Z rows * inject_Z cols * fill)) by (apply Qfloor_comp; ring).
  set (x := (inject_Z rows * (inject_Z cols * fill))%Q) in *. unfold to_size. destruct (Qle_bool x (- (1))) eqn:N.
  - apply Qle_bool_iff in N. apply Qfloor_resp_le in N. change (Qfloor (- (1))) with (-1)%Z in N. nia.
  - destruct (triplets _ _ _ _ _ _ _ _ _ _) as [[ts g']|] eqn:T; [|reflexivity]. exfalso.
    pose proof (triplets_room uniform uniform_real le I _ _ _ _ _ _ _ _ _ _ Hr Hc L (NoDup_nil _) (Forall_nil _) T) as R.
    cbn [length] in R. rewrite Nat.add_0_r, Z2Nat.id in R by nia. lia.
Qed.
End Props.
Print Assumptions C87_sparse.
Print Assumptions C87_sparse_returns.
Print Assumptions C87_sparse_endless.

(* finding: a matrix without rows or columns has nothing to draw, but the empty ranges [0, -1] of the distributions are undefined *)
Theorem C87_sparse_empty_refuted : forall (G V : Type) uniform uniform_real le fuel rows cols fill (lo hi : V) (g : G),
  (rows <= 0)%Z \/ (cols <= 0)%Z ->
  random_sparse_matrix uniform uniform_real le fuel rows cols fill lo hi g = Some UB.
Proof.
  intros. unfold random_sparse_matrix. destruct (Z.ltb_spec rows 1), (Z.ltb_spec cols 1); try lia; rewrite ?orb_true_r; reflexivity.
Qed.
Print Assumptions C87_sparse_empty_refuted.

(* an engine counting up: values are the count modulo the width of the range *)
Definition count_uniform (lo hi : Z) (g : Z) : Z * Z := ((lo + g mod (hi - lo + 1))%Z, (g + 1)%Z).
Definition count_real (lo hi : Z) (g : Z) : Z * Z := (lo, g).
Example C87_meets : in_range count_uniform count_real Z.leb /\
  random_sparse_matrix count_uniform count_real Z.leb 10 2 3 (1 # 2) 5%Z 7%Z 0%Z = Some (Ok ([(0, 1, 5); (0, 0, 5); (0, 2, 5)]%Z, 6%Z)) /\
  (2 * 3 < Qfloor (inject_Z 2 * inject_Z 3 * (4 # 3)))%Z.
Proof.
  split; [|split; reflexivity]. split; unfold count_uniform, count_real; cbn [fst].
  - intros lo hi g L. pose proof (Z.mod_pos_bound g (hi - lo + 1) ltac:(lia)). lia.
  - intros lo hi g L. rewrite L. split; [apply Z.leb_refl|reflexivity].
Qed.
(* the positions drawn by it for a matrix of coprime sizes: every one in turn *)
Lemma count_kth rows cols k g : kth_pair count_uniform rows cols k g =
  (((g + 2 * Z.of_nat k) mod rows)%Z, ((g + 2 * Z.of_nat k + 1) mod cols)%Z).
Proof.
  revert g. induction k; intros g; cbn [kth_pair count_uniform].
  - f_equal; (rewrite Z.add_0_l; f_equal; lia).
  - rewrite IHk. f_equal; f_equal; lia.
Qed.
Example C87_meets_fair : fair count_uniform 1 3.
Proof.
  intros g r c R C. assert (r = 0)%Z as -> by lia.
  exists (Z.to_nat ((2 * (c - g - 1)) mod 3)). rewrite count_kth, Z.mod_1_r. f_equal.
  pose proof (Z.mod_pos_bound (2 * (c - g - 1)) 3 ltac:(lia)). rewrite Z2Nat.id by lia.
  pose proof (Z.div_mod (2 * (c - g - 1)) 3 ltac:(lia)) as D. set (q := (2 * (c - g - 1) / 3)%Z) in *.
  set (m := ((2 * (c - g - 1)) mod 3)%Z) in *.
  symmetry. apply (Z.mod_unique _ _ (c - g - 1 - 2 * q)%Z); lia.
Qed.

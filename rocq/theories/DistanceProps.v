(* C64: distances. *)
From Coq Require Import Reals Lra Psatz.
From Verif Require Import Base BaseProofs ExtRealModel DistanceModel DistanceSpec DistanceProofs.
Local Open Scope R_scope.

Lemma inner_sp x : forall y, inner x y = sum_products x y.
Proof. induction x as [|a x IH]; intros [|b y]; simpl; auto. unfold inner in *. simpl. rewrite IH. auto. Qed.
Lemma len_norm x : len x = norm x.
Proof. unfold len, norm. rewrite inner_sp. auto. Qed.
Lemma differences_total x : forall y, length x = length y ->
  sum_products (differences x y) (differences x y) = total (map (fun p => (fst p - snd p) ^ 2) (combine x y)).
Proof. induction x as [|a x IH]; intros [|b y] H; simpl in *; try discriminate; auto. rewrite IH by lia. ring. Qed.

(* the distance of two numbers *)
Theorem C64_scalar : distance_on (fun _ => True) eq euclidean_scalar /\
  forall x y, euclidean_scalar x y = Ok (XFin (Rabs (x - y))).
Proof.
  split; [split|auto].
  - intros x y _ _. exists (Rabs (x - y)). unfold euclidean_scalar. rewrite (Rabs_minus_sym y x).
    repeat split; auto using Rabs_pos.
    + intros E. destruct (Req_dec (x - y) 0) as [|N]; [lra|]. apply Rabs_no_R0 in N. lra.
    + intros ->. rewrite Rminus_diag_eq, Rabs_R0; auto.
  - unfold euclidean_scalar. intros x y z a b c _ _ _ E1 E2 E3. injection E1 as <-. injection E2 as <-. injection E3 as <-.
    replace (x - z) with ((x - y) + (y - z)) by ring. apply Rabs_triang.
Qed.
Print Assumptions C64_scalar.

(* the Euclidean distance of vectors of the same size *)
Theorem C64_euclidean (n : nat) : distance_on (fun x => length x = n) eq euclidean_distance.
Proof.
  split.
  - intros x y <- H. symmetry in H. exists (norm (differences x y)). rewrite !euclidean_ok by auto.
    assert (S : norm (differences y x) = norm (differences x y)).
    { unfold norm. rewrite differences_sym; auto. }
    rewrite S. repeat split; auto using norm_ge0.
    + intros Z. apply norm_0, differences_0 in Z; auto.
    + intros ->. apply norm_0, differences_0; auto.
  - intros x y z a b c Hx Hy Hz E1 E2 E3. rewrite !euclidean_ok in * by congruence.
    injection E1 as <-. injection E2 as <-. injection E3 as <-. apply norm_triangle; congruence.
Qed.
Print Assumptions C64_euclidean.

Theorem C64_euclidean_value (x y : list R) :
  euclidean_distance x y =
  if (length x =? length y)%nat
  then Ok (XFin (sqrt (total (map (fun p => (fst p - snd p) ^ 2) (combine x y))))) else Abort.
Proof.
  destruct (Nat.eqb_spec (length x) (length y)) as [H|H].
  - rewrite euclidean_ok by auto. unfold norm. rewrite differences_total; auto.
  - apply euclidean_abort; auto.
Qed.
Print Assumptions C64_euclidean_value.

(* the difference of the lengths, of vectors of any sizes *)
Theorem C64_radial : distance_on (fun _ => True) (fun x y => len x = len y) radial_distance /\
  forall x y, radial_distance x y = Ok (XFin (Rabs (len x - len y))).
Proof.
  split; [split|].
  - intros x y _ _. rewrite !len_norm. exists (Rabs (norm x - norm y)). unfold radial_distance.
    rewrite (Rabs_minus_sym (norm y)). repeat split; auto using Rabs_pos.
    + intros E. destruct (Req_dec (norm x - norm y) 0) as [|N]; [lra|]. apply Rabs_no_R0 in N. lra.
    + intros ->. rewrite Rminus_diag_eq, Rabs_R0; auto.
  - unfold radial_distance. intros x y z a b c _ _ _ E1 E2 E3. injection E1 as <-. injection E2 as <-. injection E3 as <-.
    replace (norm x - norm z) with ((norm x - norm y) + (norm y - norm z)) by ring. apply Rabs_triang.
  - intros. rewrite !len_norm. auto.
Qed.
Print Assumptions C64_radial.

(* the angle of nonzero vectors: theta, except for angles whose cosine is within 1e-16 of 1 or -1, which are
   0 and PI *)
Theorem C64_angular (x y : list R) : length x = length y -> nonzero x -> nonzero y ->
  exists theta, 0 <= theta <= PI /\ inner x y = len x * len y * cos theta /\
    exists v, angular_distance x y = Ok (XFin v) /\ angular_distance y x = Ok (XFin v) /\
      0 <= v <= PI /\
      (-1 + / 10 ^ 16 <= cos theta <= 1 - / 10 ^ 16 -> v = theta) /\
      (1 - / 10 ^ 16 < cos theta -> v = 0) /\
      (cos theta < -1 + / 10 ^ 16 -> v = PI) /\
      (x = y -> v = 0).
Proof.
  intros H Hx Hy. apply norm_pos in Hx, Hy. rewrite inner_sp, !len_norm.
  set (c := sum_products x y / (norm x * norm y)).
  assert (B : -1 <= c <= 1) by (apply cosine_bound; auto).
  assert (C : cos (acos c) = c) by (apply cos_acos; auto).
  assert (E0 : 0 < / 10 ^ 16) by (apply Rinv_0_lt_compat, pow_lt; lra).
  assert (E1 : / 10 ^ 16 < 1) by (rewrite <- Rinv_1; apply Rinv_lt_contravar; simpl; lra).
  exists (acos c). pose proof (acos_bound c) as A. pose proof PI_RGT_0.
  split; [auto|split; [rewrite C; unfold c; field; split; lra|]].
  eexists. rewrite (angular_eq x y), (angular_eq y x) by auto.
  rewrite (sp_comm y x), (Rmult_comm (norm y)). fold c. split; [reflexivity|split; [reflexivity|]].
  rewrite C. unfold EPSILON.
  destruct (Rltb (1 - / 10 ^ 16) c) eqn:L1.
  - apply Rltb_true in L1. repeat split; intros; try lra; auto.
  - apply Rltb_false in L1. destruct (Rltb c (-1 + / 10 ^ 16)) eqn:L2.
    + apply Rltb_true in L2. repeat split; intros; try lra; auto.
      exfalso. subst y. unfold c in L2. rewrite norm_sq in L2. unfold Rdiv in L2. rewrite Rinv_r in L2; [lra|].
      rewrite <- norm_sq. nra.
    + apply Rltb_false in L2. repeat split; intros; try lra; auto.
      exfalso. subst y. unfold c in L1. rewrite norm_sq in L1. unfold Rdiv in L1. rewrite Rinv_r in L1; [lra|].
      rewrite <- norm_sq. nra.
Qed.
Print Assumptions C64_angular.
Example C64_angular_meets : length [1; 0] = length [1; 1] /\ nonzero [1; 0] /\ nonzero [1; 1].
Proof. repeat split; constructor; lra. Qed.

(* vectors of different sizes fail an assertion *)
Theorem C64_size_mismatch (x y : list R) : length x <> length y ->
  euclidean_distance x y = Abort /\ angular_distance x y = Abort.
Proof.
  intros H. split; [apply euclidean_abort; auto|].
  unfold angular_distance, dot, assert_then. apply Nat.eqb_neq in H. rewrite H. auto.
Qed.
Print Assumptions C64_size_mismatch.

(* the angle of the zero vector with itself is NaN, not 0 *)
Theorem C64_angular_zero_refuted (x y : list R) : length x = length y -> ~ nonzero x \/ ~ nonzero y ->
  angular_distance x y = Ok XNaN.
Proof.
  intros H Z. apply angular_zero; auto.
  assert (N : forall v, ~ nonzero v -> norm v = 0).
  { intros v Nz. apply norm_0, Forall_forall. intros a I. destruct (Req_dec a 0); auto.
    exfalso. apply Nz, Exists_exists. eauto. }
  destruct Z; auto.
Qed.
Print Assumptions C64_angular_zero_refuted.
Example C64_angular_zero_meets : ~ nonzero [0; 0].
Proof. intros H. inversion H as [? ? N|? ? N]; subst; [lra|]. inversion N as [? ? M|? ? M]; subst; [lra|inversion M]. Qed.

(* angular_distance violates the triangle inequality: (1, 0) and (1, 1e-9) are at distance 0 but their
   distances to (0, 1) differ *)
Section Triangle.
Let e := / 10 ^ 9.
Lemma e_pos : 0 < e < / 2.
Proof.
  unfold e. split; [apply Rinv_0_lt_compat, pow_lt; lra|].
  apply Rinv_lt_contravar; simpl; lra.
Qed.
Lemma e_sq : e * e < / 10 ^ 16.
Proof. unfold e. rewrite <- Rinv_mult. apply Rinv_lt_contravar; [apply Rmult_lt_0_compat|]; try (apply pow_lt; lra); simpl; lra. Qed.
Lemma norm_1 : norm [1; 0] = 1.
Proof. unfold norm. simpl. replace (1 * 1 + (0 * 0 + 0)) with 1 by ring. apply sqrt_1. Qed.
Lemma norm_3 : norm [0; 1] = 1.
Proof. unfold norm. simpl. replace (0 * 0 + (1 * 1 + 0)) with 1 by ring. apply sqrt_1. Qed.
Lemma norm_2 : 1 <= norm [1; e] <= 1 + e * e.
Proof.
  unfold norm. simpl. replace (1 * 1 + (e * e + 0)) with (1 + e * e) by ring.
  pose proof e_pos. split.
  - rewrite <- sqrt_1 at 1. apply sqrt_le_1_alt. nra.
  - rewrite <- (sqrt_Rsqr (1 + e * e)) at 2 by nra. apply sqrt_le_1_alt. unfold Rsqr. nra.
Qed.
Lemma d12 : angular_distance [1; 0] [1; e] = Ok (XFin 0).
Proof.
  pose proof norm_2. pose proof e_pos. pose proof e_sq.
  rewrite angular_eq; auto; rewrite ?norm_1; try lra.
  rewrite (proj2 (Rltb_true _ _)); auto. unfold EPSILON. simpl sum_products.
  apply (Rmult_lt_reg_r (1 * norm [1; e])); [lra|]. unfold Rdiv. rewrite Rmult_assoc, Rinv_l by lra. nra.
Qed.
Lemma eps_small : / 10 ^ 16 < / 2.
Proof. apply Rinv_lt_contravar; simpl; lra. Qed.
Lemma d13 : angular_distance [1; 0] [0; 1] = Ok (XFin (PI / 2)).
Proof.
  pose proof eps_small. rewrite angular_eq; auto; rewrite ?norm_1, ?norm_3; try lra.
  simpl sum_products. replace ((1 * 0 + (0 * 1 + 0)) / (1 * 1)) with 0 by field. unfold EPSILON.
  rewrite !(proj2 (Rltb_false _ _)) by lra. rewrite acos_0. auto.
Qed.
Lemma d23 : exists v, angular_distance [1; e] [0; 1] = Ok (XFin v) /\ 0 <= v < PI / 2.
Proof.
  pose proof norm_2. pose proof e_pos. pose proof eps_small. rewrite angular_eq; auto; rewrite ?norm_3; try lra.
  simpl sum_products. set (c := (1 * 0 + (e * 1 + 0)) / (norm [1; e] * 1)).
  assert (C : 0 < c < / 2).
  { unfold c. split.
    - apply Rmult_lt_0_compat; [lra|apply Rinv_0_lt_compat; lra].
    - apply (Rmult_lt_reg_r (norm [1; e] * 1)); [lra|]. unfold Rdiv. rewrite Rmult_assoc, Rinv_l by lra. nra. }
  unfold EPSILON. rewrite !(proj2 (Rltb_false _ _)) by lra. eexists. split; [reflexivity|].
  pose proof (acos_bound c). split; [lra|].
  destruct (Rlt_or_le (acos c) (PI / 2)) as [|L]; auto. exfalso.
  assert (cos (acos c) <= 0) by (apply cos_le_0; pose proof PI_RGT_0; lra).
  rewrite cos_acos in H3; lra.
Qed.
End Triangle.
(* finding: the clamp of small angles breaks the triangle inequality *)
Theorem C64_angular_triangle_refuted : exists x y z a b c, nonzero x /\ nonzero y /\ nonzero z /\
  angular_distance x z = Ok (XFin a) /\ angular_distance x y = Ok (XFin b) /\ angular_distance y z = Ok (XFin c) /\
  b + c < a.
Proof.
  destruct d23 as [v [E V]]. pose proof e_pos.
  exists [1; 0], [1; / 10 ^ 9], [0; 1], (PI / 2), 0, v.
  repeat split; auto using d12, d13; try lra.
  - constructor. lra.
  - constructor. lra.
  - apply Exists_cons_tl. constructor. lra.
Qed.
Print Assumptions C64_angular_triangle_refuted.

(* distance_matrix is the table of the distances; entries (i, j) and (j, i) are the same call, and no other
   entry is written *)
Theorem C64_distance_matrix {X V} (metric : X -> X -> outcome V) (xs : list X) :
  (forall D, distance_matrix metric xs = Ok D ->
     forall i j, match nth_error xs (Nat.max i j), nth_error xs (Nat.min i j) with
                 | Some x, Some y => exists d, metric x y = Ok d /\ read D i j = Some d
                 | _, _ => read D i j = None
                 end) /\
  ((exists D, distance_matrix metric xs = Ok D) <->
   forall i j x y, (j <= i)%nat -> nth_error xs i = Some x -> nth_error xs j = Some y -> exists d, metric x y = Ok d).
Proof.
  assert (A : forall D, distance_matrix metric xs = Ok D ->
     forall i j, match nth_error xs (Nat.max i j), nth_error xs (Nat.min i j) with
                 | Some x, Some y => exists d, metric x y = Ok d /\ read D i j = Some d
                 | _, _ => read D i j = None
                 end).
  { intros D E i j. destruct (distance_matrix_table metric xs D E i j) as [T1 T2].
    destruct (nth_error xs (Nat.max i j)) as [x|] eqn:Ex.
    - assert (L : (Nat.max i j < length xs)%nat) by (apply nth_error_Some; congruence).
      destruct T1 as (x' & y & d & E1 & E2 & E3 & E4); [lia|].
      injection E1 as <-. rewrite E2. eauto.
    - apply T2. intros [_ L]. apply nth_error_None in Ex. lia. }
  split; [exact A|split].
  - intros [D E] i j x y L Ex Ey. pose proof (A D E i j) as H.
    rewrite Nat.max_l, Nat.min_r, Ex, Ey in H by auto. destruct H as [d [H _]]. eauto.
  - intros H. apply distance_matrix_ok. intros i j x y L Ex Ey.
    destruct (H i j x y L Ex Ey) as [d ->]. auto.
Qed.
Print Assumptions C64_distance_matrix.
Example C64_distance_matrix_meets : exists D, distance_matrix euclidean_scalar [1; 3; 6] = Ok D /\
  read D 0 2 = Some (XFin (Rabs (6 - 1))) /\ read D 2 0 = Some (XFin (Rabs (6 - 1))).
Proof. eexists. split; [reflexivity|]. split; reflexivity. Qed.

(* Lemmas on the values of the angular distance, for C94. *)
From Coq Require Import Reals Lra Psatz.
From Verif Require Import Base BaseProofs ExtRealModel DistanceModel DistanceSpec DistanceProofs DistanceProps
  RadialModel RadialSpec RadialProofs AngularSpec.
Local Open Scope R_scope.

Lemma cos_near d : d = 3 / 10 ^ 8 -> cos d < 1 - / 10 ^ 16.
Proof.
  intros ->. destruct (pre_cos_bound (3 / 10 ^ 8) 0) as [_ h]; try lra.
  refine (Rle_lt_trans _ _ _ h _). unfold cos_approx, cos_term. simpl. lra.
Qed.
Lemma acos_near c : 1 - / 10 ^ 16 < c <= 1 -> Rabs (0 - acos c) <= 3 / 10 ^ 8.
Proof.
  intros [h h1]. pose proof (acos_bound c) as B. rewrite Rabs_left1 by lra.
  destruct (Rle_dec (acos c) (3 / 10 ^ 8)) as [|N]; [lra|]. exfalso.
  assert (P := PI2_3_2). assert (cos (acos c) < cos (3 / 10 ^ 8)) as L by (apply cos_decreasing_1; lra).
  rewrite cos_acos in L by lra. pose proof (cos_near _ eq_refl). lra.
Qed.
Lemma acos_far c : -1 <= c < -1 + / 10 ^ 16 -> Rabs (PI - acos c) <= 3 / 10 ^ 8.
Proof.
  intros h. replace (PI - acos c) with (- (0 - acos (- c))) by (rewrite acos_opp; ring).
  rewrite Rabs_Ropp. apply acos_near. lra.
Qed.

Definition angle (x y : list R) : R :=
  let c := cosine x y in
  if Rltb (1 - EPSILON) c then 0 else if Rltb c (-1 + EPSILON) then PI else acos c.
Lemma angle_ok x y : length x = length y -> nonzero x -> nonzero y -> angular_distance x y = Ok (XFin (angle x y)).
Proof. intros h hx hy. rewrite angular_eq by auto using norm_pos. unfold angle, cosine. rewrite inner_sp, !len_norm. auto. Qed.
Lemma cosine_range x y : length x = length y -> nonzero x -> nonzero y -> -1 <= cosine x y <= 1.
Proof. intros. unfold cosine. rewrite inner_sp, !len_norm. apply cosine_bound; auto using norm_pos. Qed.
Lemma cosine_self x : nonzero x -> cosine x x = 1.
Proof. intros h. apply norm_pos in h. unfold cosine. rewrite inner_sp, len_norm, <- norm_sq. field. lra. Qed.
Lemma cosine_sym x y : cosine x y = cosine y x.
Proof. unfold cosine. rewrite !inner_sp, (sp_comm x), (Rmult_comm (len x)). auto. Qed.
Lemma angle_sym x y : angle x y = angle y x.
Proof. unfold angle. rewrite (cosine_sym x). auto. Qed.
Lemma angle_ge0 x y : 0 <= angle x y.
Proof.
  unfold angle. destruct (Rltb _ _); [lra|]. destruct (Rltb _ _); [pose proof PI_RGT_0; lra|]. apply acos_bound.
Qed.
Lemma eps_pos : 0 < EPSILON. Proof. unfold EPSILON. apply Rinv_0_lt_compat, pow_lt; lra. Qed.
Lemma angle_self x : nonzero x -> angle x x = 0.
Proof. intros h. unfold angle. rewrite cosine_self by auto. rewrite (proj2 (Rltb_true _ _)); auto. pose proof eps_pos. lra. Qed.
Lemma angle_resolved x y : resolved x y -> angle x y = acos (cosine x y).
Proof.
  assert (E := eps_pos). assert (E1 : EPSILON < / 10) by (unfold EPSILON; lra).
  unfold resolved, angle. fold EPSILON. intros [->|[->|h]].
  - rewrite (proj2 (Rltb_true _ _)) by lra. rewrite acos_1. auto.
  - rewrite (proj2 (Rltb_false _ _)) by lra. rewrite (proj2 (Rltb_true _ _)) by lra. replace (-1) with (- (1)) by ring. rewrite acos_opp, acos_1. ring.
  - rewrite !(proj2 (Rltb_false _ _)) by lra. auto.
Qed.
Lemma angle_near x y : -1 <= cosine x y <= 1 -> Rabs (angle x y - acos (cosine x y)) <= 3 / 10 ^ 8.
Proof.
  unfold angle. cbv zeta. intros h. destruct (Rltb (1 - EPSILON) (cosine x y)) eqn:L.
  { apply Rltb_true in L. apply acos_near. unfold EPSILON in L. lra. }
  destruct (Rltb (cosine x y) (-1 + EPSILON)) eqn:L'.
  { apply Rltb_true in L'. apply acos_far. unfold EPSILON in L'. lra. }
  rewrite Rminus_diag_eq, Rabs_R0 by auto. lra.
Qed.
Lemma exp_lip a b : 0 <= a -> 0 <= b -> Rabs (exp (- a) - exp (- b)) <= Rabs (a - b).
Proof.
  assert (G : forall a b, 0 <= a -> a <= b -> 0 <= exp (- a) - exp (- b) <= b - a).
  { intros x y h h'. assert (M : exp (- y) = exp (- x) * exp (- (y - x))) by (rewrite <- exp_plus; f_equal; ring).
    assert (U : 1 + - (y - x) <= exp (- (y - x))) by apply exp_ineq1_le.
    assert (V : exp (- (y - x)) <= 1) by (rewrite <- exp_0; destruct (Req_dec x y); [subst; right; f_equal; ring|left; apply exp_increasing; lra]).
    assert (W : exp (- x) <= 1) by (rewrite <- exp_0; destruct (Req_dec x 0); [subst; right; f_equal; ring|left; apply exp_increasing; lra]).
    pose proof (exp_pos (- x)). rewrite M. nra. }
  intros ha hb. destruct (Rle_dec a b) as [h|h].
  - destruct (G a b); try lra. rewrite Rabs_pos_eq, Rabs_left1 by lra. lra.
  - destruct (G b a); try lra. rewrite Rabs_left1, Rabs_pos_eq by lra. lra.
Qed.

(* ---- four directions of the plane ---- *)
Definition turn (k : nat) : list R := nth k [[1; 0]; [0; 1]; [-1; 0]; [0; -1]] [].
Lemma turn_props k : (k < 4)%nat -> length (turn k) = 2%nat /\ nonzero (turn k) /\ len (turn k) = 1.
Proof.
  assert (S : sqrt 1 = 1) by apply sqrt_1.
  intros h. split; [|split].
  - do 4 (destruct k as [|k]; [reflexivity|]); lia.
  - do 4 (destruct k as [|k]; [simpl; (left; lra) || (right; left; lra)|]); lia.
  - do 4 (destruct k as [|k]; [unfold len, inner; simpl; refine (eq_trans _ S); f_equal; ring|]); lia.
Qed.
Lemma cosine_turn i j : (i < 4)%nat -> (j < 4)%nat -> cosine (turn i) (turn j) =
  if (i =? j)%nat then 1 else if (Nat.odd (i + j)) then 0 else -1.
Proof.
  intros hi hj. unfold cosine. rewrite (proj2 (proj2 (turn_props i hi))), (proj2 (proj2 (turn_props j hj))).
  do 4 (destruct i as [|i]; [do 4 (destruct j as [|j]; [unfold inner; simpl; field|]); lia|]); lia.
Qed.
Lemma angle_turn i j : (i < 4)%nat -> (j < 4)%nat -> angle (turn i) (turn j) =
  if (i =? j)%nat then 0 else if (Nat.odd (i + j)) then PI / 2 else PI.
Proof.
  assert (E := eps_pos). assert (E1 : EPSILON < / 10) by (unfold EPSILON; lra).
  intros hi hj. rewrite angle_resolved; rewrite ?cosine_turn by auto.
  - destruct (_ =? _)%nat; [apply acos_1|]. destruct (Nat.odd _); [apply acos_0|]. replace (-1) with (- (1)) by ring. rewrite acos_opp, acos_1. ring.
  - unfold resolved. rewrite cosine_turn by auto. destruct (_ =? _)%nat; auto. destruct (Nat.odd _); auto. right; right.
    unfold EPSILON in *. lra.
Qed.

(* the quarter turn is [unit s] *)
Definition unit (s : shape) : R :=
  match s with
  | SquaredExponential | Exponential => PI
  | Matern32 => sqrt 3 * PI
  | Matern52 => sqrt 5 * PI
  end.
Lemma unit_pos s : 0 < unit s.
Proof. pose proof PI_RGT_0. pose proof sqrt3_pos. pose proof sqrt5_pos. destruct s; simpl; nra. Qed.
Lemma exp_half : 1 / 2 < exp (- (1 / 2)) < 6 / 7.
Proof.
  split.
  - pose proof (exp_ineq1 (- (1 / 2))). lra.
  - rewrite exp_Ropp. assert (h : 1 + 1 / 2 < exp (1 / 2)) by (apply exp_ineq1; lra).
    apply Rle_lt_trans with (/ (3 / 2)); [|lra]. apply Rinv_le_contravar; lra.
Qed.
Lemma smooth_negative s : s <> Exponential -> 1 - 2 * rho s (PI / 2 / unit s) + rho s (PI / unit s) < 0.
Proof.
  assert (P := PI_RGT_0). assert (S3 := sqrt3_pos). assert (S5 := sqrt5_pos). assert (H := exp_half).
  intros N. destruct s; [|congruence| |]; simpl.
  - replace (PI / 2 / PI * (PI / 2 / PI * 1)) with (1 / 4) by (field; lra).
    replace (PI / PI * (PI / PI * 1)) with 1 by (field; lra).
    assert (1 + - (1 / 4) < exp (- (1 / 4))) by (apply exp_ineq1; lra).
    assert (exp (- (1)) < 1 / 2).
    { rewrite exp_Ropp. assert (h : 1 + 1 < exp 1) by (apply exp_ineq1; lra).
      apply Rlt_le_trans with (/ 2); [apply Rinv_lt_contravar; lra|lra]. }
    lra.
  - replace (sqrt 3 * (PI / 2 / (sqrt 3 * PI))) with (1 / 2) by (field; lra).
    replace (sqrt 3 * (PI / (sqrt 3 * PI))) with 1 by (field; lra).
    replace (- (1)) with (- (1 / 2) + - (1 / 2)) by lra. rewrite exp_plus. nra.
  - replace (sqrt 5 * (PI / 2 / (sqrt 5 * PI))) with (1 / 2) by (field; lra).
    replace (sqrt 5 * (PI / (sqrt 5 * PI))) with 1 by (field; lra).
    assert (Q : sqrt 5 * sqrt 5 = 5) by (apply sqrt_sqrt; lra).
    replace (5 * (PI / 2 / (sqrt 5 * PI) * (PI / 2 / (sqrt 5 * PI) * 1))) with (1 / 4)
      by (rewrite <- Q at 1; field; lra).
    replace (5 * (PI / (sqrt 5 * PI) * (PI / (sqrt 5 * PI) * 1))) with 1
      by (rewrite <- Q at 1; field; lra).
    replace (- (1)) with (- (1 / 2) + - (1 / 2)) by lra. rewrite exp_plus. nra.
Qed.

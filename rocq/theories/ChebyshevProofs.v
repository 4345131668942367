From Coq Require Import Reals Lra Psatz.
From Verif Require Import Base BaseProofs ChebyshevModel.
Local Open Scope R_scope.

Section Kind.
(* a sequence of functions with the recurrence *)
Variable P : nat -> R -> R.
Hypothesis rec : forall n x, P (S (S n)) x = 2 * x * P (S n) x - P n x.
Lemma product_minus_map x n : product_minus 2 x (map (P (S n)) x) (map (P n) x) = map (P (S (S n))) x.
Proof.
  induction x as [|a x IH]; auto. cbn [map product_minus]. rewrite IH, rec. auto.
Qed.
Lemma recurrence_map k x : forall n,
  recurrence k x (map (P (S n)) x) (map (P (S n)) x) (map (P n) x) = map (P (k + S n)) x.
Proof.
  induction k as [|k IH]; intros n; auto. cbn [recurrence]. rewrite product_minus_map, IH. f_equal. f_equal. lia.
Qed.
Variables c0 c1 c2 : list R -> list R.
Hypothesis h0 : forall x, c0 x = map (P 0) x.
Hypothesis h1 : forall x, c1 x = map (P 1) x.
Hypothesis h2 : forall x, c2 x = map (P 2) x.

Definition column_table (x : list R) (done : nat) (phi : columns) : Prop :=
  forall i, (i < done)%nat -> nth_error phi i = Some (Some (map (P i) x)).
Lemma write_table x done phi : column_table x done phi -> (done < length phi)%nat ->
  exists phi', write_column phi done (map (P done) x) = Ok phi' /\ column_table x (S done) phi' /\ length phi' = length phi.
Proof.
  intros T L. unfold write_column. rewrite (proj2 (Nat.ltb_lt _ _) L). eexists. split; [reflexivity|].
  split; [|apply set_nth_length]. intros i Hi. destruct (Nat.eq_dec i done) as [->|N].
  - apply nth_error_set_nth_eq. auto.
  - rewrite nth_error_set_nth_neq by auto. apply T. lia.
Qed.
Lemma phi_loop x k : forall done phi, (2 <= done)%nat -> column_table x done phi -> (done + k <= length phi)%nat ->
  exists phi', foldM (phi_step x) (seq done k) phi = Ok phi' /\ column_table x (done + k) phi' /\ length phi' = length phi.
Proof.
  induction k as [|k IH]; intros done phi D T L.
  - exists phi. rewrite Nat.add_0_r. auto.
  - cbn [seq foldM]. unfold phi_step at 1, read_column.
    rewrite (T (done - 1)%nat) by lia. cbn [bind]. rewrite (T (done - 2)%nat) by lia. cbn [bind].
    destruct done as [|[|d]]; try lia. replace (S (S d) - 1)%nat with (S d) by lia.
    replace (S (S d) - 2)%nat with d by lia. rewrite product_minus_map.
    destruct (write_table x (S (S d)) phi T ltac:(lia)) as [phi1 (E & T1 & L1)]. rewrite E. cbn [bind].
    destruct (IH (S (S (S d))) phi1 ltac:(lia) T1 ltac:(lia)) as [phi2 (E2 & T2 & L2)].
    exists phi2. rewrite E2. split; [auto|split; [|lia]]. replace (S (S d) + S k)%nat with (S (S (S d)) + k)%nat by lia. auto.
Qed.
Lemma table_all x m phi : column_table x m phi -> length phi = m -> phi = map (fun k => Some (map (P k) x)) (seq 0 m).
Proof.
  intros T L. apply list_ext. intros i. destruct (Nat.lt_ge_cases i m) as [H|H].
  - rewrite T by auto. rewrite nth_error_map'. rewrite nth_error_nth' with (d := 0%nat) by (rewrite seq_length; auto).
    rewrite seq_nth by auto. auto.
  - rewrite (proj2 (nth_error_None phi i)) by lia. symmetry. apply nth_error_None. rewrite map_length, seq_length. auto.
Qed.
Lemma phi_map x m : chebyshev_phi c0 c1 c2 (Z.of_nat m) x = Ok (map (fun k => Some (map (P k) x)) (seq 0 (S m))).
Proof.
  unfold chebyshev_phi, assert_then. rewrite (proj2 (Z.leb_le _ _)) by lia. rewrite h0, h1, h2.
  replace (Z.to_nat (Z.of_nat m + 1)) with (S m) by lia.
  assert (L : length (@repeat (option (list R)) None (S m)) = S m) by apply repeat_length.
  destruct (write_table x 0 (repeat None (S m))) as [p0 (E0 & T0 & L0)]; [intros i Hi; lia|lia|].
  rewrite E0. cbn [bind]. rewrite L in L0. unfold iterations.
  destruct m as [|[|m]].
  - cbn. f_equal. apply (table_all x 1); auto.
  - destruct (write_table x 1 p0 T0) as [p1 (E1 & T1 & L1)]; [lia|].
    rewrite (proj2 (Z.ltb_lt _ _)) by lia. rewrite E1. cbn [bind].
    rewrite (proj2 (Z.ltb_ge _ _)) by lia. cbn. f_equal. apply (table_all x 2); auto. lia.
  - destruct (write_table x 1 p0 T0) as [p1 (E1 & T1 & L1)]; [lia|].
    rewrite (proj2 (Z.ltb_lt _ _)) by lia. rewrite E1. cbn [bind].
    destruct (write_table x 2 p1 T1) as [p2 (E2 & T2 & L2)]; [lia|].
    rewrite (proj2 (Z.ltb_lt _ _)) by lia. rewrite E2. cbn [bind].
    replace (Z.to_nat _) with m by lia.
    destruct (phi_loop x m 3 p2 ltac:(lia) T2 ltac:(lia)) as [p3 (E3 & T3 & L3)].
    rewrite E3. f_equal. apply (table_all x (S (S (S m)))); auto. lia.
Qed.
End Kind.

(* the polynomials of either kind *)
Fixpoint cheb (first : R -> R) (n : nat) (x : R) : R :=
  match n with
  | O => 1
  | S n' => match n' with O => first x | S n'' => 2 * x * cheb first n' x - cheb first n'' x end
  end.
Definition T := cheb (fun x => x).
Definition U := cheb (fun x => 2 * x).
Lemma cheb_rec f n x : cheb f (S (S n)) x = 2 * x * cheb f (S n) x - cheb f n x.
Proof. reflexivity. Qed.
Lemma t0_map x : chebyshev_t0 x = map (T 0) x. Proof. reflexivity. Qed.
Lemma t1_map x : chebyshev_t1 x = map (T 1) x. Proof. symmetry. apply map_id. Qed.
Lemma t2_map x : chebyshev_t2 x = map (T 2) x.
Proof. unfold chebyshev_t2. induction x as [|a x IH]; simpl in *; auto. rewrite IH. f_equal. Qed.
Lemma u0_map x : chebyshev_u0 x = map (U 0) x. Proof. reflexivity. Qed.
Lemma u1_map x : chebyshev_u1 x = map (U 1) x. Proof. reflexivity. Qed.
Lemma u2_map x : chebyshev_u2 x = map (U 2) x.
Proof. unfold chebyshev_u2. induction x as [|a x IH]; simpl in *; auto. rewrite IH. f_equal. unfold U, cheb. ring. Qed.

Lemma chebyshev_t_map n x : chebyshev_t (Z.of_nat n) x = Ok (map (T n) x).
Proof.
  unfold chebyshev_t, assert_then. rewrite (proj2 (Z.leb_le _ _)) by lia.
  destruct n as [|[|[|n]]]; [auto|cbn; rewrite t1_map; auto|cbn; rewrite t2_map; auto|].
  rewrite !(proj2 (Z.eqb_neq _ _)) by lia. rewrite t1_map, t2_map, (recurrence_map T (cheb_rec _)).
  f_equal. f_equal. f_equal. unfold iterations. lia.
Qed.
Lemma chebyshev_u_map n x : chebyshev_u (Z.of_nat n) x = Ok (map (U n) x).
Proof.
  unfold chebyshev_u, assert_then. rewrite (proj2 (Z.leb_le _ _)) by lia.
  destruct n as [|[|[|n]]]; [auto|cbn; rewrite u1_map; auto|cbn; rewrite u2_map; auto|].
  rewrite !(proj2 (Z.eqb_neq _ _)) by lia. rewrite u1_map, u2_map, (recurrence_map U (cheb_rec _)).
  f_equal. f_equal. f_equal. unfold iterations. lia.
Qed.
Lemma pair_ind (P : nat -> Prop) : P 0%nat -> P 1%nat -> (forall n, P n -> P (S n) -> P (S (S n))) -> forall n, P n.
Proof. intros a b c n. enough (P n /\ P (S n)) by tauto. induction n; split; try tauto. apply c; tauto. Qed.
Lemma T_cos n t : T n (cos t) = cos (INR n * t).
Proof.
  induction n as [| |n IH1 IH2] using pair_ind.
  - unfold T, U; simpl. rewrite Rmult_0_l, cos_0. auto.
  - unfold T, U; simpl. rewrite Rmult_1_l. auto.
  - unfold T in *. rewrite cheb_rec, IH1, IH2, !S_INR.
    replace ((INR n + 1 + 1) * t) with ((INR n + 1) * t + t) by ring.
    replace (INR n * t) with ((INR n + 1) * t - t) by ring. rewrite cos_plus, cos_minus. ring.
Qed.
Lemma U_sin n t : U n (cos t) * sin t = sin ((INR n + 1) * t).
Proof.
  induction n as [| |n IH1 IH2] using pair_ind.
  - unfold T, U; simpl. rewrite Rplus_0_l, !Rmult_1_l. auto.
  - unfold T, U; simpl. replace ((1 + 1) * t) with (t + t) by ring. rewrite sin_plus. ring.
  - unfold U in *. rewrite cheb_rec, Rmult_minus_distr_r, Rmult_assoc, IH1, IH2, !S_INR.
    replace ((INR n + 1 + 1 + 1) * t) with ((INR n + 1 + 1) * t + t) by ring.
    replace ((INR n + 1) * t) with ((INR n + 1 + 1) * t - t) by ring. rewrite sin_plus, sin_minus. ring.
Qed.
Lemma T_power n x s : s ^ 2 = x ^ 2 - 1 -> 2 * T n x = (x + s) ^ n + (x - s) ^ n.
Proof.
  intros H. induction n as [| |n IH1 IH2] using pair_ind.
  - unfold T, U; simpl. ring.
  - unfold T, U; simpl. ring.
  - unfold T in *. rewrite cheb_rec.
    assert (A : (x + s) ^ S (S n) = 2 * x * (x + s) ^ S n - (x + s) ^ n).
    { simpl. replace ((x + s) * ((x + s) * (x + s) ^ n)) with ((x ^ 2 + 2 * x * s + s ^ 2) * (x + s) ^ n) by ring.
      rewrite H. ring. }
    assert (B : (x - s) ^ S (S n) = 2 * x * (x - s) ^ S n - (x - s) ^ n).
    { simpl. replace ((x - s) * ((x - s) * (x - s) ^ n)) with ((x ^ 2 - 2 * x * s + s ^ 2) * (x - s) ^ n) by ring.
      rewrite H. ring. }
    rewrite A, B. replace (2 * (2 * x * cheb (fun x0 => x0) (S n) x - cheb (fun x0 => x0) n x)) with
      (2 * x * (2 * cheb (fun x0 => x0) (S n) x) - 2 * cheb (fun x0 => x0) n x) by ring.
    rewrite IH1, IH2. ring.
Qed.
Lemma U_power n x s : s ^ 2 = x ^ 2 - 1 -> 2 * s * U n x = (x + s) ^ (n + 1) - (x - s) ^ (n + 1).
Proof.
  intros H. rewrite Nat.add_1_r. induction n as [| |n IH1 IH2] using pair_ind.
  - unfold T, U; simpl. ring.
  - unfold T, U; simpl. ring.
  - unfold U in *. rewrite cheb_rec.
    assert (A : (x + s) ^ S (S (S n)) = 2 * x * (x + s) ^ S (S n) - (x + s) ^ S n).
    { cbn [pow]. replace ((x + s) * ((x + s) * ((x + s) * (x + s) ^ n))) with ((x ^ 2 + 2 * x * s + s ^ 2) * (x + s) ^ S n) by (simpl; ring).
      rewrite H. simpl. ring. }
    assert (B : (x - s) ^ S (S (S n)) = 2 * x * (x - s) ^ S (S n) - (x - s) ^ S n).
    { cbn [pow]. replace ((x - s) * ((x - s) * ((x - s) * (x - s) ^ n))) with ((x ^ 2 - 2 * x * s + s ^ 2) * (x - s) ^ S n) by (simpl; ring).
      rewrite H. simpl. ring. }
    rewrite A, B. replace (2 * s * (2 * x * cheb (fun x0 => 2 * x0) (S n) x - cheb (fun x0 => 2 * x0) n x)) with
      (2 * x * (2 * s * cheb (fun x0 => 2 * x0) (S n) x) - 2 * s * cheb (fun x0 => 2 * x0) n x) by ring.
    rewrite IH1, IH2. ring.
Qed.
Lemma T_U n x : T (S (S n)) x = x * U (S n) x - U n x.
Proof.
  induction n as [| |n IH1 IH2] using pair_ind.
  - unfold T, U; simpl. ring.
  - unfold T, U; simpl. ring.
  - unfold T, U in *. rewrite cheb_rec, IH1, IH2, !cheb_rec. ring.
Qed.
Lemma T_deriv n x : derivable_pt_lim (T (S n)) x (INR (S n) * U n x).
Proof.
  revert x. induction n as [| |n IH1 IH2] using pair_ind; intros x.
  - change (T 1) with (fun x : R => x). replace (INR 1 * U 0 x) with 1 by (unfold U; simpl; ring). apply derivable_pt_lim_id.
  - change (T 2) with (fun x : R => 2 * x * x - 1). replace (INR 2 * U 1 x) with (2 * x + 2 * x * 1 - 0) by (unfold U; simpl; ring).
    apply (derivable_pt_lim_minus (fun x => 2 * x * x) (fun _ => 1)); [|apply derivable_pt_lim_const].
    replace (2 * x + 2 * x * 1) with ((2 * 1) * x + (2 * x) * 1) by ring.
    apply (derivable_pt_lim_mult (fun x => 2 * x) (fun x => x)); [|apply derivable_pt_lim_id].
    apply (derivable_pt_lim_scal (fun x => x)). apply derivable_pt_lim_id.
  - change (T (S (S (S n)))) with (fun x : R => 2 * x * T (S (S n)) x - T (S n) x).
    replace (INR (S (S (S n))) * U (S (S n)) x) with
      (((2 * 1) * T (S (S n)) x + (2 * x) * (INR (S (S n)) * U (S n) x)) - INR (S n) * U n x).
    + apply (derivable_pt_lim_minus (fun x => 2 * x * T (S (S n)) x) (T (S n))); [|apply IH1].
      apply (derivable_pt_lim_mult (fun x => 2 * x) (T (S (S n)))); [|apply IH2].
      apply (derivable_pt_lim_scal (fun x => x)). apply derivable_pt_lim_id.
    + rewrite T_U. unfold U. rewrite cheb_rec, !S_INR. ring.
Qed.

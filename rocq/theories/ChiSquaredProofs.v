(* Proofs for ChiSquaredProps.v. *)
From Coq Require Import Reals List ZArith Bool Lra Lia.
From Coquelicot Require Import Coquelicot.
From Verif Require Import Base BaseProofs ExtRealModel ExtRealProofs DistanceModel DistanceProofs RadialModel ChiSquaredModel ChiSquaredSpec.
Import ListNotations.
Local Open Scope R_scope.

(* ---- sums over the nodes ---- *)
Fixpoint rsum (g : nat -> R) (l : list nat) : R := match l with [] => 0 | j :: l => g j + rsum g l end.
Lemma rsum_ext g h l : (forall j, In j l -> g j = h j) -> rsum g l = rsum h l.
Proof. induction l as [|j l IH]; intros H; simpl; auto. rewrite H by (left; auto). rewrite IH; auto. intros; apply H; right; auto. Qed.
Lemma rsum_scale c g l : rsum (fun j => c * g j) l = c * rsum g l.
Proof. induction l as [|j l IH]; simpl; [ring | rewrite IH; ring]. Qed.
Lemma rsum_plus g h l : rsum (fun j => g j + h j) l = rsum g l + rsum h l.
Proof. induction l as [|j l IH]; simpl; [ring | rewrite IH; ring]. Qed.
Lemma rsum_pos g l : l <> [] -> (forall j, In j l -> 0 < g j) -> 0 < rsum g l.
Proof.
  induction l as [|j l IH]; intros N H; [congruence|]; simpl.
  assert (0 < g j) by (apply H; left; auto).
  destruct l as [|k l]; [simpl; lra|].
  assert (0 < rsum g (k :: l)). { apply IH; [discriminate|]. intros; apply H; right; auto. } lra.
Qed.

Definition node (j : nat) : R := decimals (nth j gauss_legendre_50_points 0%Z).
Definition weight (j : nat) : R := decimals (nth j gauss_legendre_50_weights 0%Z).
Definition at_node (lb ub : R) (j : nat) : R := (ub - lb) * / 2 * node j + / 2 * (ub + lb).

Lemma inp_vals lb ub j : (j < 50)%nat -> quadrature_inp_vals (XFin lb) (XFin ub) j = Ok (XFin (at_node lb ub j)).
Proof.
  intros H. unfold quadrature_inp_vals. rewrite (nth_error_nth' _ 0%Z) by exact H. reflexivity.
Qed.
Lemma weight_vals lb ub j : (j < 50)%nat -> quadrature_weight_vals (XFin lb) (XFin ub) j = Ok (XFin ((ub - lb) * / 2 * weight j)).
Proof.
  intros H. unfold quadrature_weight_vals. rewrite (nth_error_nth' _ 0%Z) by exact H. reflexivity.
Qed.
Lemma recursive_sum fn g lb ub : (forall j, (j < 50)%nat -> fn (XFin (at_node lb ub j)) = XFin (g j)) ->
  forall remaining counter, (counter + remaining < 50)%nat ->
  quadrature_recursive fn (XFin lb) (XFin ub) remaining counter =
  Ok (XFin (rsum (fun j => g j * ((ub - lb) * / 2 * weight j)) (seq counter (S remaining)))).
Proof.
  intros H. induction remaining as [|r IH]; intros c L; simpl quadrature_recursive.
  - rewrite inp_vals, weight_vals by lia. simpl. rewrite H by lia. simpl. rewrite Rplus_0_r. reflexivity.
  - rewrite inp_vals, weight_vals by lia. simpl. rewrite IH by lia. simpl. rewrite H by lia. reflexivity.
Qed.
Lemma rule_sum fn g lb ub : (forall j, (j < 50)%nat -> fn (XFin (at_node lb ub j)) = XFin (g j)) ->
  quadrature_rule fn (XFin lb) (XFin ub) = Ok (XFin ((ub - lb) / 2 * rsum (fun j => weight j * g j) (seq 0 50))).
Proof.
  intros H. unfold quadrature_rule. rewrite (recursive_sum _ g) by (auto; simpl; lia).
  rewrite <- rsum_scale. do 2 f_equal. apply rsum_ext. intros; unfold Rdiv; ring.
Qed.

(* ---- the tables ---- *)
Lemma pow32 : 0 < IZR (10 ^ 32). Proof. apply IZR_lt. reflexivity. Qed.
Lemma weights_pos j : (j < 50)%nat -> 0 < weight j.
Proof.
  intros H. unfold weight, decimals. apply Rdiv_lt_0_compat; [|exact pow32]. apply IZR_lt.
  assert (C : forallb (fun w => (0 <? w)%Z) gauss_legendre_50_weights = true) by reflexivity.
  rewrite forallb_forall in C. apply Z.ltb_lt, C, nth_In. exact H.
Qed.
Lemma nodes_inside j : (j < 50)%nat -> -1 < node j < 1.
Proof.
  intros H. unfold node, decimals.
  assert (C : forallb (fun w => ((- 10 ^ 32 <? w) && (w <? 10 ^ 32))%Z) gauss_legendre_50_points = true) by reflexivity.
  rewrite forallb_forall in C. specialize (C (nth j gauss_legendre_50_points 0%Z)).
  assert (I : In (nth j gauss_legendre_50_points 0%Z) gauss_legendre_50_points) by (apply nth_In; exact H).
  apply C in I. apply andb_prop in I as [A B]. apply Z.ltb_lt in A, B. apply IZR_lt in A, B.
  rewrite opp_IZR in A. pose proof pow32. split.
  - apply (Rmult_lt_reg_r (IZR (10 ^ 32))); auto. unfold Rdiv. rewrite Rmult_assoc, Rinv_l by lra. lra.
  - apply (Rmult_lt_reg_r (IZR (10 ^ 32))); auto. unfold Rdiv. rewrite Rmult_assoc, Rinv_l by lra. lra.
Qed.

(* moments *)
Definition moment (k : nat) : R := if Nat.even k then 2 / INR (S k) else 0.
(* fixed point powers of the nodes *)
Definition TT : Z := 10 ^ 32.
Definition BB : Z := 10 ^ 36.
Fixpoint fp (x : Z) (k : nat) : Z := match k with O => BB | S k => (fp x k * x / TT)%Z end.
Fixpoint step (xs l : list Z) : list Z :=
  match xs, l with x :: xs, p :: l => (p * x / TT)%Z :: step xs l | _, _ => [] end.
Definition zdot (l : list Z) : Z :=
  fold_right Z.add 0%Z (map (fun j => (nth j gauss_legendre_50_weights 0 * nth j l 0)%Z) (seq 0 50)).
Definition near (k : nat) (l : list Z) : bool :=
  (Z.abs (Z.of_nat (S k) * zdot l - (if Nat.even k then 2 else 0) * TT * BB) <=? Z.of_nat (S k) * (BB - 200 * TT))%Z.
Fixpoint check_from (n k : nat) (l : list Z) : bool :=
  match n with O => true | S n => near k l && check_from n (S k) (step gauss_legendre_50_points l) end.
Lemma check_all : check_from 100 0 (map (fun x => fp x 0) gauss_legendre_50_points) = true.
Proof. vm_compute. reflexivity. Qed.
Lemma step_fp k xs : step xs (map (fun x => fp x k) xs) = map (fun x => fp x (S k)) xs.
Proof. induction xs as [|x xs IH]; simpl; [auto | f_equal; auto]. Qed.
Lemma check_near n : forall k, check_from n k (map (fun x => fp x k) gauss_legendre_50_points) = true ->
  forall i, (i < n)%nat -> near (k + i) (map (fun x => fp x (k + i)) gauss_legendre_50_points) = true.
Proof.
  induction n as [|n IH]; intros k C i L; [lia|]. cbn [check_from] in C. apply andb_prop in C as [A B].
  rewrite step_fp in B. destruct i as [|i]; [rewrite Nat.add_0_r; exact A|].
  replace (k + S i)%nat with (S k + i)%nat by lia. apply IH; auto. lia.
Qed.
Lemma TT_pos : 0 < IZR TT. Proof. exact pow32. Qed.
Lemma BB_pos : 0 < IZR BB. Proof. apply IZR_lt. reflexivity. Qed.
Lemma fp_error x k : Rabs (IZR x / IZR TT) <= 1 -> Rabs (IZR (fp x k) / IZR BB - (IZR x / IZR TT) ^ k) <= INR k / IZR BB.
Proof.
  pose proof TT_pos as T0. pose proof BB_pos as B0. intros X. induction k as [|k IH].
  - simpl. replace (IZR BB / IZR BB - 1) with 0 by (field; lra). rewrite Rabs_R0. unfold Rdiv. lra.
  - cbn [fp]. rewrite S_INR. pose proof (Z.div_mod (fp x k * x) TT ltac:(discriminate)) as D.
    pose proof (Z.mod_pos_bound (fp x k * x) TT eq_refl) as M. set (q := (fp x k * x / TT)%Z) in *. set (r := ((fp x k * x) mod TT)%Z) in *.
    apply (f_equal IZR) in D. rewrite plus_IZR, !mult_IZR in D.
    assert (Q : IZR q = (IZR (fp x k) * IZR x - IZR r) / IZR TT) by (rewrite D; field; lra).
    destruct M as [M1 M2]. apply IZR_le in M1. apply IZR_lt in M2.
    replace (IZR q / IZR BB - (IZR x / IZR TT) ^ S k) with
      (IZR x / IZR TT * (IZR (fp x k) / IZR BB - (IZR x / IZR TT) ^ k) + - (IZR r / IZR TT / IZR BB)) by (rewrite Q; simpl pow; field; lra).
    eapply Rle_trans; [apply Rabs_triang|]. replace ((INR k + 1) / IZR BB) with (INR k / IZR BB + 1 * / IZR BB) by (field; lra). apply Rplus_le_compat.
    + rewrite Rabs_mult. replace (INR k / IZR BB) with (1 * (INR k / IZR BB)) by (unfold Rdiv; ring).
      apply Rmult_le_compat; auto using Rabs_pos.
    + rewrite Rabs_Ropp. rewrite Rabs_pos_eq.
      * unfold Rdiv at 1. apply Rmult_le_compat_r; [apply Rlt_le, Rinv_0_lt_compat; auto|].
        apply (Rmult_le_reg_r (IZR TT)); auto. unfold Rdiv. rewrite Rmult_assoc, Rinv_l by lra. lra.
      * unfold Rdiv. repeat apply Rmult_le_pos; auto; apply Rlt_le, Rinv_0_lt_compat; auto.
Qed.
Lemma weights_two : rsum weight (seq 0 50) = 2.
Proof.
  assert (E : forall l, rsum weight l = IZR (fold_right Z.add 0%Z (map (fun j => nth j gauss_legendre_50_weights 0%Z) l)) / IZR TT).
  { pose proof TT_pos. induction l as [|j l IH]; cbn [rsum map fold_right]; [unfold Rdiv; ring|].
    rewrite IH, plus_IZR. unfold weight, decimals. fold TT. field. lra. }
  rewrite E. replace (fold_right _ _ _) with (2 * TT)%Z by (vm_compute; reflexivity). rewrite mult_IZR. pose proof TT_pos. field. lra.
Qed.
Lemma zdot_real l : rsum (fun j => weight j * (IZR (nth j l 0%Z) / IZR BB)) (seq 0 50) = IZR (zdot l) / (IZR TT * IZR BB).
Proof.
  unfold zdot. generalize (seq 0 50) as s. pose proof TT_pos. pose proof BB_pos.
  induction s as [|j s IH]; cbn [rsum map fold_right]; [unfold Rdiv; ring|].
  rewrite IH, plus_IZR, mult_IZR. unfold weight, decimals. fold TT. field. lra.
Qed.
Lemma rsum_close g h e l : (forall j, In j l -> Rabs (g j - h j) <= e * weight j) -> Rabs (rsum g l - rsum h l) <= e * rsum weight l.
Proof.
  induction l as [|j l IH]; intros H; cbn [rsum]; [rewrite Rminus_0_r, Rabs_R0; lra|].
  replace (g j + rsum g l - (h j + rsum h l)) with ((g j - h j) + (rsum g l - rsum h l)) by ring.
  eapply Rle_trans; [apply Rabs_triang|]. rewrite Rmult_plus_distr_l. apply Rplus_le_compat; [apply H; left; auto|].
  apply IH. intros; apply H; right; auto.
Qed.
Lemma moment_error k : (k < 100)%nat -> Rabs (rsum (fun j => weight j * node j ^ k) (seq 0 50) - moment k) <= / IZR TT.
Proof.
  intros H. pose proof TT_pos as T0. pose proof BB_pos as B0.
  pose proof (check_near 100 0 check_all k H) as C. cbn [Nat.add] in C. set (l := map (fun x => fp x k) gauss_legendre_50_points) in *.
  assert (c1 : Rabs (rsum (fun j => weight j * node j ^ k) (seq 0 50) - IZR (zdot l) / (IZR TT * IZR BB)) <= INR k / IZR BB * 2).
  { rewrite <- zdot_real, <- weights_two at 1. apply rsum_close. intros j I. apply in_seq in I.
    rewrite <- Rmult_minus_distr_l, Rabs_mult, (Rabs_pos_eq (weight j)) by (apply Rlt_le, weights_pos; lia).
    rewrite Rmult_comm. apply Rmult_le_compat_r; [apply Rlt_le, weights_pos; lia|]. rewrite Rabs_minus_sym.
    unfold l. rewrite (nth_indep _ 0%Z (fp 0 k)) by (rewrite map_length; simpl length; lia).
    rewrite (map_nth (fun x => fp x k)). apply (fp_error (nth j gauss_legendre_50_points 0%Z)).
    change (Rabs (node j) <= 1). pose proof (nodes_inside j ltac:(lia)). apply Rabs_le. lra. }
  assert (c2 : Rabs (IZR (zdot l) / (IZR TT * IZR BB) - moment k) <= (IZR BB - 200 * IZR TT) / (IZR TT * IZR BB)).
  { clear c1. unfold near in C. apply Z.leb_le, IZR_le in C. rewrite abs_IZR, minus_IZR, !mult_IZR, minus_IZR, mult_IZR, <- INR_IZR_INZ in C.
    set (n := INR (S k)) in *. assert (n0 : 0 < n) by (apply lt_0_INR; lia). generalize dependent (IZR (zdot l)). intros z C.
    assert (E : z / (IZR TT * IZR BB) - moment k = (n * z - IZR (if Nat.even k then 2 else 0) * IZR TT * IZR BB) / (n * (IZR TT * IZR BB))).
    { unfold moment. fold n. destruct (Nat.even k); field; lra. }
    assert (D : 0 < / (n * (IZR TT * IZR BB))) by (apply Rinv_0_lt_compat, Rmult_lt_0_compat; [exact n0 | exact (Rmult_lt_0_compat _ _ T0 B0)]).
    rewrite E. unfold Rdiv. rewrite Rabs_mult, (Rabs_pos_eq (/ _)) by lra.
    replace ((IZR BB - 200 * IZR TT) * / (IZR TT * IZR BB)) with (n * (IZR BB - 200 * IZR TT) * / (n * (IZR TT * IZR BB))) by (field; lra).
    apply Rmult_le_compat_r; [lra | exact C]. }
  replace (rsum _ _ - moment k) with ((rsum (fun j => weight j * node j ^ k) (seq 0 50) - IZR (zdot l) / (IZR TT * IZR BB)) +
    (IZR (zdot l) / (IZR TT * IZR BB) - moment k)) by ring.
  eapply Rle_trans; [apply Rabs_triang|]. eapply Rle_trans; [apply Rplus_le_compat; [exact c1 | exact c2]|].
  replace (/ IZR TT) with (IZR BB / (IZR TT * IZR BB)) by (field; lra).
  replace (INR k / IZR BB * 2) with (2 * INR k * IZR TT / (IZR TT * IZR BB)) by (field; lra).
  rewrite <- Rdiv_plus_distr. apply Rmult_le_compat_r; [apply Rlt_le, Rinv_0_lt_compat, Rmult_lt_0_compat; auto|].
  assert (INR k <= 100) by (rewrite INR_IZR_INZ; apply IZR_le; lia). nra.
Qed.
Opaque rsum weight node zdot near check_from.

(* ---- polynomials ---- *)
Ltac eqR := match goal with |- @eq _ ?a ?b => change (@eq R a b) end.
Fixpoint moments (k : nat) (c : list R) : R := match c with [] => 0 | x :: c => x * moment k + moments (S k) c end.
Lemma is_RInt_monomial k : is_RInt (fun t => t ^ k) (-1) 1 (moment k).
Proof.
  assert (n0 : INR (S k) <> 0) by (apply not_0_INR; lia).
  replace (moment k) with (@Hierarchy.minus R_AbelianGroup (1 ^ S k / INR (S k)) ((-1) ^ S k / INR (S k))).
  - apply (is_RInt_derive (fun t => t ^ S k / INR (S k))).
    + intros t _. auto_derive; auto. change (match k with O => 1 | S _ => INR k + 1 end) with (INR (S k)). field; auto.
    + intros t _. apply (ex_derive_continuous (V := R_NormedModule)). auto_derive; auto.
  - unfold moment, Hierarchy.minus, Hierarchy.plus, Hierarchy.opp; cbn -[INR pow]. rewrite pow1. destruct (Nat.even k) eqn:E.
    + apply Nat.even_spec in E as [m ->]. replace (S (2 * m)) with (S (2 * m)) by lia. rewrite pow_1_odd. field. auto.
    + assert (O : Nat.odd k = true) by (unfold Nat.odd; rewrite E; auto).
      apply Nat.odd_spec in O as [m ->]. replace (S (2 * m + 1)) with (2 * S m)%nat in * by lia. rewrite pow_1_even. field. auto.
Qed.
Lemma is_RInt_poly c : forall k, is_RInt (fun t => t ^ k * poly c t) (-1) 1 (moments k c).
Proof.
  induction c as [|x c IH]; intros k; simpl.
  - apply (is_RInt_ext (fun _ => 0)); [intros; eqR; ring|].
    pose proof (is_RInt_const (V := R_NormedModule) (-1) 1 0) as I.
    replace (scal (1 - -1) (0 : R_NormedModule)) with (0 : R) in I by (unfold scal; simpl; unfold mult; simpl; eqR; ring). exact I.
  - apply (is_RInt_ext (V := R_NormedModule) (fun t => Hierarchy.plus (scal x (t ^ k)) (t ^ S k * poly c t))).
    + intros t _. unfold Hierarchy.plus, scal; simpl; unfold mult; simpl. eqR. ring.
    + apply (is_RInt_plus (V := R_NormedModule)); [|apply IH]. apply (is_RInt_scal (V := R_NormedModule)). apply is_RInt_monomial.
Qed.
Lemma rsum_poly c : forall k, (k + length c <= 100)%nat ->
  Rabs (rsum (fun j => weight j * (node j ^ k * poly c (node j))) (seq 0 50) - moments k c) <= / IZR TT * abs_sum c.
Proof.
  induction c as [|x c IH]; intros k L; cbn [poly moments abs_sum].
  - rewrite (rsum_ext _ (fun j => 0 * weight j)) by (intros; ring). rewrite rsum_scale, Rmult_0_l, Rminus_0_r, Rabs_R0. lra.
  - simpl length in L.
    rewrite (rsum_ext _ (fun j => x * (weight j * node j ^ k) + weight j * (node j ^ S k * poly c (node j)))) by (intros; simpl; ring).
    rewrite rsum_plus, rsum_scale.
    replace (_ + _ - _) with (x * (rsum (fun j => weight j * node j ^ k) (seq 0 50) - moment k) +
      (rsum (fun j => weight j * (node j ^ S k * poly c (node j))) (seq 0 50) - moments (S k) c)) by ring.
    eapply Rle_trans; [apply Rabs_triang|]. rewrite Rmult_plus_distr_l. apply Rplus_le_compat; [|apply IH; lia].
    rewrite Rabs_mult, Rmult_comm. apply Rmult_le_compat_r; [apply Rabs_pos | apply moment_error; lia].
Qed.
Lemma normalised_node lb ub j : lb < ub -> normalised lb ub (at_node lb ub j) = node j.
Proof. intros H. unfold normalised, at_node. field. lra. Qed.
Lemma RInt_normalised c lb ub : lb < ub -> RInt (fun x => poly c (normalised lb ub x)) lb ub = (ub - lb) / 2 * moments 0 c.
Proof.
  intros H. apply is_RInt_unique.
  apply (is_RInt_ext (fun x => scal ((ub - lb) / 2) (scal (2 / (ub - lb)) (poly c (2 / (ub - lb) * x + - (ub + lb) / (ub - lb)))))).
  - intros x _. unfold scal; simpl; unfold mult; simpl. unfold normalised. eqR.
    replace (2 / (ub - lb) * x + - (ub + lb) / (ub - lb)) with ((2 * x - (ub + lb)) / (ub - lb)) by (field; lra). field. lra.
  - apply (is_RInt_scal (V := R_NormedModule)). apply (is_RInt_comp_lin (V := R_NormedModule) (poly c)).
    replace (2 / (ub - lb) * lb + - (ub + lb) / (ub - lb)) with (-1) by (field; lra).
    replace (2 / (ub - lb) * ub + - (ub + lb) / (ub - lb)) with 1 by (field; lra).
    apply (is_RInt_ext (fun t => t ^ 0 * poly c t)); [intros; simpl; eqR; ring | apply is_RInt_poly].
Qed.
Lemma quadrature_exact c lb ub fn : (length c <= 100)%nat -> lb < ub ->
  (forall x, fn (XFin x) = XFin (poly c (normalised lb ub x))) ->
  exists q, quadrature_rule fn (XFin lb) (XFin ub) = Ok (XFin q) /\
    Rabs (q - RInt (fun x => poly c (normalised lb ub x)) lb ub) <= (ub - lb) / 2 * (/ 10 ^ 32) * abs_sum c.
Proof.
  intros L H F. eexists; split.
  - apply (rule_sum _ (fun j => poly c (node j))). intros j _. rewrite F, normalised_node; auto.
  - rewrite RInt_normalised by auto. rewrite <- Rmult_minus_distr_l, Rabs_mult, (Rabs_pos_eq ((ub - lb) / 2)) by lra.
    rewrite Rmult_assoc. apply Rmult_le_compat_l; [lra|].
    replace (10 ^ 32) with (IZR TT) by (rewrite (pow_IZR 10 32); f_equal).
    pose proof (rsum_poly c 0 L) as B.
    rewrite (rsum_ext _ (fun j => weight j * poly c (node j))) in B by (intros; simpl; ring). exact B.
Qed.

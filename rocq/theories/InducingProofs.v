From Coq Require Import Reals List ZArith Lia Lra.
From Verif Require Import Base BaseProofs ExtRealModel ExtRealProofs DistanceModel DistanceProofs RadialModel RandomModel
  InducingModel InducingSpec.
Import ListNotations.
Local Open Scope R_scope.

Lemma loop_length : forall n v s, length (linspace_loop v s n) = n.
Proof. induction n; simpl; intros; auto. Qed.

Lemma loop_nth : forall n a s i, (i < n)%nat ->
  nth_error (linspace_loop (XFin a) (XFin s) n) i = Some (XFin (a + INR i * s)).
Proof.
  induction n; intros a s i Hi; [lia|]. destruct i.
  - simpl. f_equal. f_equal. lra.
  - cbn [linspace_loop nth_error]. cbn [xadd]. rewrite IHn by lia. f_equal. f_equal. rewrite S_INR. lra.
Qed.

Lemma to_double_small : forall n, (1 <= n)%nat -> (Z.of_nat n <= 2 ^ 53 + 1)%Z ->
  to_double (wrap64 (Z.of_nat n - 1)) = Ok (XFin (INR n - 1)).
Proof.
  intros n H1 H2. unfold to_double, wrap64. rewrite Z.mod_small by lia.
  replace (Z.of_nat n - 1 <=? 2 ^ 53)%Z with true by (symmetry; apply Z.leb_le; lia).
  cbn. rewrite minus_IZR, <- INR_IZR_INZ. reflexivity.
Qed.

Lemma to_double_large : forall n, (n = 0)%nat \/ (2 ^ 53 + 1 < Z.of_nat n < 2 ^ 64)%Z ->
  to_double (wrap64 (Z.of_nat n - 1)) = Abort.
Proof.
  intros n H. unfold to_double, wrap64. destruct H as [-> | H].
  - reflexivity.
  - rewrite Z.mod_small by lia.
    replace (Z.of_nat n - 1 <=? 2 ^ 53)%Z with false by (symmetry; apply Z.leb_gt; lia). reflexivity.
Qed.

Lemma linspace_ok : forall a b n, (2 <= n)%nat -> (Z.of_nat n <= 2 ^ 53 + 1)%Z ->
  exists points, linspace (XFin a) (XFin b) n = Ok points /\ length points = n /\ evenly_spaced a b points.
Proof.
  intros a b n H1 H2. unfold linspace. rewrite to_double_small by (try lia; exact H2).
  assert (Hn : 1 < INR n) by (apply (lt_INR 1); lia).
  cbn [bind xsub xopp xadd xdiv].
  assert (E : Reqb (INR n - 1) 0 = false) by (apply Reqb_false; lra).
  rewrite E. eexists. split; [reflexivity|]. split; [apply loop_length|].
  split; rewrite loop_length; [exact H1|].
  intros i Hi. rewrite loop_nth by exact Hi. f_equal.
Qed.

Lemma linspace_one : forall a b, linspace a b 1 = Ok [a].
Proof. reflexivity. Qed.

Lemma linspace_abort : forall a b n, (n = 0)%nat \/ (2 ^ 53 + 1 < Z.of_nat n < 2 ^ 64)%Z -> linspace a b n = Abort.
Proof. intros a b n H. unfold linspace. rewrite to_double_large by exact H. reflexivity. Qed.

Lemma spaced_ends : forall a b points, evenly_spaced a b points ->
  nth_error points 0 = Some (XFin a) /\ nth_error points (length points - 1) = Some (XFin b).
Proof.
  intros a b points [H1 H2]. assert (Hn : 1 < INR (length points)) by (apply (lt_INR 1); lia).
  split; rewrite H2 by lia; do 2 f_equal.
  - simpl. lra.
  - rewrite minus_INR by lia. simpl (INR 1). field. lra.
Qed.

Lemma spaced_between : forall a b points u, evenly_spaced a b points -> a <= b -> In u points ->
  exists v, u = XFin v /\ a <= v <= b.
Proof.
  intros a b points u [H1 H2] Hab Hu. apply In_nth_error in Hu. destruct Hu as [i Hi].
  assert (Hl : (i < length points)%nat) by (apply nth_error_Some; congruence).
  rewrite H2 in Hi by exact Hl. injection Hi as <-. eexists. split; [reflexivity|].
  assert (Hn : 1 < INR (length points)) by (apply (lt_INR 1); lia).
  assert (Hi : INR i <= INR (length points) - 1).
  { replace (INR (length points) - 1) with (INR (length points - 1)) by (rewrite minus_INR by lia; simpl; lra). apply le_INR. lia. }
  assert (H0 : 0 <= INR i) by apply pos_INR.
  set (k := INR (length points) - 1) in *. assert (Hk : 0 < k) by (unfold k; lra).
  replace (INR i * ((b - a) / k)) with ((INR i / k) * (b - a)) by (field; lra).
  assert (Q : 0 <= INR i / k <= 1).
  { split; [apply Rmult_le_pos; [lra|left; apply Rinv_0_lt_compat; lra]|]. apply Rmult_le_reg_r with k; [lra|].
    unfold Rdiv. rewrite Rmult_assoc, Rinv_l by lra. lra. }
  nra.
Qed.

(* the nearest point *)
Lemma spaced_nearest : forall a b points x, evenly_spaced a b points -> a < b -> a <= x <= b ->
  exists v, In (XFin v) points /\ Rabs (x - v) <= (b - a) / (INR (length points) - 1) / 2.
Proof.
  intros a b points x [H1 H2] Hab Hx.
  assert (Hn : 1 < INR (length points)) by (apply (lt_INR 1); lia).
  set (k := INR (length points) - 1) in *. assert (Hk : 0 < k) by (unfold k; lra).
  set (h := (b - a) / k). assert (Hh : 0 < h) by (apply Rdiv_lt_0_compat; lra).
  set (t := (x - a) / h + / 2).
  assert (Ht0 : / 2 <= t) by (unfold t; assert (0 <= (x - a) / h) by (apply Rmult_le_pos; [lra|left; apply Rinv_0_lt_compat; lra]); lra).
  assert (Hth : (x - a) / h <= k).
  { unfold h. replace ((x - a) / ((b - a) / k)) with ((x - a) / (b - a) * k) by (field; lra).
    assert ((x - a) / (b - a) <= 1) by (apply Rmult_le_reg_r with (b - a); [lra|]; unfold Rdiv; rewrite Rmult_assoc, Rinv_l by lra; lra).
    nra. }
  set (z := Int_part t). destruct (base_Int_part t) as [B1 B2]. fold z in B1, B2.
  assert (Hz : (0 <= z)%Z) by (apply Z.lt_succ_r, lt_IZR; unfold Z.succ; rewrite plus_IZR; lra).
  assert (EZ : IZR z = INR (Z.to_nat z)) by (rewrite INR_IZR_INZ, Z2Nat.id by exact Hz; reflexivity).
  assert (Hlt : (Z.to_nat z < length points)%nat).
  { apply INR_lt. rewrite <- EZ. unfold t in B1. unfold k in Hth. lra. }
  exists (a + INR (Z.to_nat z) * h). split.
  - eapply nth_error_In. apply (H2 _ Hlt).
  - rewrite <- EZ. assert (E : x - a = (x - a) / h * h) by (field; lra).
    unfold t in B1, B2. set (q := (x - a) / h) in *.
    replace (x - (a + IZR z * h)) with ((q - IZR z) * h) by lra.
    rewrite Rabs_mult, (Rabs_right h) by lra.
    assert (Rabs (q - IZR z) <= / 2) by (apply Rabs_le; lra). nra.
Qed.

Lemma spaced_distinct : forall a b points, evenly_spaced a b points -> a < b -> NoDup points.
Proof.
  intros a b points [H1 H2] Hab. apply NoDup_nth_error. intros i j Hi E.
  assert (Hn : 1 < INR (length points)) by (apply (lt_INR 1); lia).
  destruct (Nat.lt_ge_cases j (length points)) as [Hj|Hj].
  - rewrite !H2 in E by assumption. injection E as E.
    assert (P : 0 < (b - a) / (INR (length points) - 1)) by (apply Rdiv_lt_0_compat; lra).
    apply INR_eq. nra.
  - apply nth_error_None in Hj. rewrite Hj in E. apply nth_error_Some in Hi. congruence.
Qed.

Lemma spaced_constant : forall a points, evenly_spaced a a points -> ~ NoDup points.
Proof.
  intros a points [H1 H2] HN. rewrite NoDup_nth_error in HN.
  assert (X : 0%nat = 1%nat); [|discriminate].
  apply HN; [lia|]. rewrite !H2 by lia. do 2 f_equal. rewrite Rminus_diag_eq by reflexivity. unfold Rdiv. simpl. lra.
Qed.

(* ---- extreme elements ---- *)
Lemma fold_min : forall rest x, exists lo,
  fold_left (fun s y => if xltb y s then y else s) (map XFin rest) (XFin x) = XFin lo /\ least lo (x :: rest).
Proof.
  induction rest as [|y rest IH]; intros x; cbn [map fold_left].
  - exists x. split; [reflexivity|]. split; [left; reflexivity|]. intros z [->|[]]; lra.
  - cbn [xltb]. destruct (Rltb y x) eqn:E.
    + apply Rltb_true in E. destruct (IH y) as (lo & -> & Hin & Hle). exists lo. split; [reflexivity|]. split.
      * right. exact Hin.
      * intros z [<-|Hz]; [|apply Hle; exact Hz]. assert (lo <= y) by (apply Hle; left; reflexivity). lra.
    + apply Rltb_false in E. destruct (IH x) as (lo & -> & Hin & Hle). exists lo. split; [reflexivity|]. split.
      * destruct Hin as [->|Hin]; [left; reflexivity|right; right; exact Hin].
      * assert (lo <= x) by (apply Hle; left; reflexivity).
        intros z [<-|[<-|Hz]]; [lra| |apply Hle; right; exact Hz].
        lra.
Qed.
Lemma fold_max : forall rest x, exists hi,
  fold_left (fun s y => if xltb s y then y else s) (map XFin rest) (XFin x) = XFin hi /\ greatest hi (x :: rest).
Proof.
  induction rest as [|y rest IH]; intros x; cbn [map fold_left].
  - exists x. split; [reflexivity|]. split; [left; reflexivity|]. intros z [->|[]]; lra.
  - cbn [xltb]. destruct (Rltb x y) eqn:E.
    + apply Rltb_true in E. destruct (IH y) as (hi & -> & Hin & Hle). exists hi. split; [reflexivity|]. split.
      * right. exact Hin.
      * intros z [<-|Hz]; [|apply Hle; exact Hz]. assert (y <= hi) by (apply Hle; left; reflexivity). lra.
    + apply Rltb_false in E. destruct (IH x) as (hi & -> & Hin & Hle). exists hi. split; [reflexivity|]. split.
      * destruct Hin as [->|Hin]; [left; reflexivity|right; right; exact Hin].
      * assert (x <= hi) by (apply Hle; left; reflexivity).
        intros z [<-|[<-|Hz]]; [lra| |apply Hle; right; exact Hz].
        lra.
Qed.
Lemma least_unique : forall a b xs, least a xs -> least b xs -> a = b.
Proof. intros a b xs [A1 A2] [B1 B2]. apply Rle_antisym; auto. Qed.
Lemma greatest_unique : forall a b xs, greatest a xs -> greatest b xs -> a = b.
Proof. intros a b xs [A1 A2] [B1 B2]. apply Rle_antisym; auto. Qed.
Lemma min_element_least : forall lo xs, least lo xs -> min_element (map XFin xs) = Ok (XFin lo).
Proof.
  intros lo [|x rest] H; [destruct H as [[] _]|]. cbn [map min_element].
  destruct (fold_min rest x) as (lo' & -> & H'). rewrite (least_unique _ _ _ H H'). reflexivity.
Qed.
Lemma max_element_greatest : forall hi xs, greatest hi xs -> max_element (map XFin xs) = Ok (XFin hi).
Proof.
  intros hi [|x rest] H; [destruct H as [[] _]|]. cbn [map max_element].
  destruct (fold_max rest x) as (hi' & -> & H'). rewrite (greatest_unique _ _ _ H H'). reflexivity.
Qed.
Lemma extremes_exist : forall xs, xs <> [] -> exists lo hi, least lo xs /\ greatest hi xs.
Proof.
  intros [|x rest] H; [congruence|]. destruct (fold_min rest x) as (lo & _ & A). destruct (fold_max rest x) as (hi & _ & B).
  exists lo, hi. split; assumption.
Qed.
Lemma extremes_le : forall lo hi xs, least lo xs -> greatest hi xs -> lo <= hi.
Proof. intros lo hi xs [A _] [_ B]. apply B. exact A. Qed.

(* ---- ceilings ---- *)
Lemma ceiling_exists : forall x, 0 <= x -> exists n, is_ceiling n x /\ - IZR (Int_part (- x)) = INR n.
Proof.
  intros x Hx. destruct (base_Int_part (- x)) as [B1 B2].
  assert (Hz : (0 <= - Int_part (- x))%Z).
  { assert (IZR (Int_part (- x)) <= 0) by lra. apply le_IZR in H. lia. }
  exists (Z.to_nat (- Int_part (- x))). 
  assert (E : - IZR (Int_part (- x)) = INR (Z.to_nat (- Int_part (- x)))) by (rewrite INR_IZR_INZ, Z2Nat.id, opp_IZR by exact Hz; reflexivity).
  split; [|exact E]. unfold is_ceiling. rewrite <- E. lra.
Qed.

Lemma cast_nat : forall n, safe_cast_to_size_t (XFin (INR n)) = if (Z.of_nat n <? 2 ^ 64)%Z then Ok n else Abort.
Proof.
  intros n. unfold safe_cast_to_size_t. cbn [xltb].
  assert (P : 2 ^ 64 = IZR (2 ^ 64)) by (rewrite pow_IZR; reflexivity).
  destruct (Z.of_nat n <? 2 ^ 64)%Z eqn:E.
  - apply Z.ltb_lt in E. assert (Rltb (INR n) (2 ^ 64) = true) as ->.
    { apply Rltb_true. rewrite P, INR_IZR_INZ. apply IZR_lt. exact E. }
    cbn [assert_then]. assert (Rltb (-1) (INR n) = true) as -> by (apply Rltb_true; assert (0 <= INR n) by apply pos_INR; lra).
    f_equal. rewrite INR_IZR_INZ. 
    assert (Int_part (IZR (Z.of_nat n)) = Z.of_nat n) as ->; [|apply Nat2Z.id].
    destruct (base_Int_part (IZR (Z.of_nat n))) as [B1 B2]. apply le_IZR in B1.
    assert (IZR (Z.of_nat n) < IZR (Int_part (IZR (Z.of_nat n)) + 1)) by (rewrite plus_IZR; lra). apply lt_IZR in H. lia.
  - apply Z.ltb_ge in E. assert (Rltb (INR n) (2 ^ 64) = false) as ->; [|reflexivity].
    apply Rltb_false. rewrite P, INR_IZR_INZ. apply IZR_le. exact E.
Qed.

Lemma std_max_nat : forall n k : nat, std_max (XFin (INR n)) (XFin (INR k)) = XFin (INR (Nat.max n k)).
Proof.
  intros n k. unfold std_max. cbn [xltb]. destruct (Rltb (INR n) (INR k)) eqn:E.
  - apply Rltb_true, INR_lt in E. rewrite Nat.max_r by lia. reflexivity.
  - apply Rltb_false in E. assert (INR k <= INR n) by lra. apply INR_le in H. rewrite Nat.max_l by lia. reflexivity.
Qed.

(* the common tail of the two representations *)
Definition tail (lo hi : R) (n : xr) : outcome (list xr) :=
  k <- safe_cast_to_size_t (std_max n (XFin 3)) ;; linspace (XFin lo) (XFin hi) k.

Lemma three : XFin 3 = XFin (INR 3).
Proof. f_equal. simpl. lra. Qed.

Lemma tail_ok : forall lo hi n, (Z.of_nat (Nat.max n 3) <= 2 ^ 53 + 1)%Z ->
  exists points, tail lo hi (XFin (INR n)) = Ok points /\ length points = Nat.max n 3 /\ evenly_spaced lo hi points.
Proof.
  intros lo hi n H. unfold tail. rewrite three, std_max_nat, cast_nat.
  replace (Z.of_nat (Nat.max n 3) <? 2 ^ 64)%Z with true by (symmetry; apply Z.ltb_lt; lia). cbn [bind].
  apply linspace_ok; [lia|exact H].
Qed.
Lemma tail_abort : forall lo hi n, (2 ^ 53 + 1 < Z.of_nat n)%Z -> tail lo hi (XFin (INR n)) = Abort.
Proof.
  intros lo hi n H. unfold tail. rewrite three, std_max_nat, cast_nat. rewrite Nat.max_l by lia.
  destruct (Z.of_nat n <? 2 ^ 64)%Z eqn:E; [|reflexivity]. apply Z.ltb_lt in E. cbn [bind]. apply linspace_abort. right. lia.
Qed.
Lemma tail_small : forall lo hi v, v <= 3 -> tail lo hi (XFin v) = tail lo hi (XFin (INR 3)).
Proof.
  intros lo hi v H. unfold tail. replace (std_max (XFin v) (XFin 3)) with (std_max (XFin (INR 3)) (XFin 3)); [reflexivity|].
  rewrite three, std_max_nat. simpl (Nat.max 3 3). unfold std_max. cbn [xltb]. destruct (Rltb v (INR 3)) eqn:E; [reflexivity|].
  apply Rltb_false in E. f_equal. simpl in *. lra.
Qed.

Section Tail.
Variables (c : R) (ssr : xr -> list xr -> outcome (list xr)).
Hypothesis Hc : 0 < c.
Hypothesis shape : forall l lo hi xs, least lo xs -> greatest hi xs ->
  ssr l (map XFin xs) = tail lo hi (xceil (xdiv (XFin (c * (hi - lo))) l)).

Lemma ssr_ok : forall l lo hi xs, 0 < l -> least lo xs -> greatest hi xs -> c * (hi - lo) / l <= 2 ^ 53 + 1 ->
  exists points n, ssr (XFin l) (map XFin xs) = Ok points /\ evenly_spaced lo hi points /\
    is_ceiling n (c * (hi - lo) / l) /\ length points = Nat.max n 3.
Proof.
  intros l lo hi xs Hl A B H. rewrite (shape _ _ _ _ A B). pose proof (extremes_le _ _ _ A B) as Hle.
  assert (Hx : 0 <= c * (hi - lo) / l) by (apply Rmult_le_pos; [nra|left; apply Rinv_0_lt_compat; lra]).
  destruct (ceiling_exists _ Hx) as (n & Hn & E).
  cbn [xdiv]. assert (Reqb l 0 = false) as -> by (apply Reqb_false; lra). cbn [xceil]. rewrite E.
  assert (Z.of_nat n <= 2 ^ 53 + 1)%Z.
  { apply le_IZR. rewrite <- INR_IZR_INZ.
    assert (P : 2 ^ 53 = IZR (2 ^ 53)) by (rewrite pow_IZR; reflexivity). rewrite P in H.
    destruct Hn as [Hn _]. assert (L : INR n < IZR (2 ^ 53 + 1) + 1) by (rewrite plus_IZR; lra).
    rewrite INR_IZR_INZ in *. rewrite <- plus_IZR in L. apply lt_IZR in L. apply IZR_le. lia. }
  destruct (tail_ok lo hi n) as (points & P1 & P2 & P3); [lia|].
  exists points, n. repeat split; try assumption; try apply P3; apply Hn.
Qed.

Lemma ssr_abort : forall l lo hi xs, 0 < l -> least lo xs -> greatest hi xs -> 2 ^ 53 + 1 < c * (hi - lo) / l ->
  ssr (XFin l) (map XFin xs) = Abort.
Proof.
  intros l lo hi xs Hl A B H. rewrite (shape _ _ _ _ A B). pose proof (extremes_le _ _ _ A B) as Hle.
  assert (Hx : 0 <= c * (hi - lo) / l) by (apply Rmult_le_pos; [nra|left; apply Rinv_0_lt_compat; lra]).
  destruct (ceiling_exists _ Hx) as (n & Hn & E).
  cbn [xdiv]. assert (Reqb l 0 = false) as -> by (apply Reqb_false; lra). cbn [xceil]. rewrite E.
  apply tail_abort. apply lt_IZR. rewrite <- INR_IZR_INZ, plus_IZR.
  assert (P : 2 ^ 53 = IZR (2 ^ 53)) by (rewrite pow_IZR; reflexivity). rewrite P in H. destruct Hn as [_ Hn]. lra.
Qed.

Lemma ssr_other : forall l lo hi xs, least lo xs -> greatest hi xs ->
  match l with XFin v => v < 0 | XNaN => False | _ => True end ->
  exists points, ssr l (map XFin xs) = Ok points /\ evenly_spaced lo hi points /\ length points = 3%nat.
Proof.
  intros l lo hi xs A B H. rewrite (shape _ _ _ _ A B). pose proof (extremes_le _ _ _ A B) as Hle.
  assert (Z3 : exists points, tail lo hi (XFin (INR 3)) = Ok points /\ evenly_spaced lo hi points /\ length points = 3%nat).
  { destruct (tail_ok lo hi 3) as (points & P1 & P2 & P3); [simpl; lia|]. exists points. repeat split; try assumption; apply P3. }
  assert (Z0 : forall v, v <= 0 -> exists points, tail lo hi (xceil (XFin v)) = Ok points /\ evenly_spaced lo hi points /\ length points = 3%nat).
  { intros v Hv. cbn [xceil]. rewrite tail_small; [exact Z3|]. destruct (base_Int_part (- v)) as [B1 B2]. lra. }
  destruct l as [|v| |]; try contradiction.
  - cbn [xdiv]. apply Z0. lra.
  - cbn [xdiv]. assert (Reqb v 0 = false) as -> by (apply Reqb_false; lra). apply Z0.
    assert (0 <= c * (hi - lo)) by nra. assert (/ v < 0) by (apply Rinv_lt_0_compat; lra). unfold Rdiv. nra.
  - cbn [xdiv]. apply Z0. lra.
Qed.

Lemma ssr_zero : forall l lo hi xs, least lo xs -> greatest hi xs -> l = XFin 0 \/ l = XNaN ->
  ssr l (map XFin xs) = Abort.
Proof.
  intros l lo hi xs A B H. rewrite (shape _ _ _ _ A B). pose proof (extremes_le _ _ _ A B) as Hle.
  destruct H as [-> | ->]; [|reflexivity]. cbn [xdiv].
  assert (Reqb 0 0 = true) as -> by (apply Reqb_true; reflexivity).
  destruct (Reqb (c * (hi - lo)) 0) eqn:E; [reflexivity|]. apply Reqb_false in E.
  assert (Rltb 0 (c * (hi - lo)) = true) as ->; [|reflexivity].
  apply Rltb_true. assert (0 <= c * (hi - lo)) by nra. lra.
Qed.

(* neighbouring points are closer than 3 / (2 c) length scales *)
Lemma ssr_step : forall l lo hi points n, 0 < l -> lo <= hi -> evenly_spaced lo hi points ->
  is_ceiling n (c * (hi - lo) / l) -> length points = Nat.max n 3 ->
  (hi - lo) / (INR (length points) - 1) <= 3 / (2 * c) * l.
Proof.
  intros l lo hi points n Hl Hle Hs [_ Hn] HL.
  set (m := length points) in *. assert (Hm : (3 <= m)%nat) by lia.
  assert (Hnm : INR n <= INR m) by (apply le_INR; lia).
  assert (H3 : 3 <= INR m) by (apply (le_INR 3) in Hm; simpl in Hm; lra).
  assert (R1 : c * (hi - lo) <= INR m * l).
  { replace (c * (hi - lo)) with (c * (hi - lo) / l * l) by (field; lra). nra. }
  apply Rmult_le_reg_r with (INR m - 1); [lra|].
  unfold Rdiv at 1. rewrite Rmult_assoc, Rinv_l by lra. rewrite Rmult_1_r.
  apply Rmult_le_reg_l with (2 * c); [lra|].
  replace (2 * c * (3 / (2 * c) * l * (INR m - 1))) with (3 * l * (INR m - 1)) by (field; lra). nra.
Qed.
End Tail.

Lemma se_shape : forall l lo hi xs, least lo xs -> greatest hi xs ->
  squared_exponential_ssr l (map XFin xs) = tail lo hi (xceil (xdiv (XFin (10 * (hi - lo))) l)).
Proof.
  intros l lo hi xs A B. unfold squared_exponential_ssr. rewrite (min_element_least _ _ A), (max_element_greatest _ _ B). reflexivity.
Qed.
Lemma exp_shape : forall l lo hi xs, least lo xs -> greatest hi xs ->
  exponential_ssr l (map XFin xs) = tail lo hi (xceil (xdiv (XFin (20 * (hi - lo))) l)).
Proof.
  intros l lo hi xs A B. unfold exponential_ssr. rewrite (min_element_least _ _ A), (max_element_greatest _ _ B). reflexivity.
Qed.

(* C73: evenly spaced points, the inducing point strategies and state space representations. *)
From Coq Require Import Reals List ZArith Lia Lra Psatz.
From Verif Require Import Base BaseProofs ExtRealModel ExtRealProofs DistanceModel DistanceProofs RadialModel RadialSpec RadialProofs
  RandomModel InducingModel InducingSpec InducingProofs.
Import ListNotations.
Local Open Scope R_scope.

(* linspace(a, b, n): n points, equally spaced, the first is a and the last is b *)
Theorem C73_linspace (a b : R) (n : nat) : (2 <= n)%nat -> (Z.of_nat n <= 2 ^ 53 + 1)%Z ->
  exists points, linspace (XFin a) (XFin b) n = Ok points /\ length points = n /\ evenly_spaced a b points /\
    nth_error points 0 = Some (XFin a) /\ nth_error points (n - 1) = Some (XFin b) /\
    (a <= b -> forall u, In u points -> exists v, u = XFin v /\ a <= v <= b).
Proof.
  intros H1 H2. destruct (linspace_ok a b n H1 H2) as (points & P1 & P2 & P3). exists points.
  destruct (spaced_ends _ _ _ P3) as [E1 E2]. rewrite P2 in E2.
  repeat split; try assumption; try apply P3. intros Hab u Hu. exact (spaced_between _ _ _ _ P3 Hab Hu).
Qed.
Print Assumptions C73_linspace.

(* one point is the start; no point at all, or more than a double counts exactly, stops the program *)
Theorem C73_linspace_other (a b : xr) (n : nat) :
  linspace a b 1 = Ok [a] /\
  ((n = 0)%nat \/ (2 ^ 53 + 1 < Z.of_nat n < 2 ^ 64)%Z -> linspace a b n = Abort).
Proof. exact (conj (linspace_one a b) (linspace_abort a b n)). Qed.
Print Assumptions C73_linspace_other.

Example C73_linspace_meets : exists points, linspace (XFin 1) (XFin 2) 3 = Ok points /\ nth_error points 1 = Some (XFin (3 / 2)).
Proof.
  destruct (C73_linspace 1 2 3) as (points & P1 & P2 & P3 & _); [lia|lia|].
  exists points. split; [exact P1|]. destruct P3 as [_ P3]. rewrite P3 by lia. rewrite P2. do 2 f_equal. simpl. field.
Qed.

(* UniformlySpacedInducingPoints: from the least to the greatest of the features *)
Theorem C73_uniform (n : nat) (features : list R) (lo hi : R) :
  least lo features -> greatest hi features -> (2 <= n)%nat -> (Z.of_nat n <= 2 ^ 53 + 1)%Z ->
  exists points, uniformly_spaced n (map XFin features) = Ok points /\ length points = n /\ evenly_spaced lo hi points /\
    (lo < hi -> NoDup points).
Proof.
  intros A B H1 H2. unfold uniformly_spaced. rewrite (min_element_least _ _ A), (max_element_greatest _ _ B). cbn [bind].
  destruct (linspace_ok lo hi n H1 H2) as (points & P1 & P2 & P3). exists points.
  repeat split; try assumption; try apply P3. intros H. exact (spaced_distinct _ _ _ P3 H).
Qed.
Print Assumptions C73_uniform.

(* one inducing point is the least feature, none stops the program; without features the strategies are undefined *)
Theorem C73_uniform_other (n : nat) (features : list R) (lo : R) (l : xr) :
  (least lo features -> uniformly_spaced 1 (map XFin features) = Ok [XFin lo]) /\
  (features <> [] -> uniformly_spaced 0 (map XFin features) = Abort) /\
  uniformly_spaced n [] = UB /\ squared_exponential_ssr l [] = UB /\ exponential_ssr l [] = UB.
Proof.
  split; [|split; [|repeat split; reflexivity]].
  - intros A. destruct (extremes_exist features) as (lo' & hi & _ & B); [destruct A as [A _]; intros ->; exact A|].
    unfold uniformly_spaced. rewrite (min_element_least _ _ A), (max_element_greatest _ _ B). reflexivity.
  - intros H. destruct (extremes_exist features H) as (lo' & hi & A & B).
    unfold uniformly_spaced. rewrite (min_element_least _ _ A), (max_element_greatest _ _ B). reflexivity.
Qed.
Print Assumptions C73_uniform_other.

Lemma meets_least : least 0 [1; 0; 1 / 2].
Proof. split; [simpl; auto|]. intros x [<-|[<-|[<-|[]]]]; lra. Qed.
Lemma meets_greatest : greatest 1 [1; 0; 1 / 2].
Proof. split; [simpl; auto|]. intros x [<-|[<-|[<-|[]]]]; lra. Qed.
Example C73_uniform_meets : exists points,
  uniformly_spaced 5 (map XFin [1; 0; 1 / 2]) = Ok points /\ length points = 5%nat /\ evenly_spaced 0 1 points /\ NoDup points.
Proof.
  destruct (C73_uniform 5 _ _ _ meets_least meets_greatest) as (points & P1 & P2 & P3 & P4); [lia|lia|].
  exists points. repeat split; try assumption; try apply P3. apply P4. lra.
Qed.

(* the representation of a radial covariance function: max(3, ceil(10 range / length_scale)) points for the squared
   exponential, 20 in place of 10 for the exponential *)
Definition ssr_of (s : shape) : option (R * (xr -> list xr -> outcome (list xr))) :=
  match s with
  | SquaredExponential => Some (10, squared_exponential_ssr)
  | Exponential => Some (20, exponential_ssr)
  | _ => None
  end.

Lemma ssr_of_shape s c ssr : ssr_of s = Some (c, ssr) -> 0 < c /\
  forall l lo hi xs, least lo xs -> greatest hi xs -> ssr l (map XFin xs) = tail lo hi (xceil (xdiv (XFin (c * (hi - lo))) l)).
Proof.
  destruct s; simpl; intros H; inversion H; subst; (split; [lra|]); [exact se_shape|exact exp_shape].
Qed.

Theorem C73_state_space s c ssr (l : R) (features : list R) (lo hi : R) :
  ssr_of s = Some (c, ssr) -> 0 < l -> least lo features -> greatest hi features ->
  (c * (hi - lo) / l <= 2 ^ 53 + 1 ->
   exists points n, ssr (XFin l) (map XFin features) = Ok points /\ evenly_spaced lo hi points /\
     is_ceiling n (c * (hi - lo) / l) /\ length points = Nat.max n 3) /\
  (2 ^ 53 + 1 < c * (hi - lo) / l -> ssr (XFin l) (map XFin features) = Abort).
Proof.
  intros H Hl A B. destruct (ssr_of_shape _ _ _ H) as [Hc Hs]. split.
  - exact (ssr_ok c ssr Hc Hs l lo hi features Hl A B).
  - exact (ssr_abort c ssr Hc Hs l lo hi features Hl A B).
Qed.
Print Assumptions C73_state_space.

(* a negative or infinite length scale gives three points; 0 or NaN stops the program *)
Theorem C73_length_scale s c ssr (l : xr) (features : list R) (lo hi : R) :
  ssr_of s = Some (c, ssr) -> least lo features -> greatest hi features ->
  (match l with XFin v => v < 0 | XNaN => False | _ => True end ->
   exists points, ssr l (map XFin features) = Ok points /\ evenly_spaced lo hi points /\ length points = 3%nat) /\
  (l = XFin 0 \/ l = XNaN -> ssr l (map XFin features) = Abort).
Proof.
  intros H A B. destruct (ssr_of_shape _ _ _ H) as [Hc Hs]. split.
  - exact (ssr_other c ssr Hc Hs l lo hi features A B).
  - exact (ssr_zero c ssr Hc Hs l lo hi features A B).
Qed.
Print Assumptions C73_length_scale.

(* correlation with something at distance at most t length scales *)
Lemma correlation s d l sigma t : (s = SquaredExponential \/ s = Exponential) -> 0 < l -> 0 <= d <= t * l ->
  exists v, covariance_of s (XFin d) (XFin l) (XFin sigma) = Ok (XFin v) /\ sigma ^ 2 * rho s t <= v.
Proof.
  intros Hs Hl Hd. rewrite covariance_value. destruct (Rle_dec l 0) as [?|_]; [lra|]. destruct (Rlt_dec d 0) as [?|_]; [lra|].
  eexists. split; [reflexivity|]. apply Rmult_le_compat_l; [nra|].
  assert (Q : 0 <= d / l <= t).
  { split; [apply Rmult_le_pos; [lra|left; apply Rinv_0_lt_compat; lra]|]. apply Rmult_le_reg_r with l; [lra|].
    unfold Rdiv. rewrite Rmult_assoc, Rinv_l by lra. lra. }
  assert (E : forall x y, x <= y -> exp x <= exp y) by (intros x y [X| ->]; [left; apply exp_increasing; exact X|lra]).
  destruct Hs as [-> | ->]; simpl; apply E; nra.
Qed.

Lemma ssr_of_shapes s p : ssr_of s = Some p -> s = SquaredExponential \/ s = Exponential.
Proof. destruct s; simpl; intros H; try discriminate; auto. Qed.

(* every feature is so close to an inducing point that their correlation is at least rho(3 / (4 c)): more than 0.994 for the
   squared exponential and 0.96 for the exponential; neighbouring points have correlation at least rho(3 / (2 c)) *)
Theorem C73_coverage s c ssr (l sigma : R) (features : list R) points :
  ssr_of s = Some (c, ssr) -> 0 < l -> ssr (XFin l) (map XFin features) = Ok points ->
  (forall x, In x features -> exists u v, In (XFin u) points /\
     covariance_of s (XFin (Rabs (x - u))) (XFin l) (XFin sigma) = Ok (XFin v) /\ sigma ^ 2 * rho s (3 / (4 * c)) <= v) /\
  (forall i a b, nth_error points i = Some (XFin a) -> nth_error points (S i) = Some (XFin b) ->
     exists v, covariance_of s (XFin (Rabs (b - a))) (XFin l) (XFin sigma) = Ok (XFin v) /\ sigma ^ 2 * rho s (3 / (2 * c)) <= v).
Proof.
  intros H Hl E. destruct (ssr_of_shape _ _ _ H) as [Hc Hs]. pose proof (ssr_of_shapes _ _ H) as Hss.
  assert (Hne : features <> []).
  { intros ->. destruct s; inversion H; subst; discriminate E. }
  destruct (extremes_exist _ Hne) as (lo & hi & A & B).
  destruct (C73_state_space s c ssr l features lo hi H Hl A B) as [OKcase ABcase].
  destruct (Rle_lt_dec (c * (hi - lo) / l) (2 ^ 53 + 1)) as [C|C]; [|rewrite (ABcase C) in E; discriminate].
  destruct (OKcase C) as (points' & n & E' & P & N & L). rewrite E in E'. injection E' as <-.
  pose proof (extremes_le _ _ _ A B) as Hle.
  pose proof (ssr_step c Hc l lo hi points n Hl Hle P N L) as Hstep.
  split.
  - intros x Hx. assert (Hx' : lo <= x <= hi) by (split; [apply A|apply B]; exact Hx).
    destruct (Rle_lt_or_eq_dec lo hi Hle) as [Hlt|Heq].
    + destruct (spaced_nearest lo hi points x P Hlt Hx') as (u & Hu & Hd). exists u.
      destruct (correlation s (Rabs (x - u)) l sigma (3 / (4 * c)) Hss Hl) as (v & V1 & V2).
      * split; [apply Rabs_pos|]. replace (3 / (4 * c) * l) with (3 / (2 * c) * l / 2) by (field; lra). lra.
      * exists v. repeat split; assumption.
    + exists lo. destruct (correlation s (Rabs (x - lo)) l sigma (3 / (4 * c)) Hss Hl) as (v & V1 & V2).
      * replace (x - lo) with 0 by lra. rewrite Rabs_R0. split; [lra|]. apply Rmult_le_pos; [|lra].
        apply Rmult_le_pos; [lra|left; apply Rinv_0_lt_compat; lra].
      * exists v. repeat split; try assumption. destruct (spaced_ends _ _ _ P) as [F _]. exact (nth_error_In _ _ F).
  - intros i a b Ha Hb. assert (Hi : (S i < length points)%nat) by (apply nth_error_Some; congruence).
    destruct P as [_ P]. rewrite P in Ha, Hb by lia. rewrite S_INR in Hb. injection Ha as <-. injection Hb as <-.
    set (h := (hi - lo) / (INR (length points) - 1)) in *.
    assert (Hh : 0 <= h).
    { assert (1 < INR (length points)) by (apply (lt_INR 1); lia). apply Rmult_le_pos; [lra|left; apply Rinv_0_lt_compat; lra]. }
    apply correlation; [exact Hss|exact Hl|].
    replace (lo + (INR i + 1) * h - (lo + INR i * h)) with h by ring. rewrite Rabs_right by lra. lra.
Qed.
Print Assumptions C73_coverage.

Lemma ceiling_small (n : nat) (c lo hi l : R) : is_ceiling n (c * (hi - lo) / l) -> forall k : nat, INR k = c * (hi - lo) / l -> n = k.
Proof.
  intros [H1 H2] k Hk. rewrite <- Hk in H1, H2. apply INR_le in H2.
  assert (INR n < INR (k + 1)) by (rewrite plus_INR; simpl; lra). apply INR_lt in H. lia.
Qed.

Lemma two_least : least 0 [0; 1].
Proof. split; [simpl; auto|]. intros x [<-|[<-|[]]]; lra. Qed.
Lemma two_greatest : greatest 1 [0; 1].
Proof. split; [simpl; auto|]. intros x [<-|[<-|[]]]; lra. Qed.

Example C73_coverage_meets : exists points, squared_exponential_ssr (XFin 1) (map XFin [0; 1]) = Ok points /\ length points = 10%nat.
Proof.
  destruct (C73_state_space SquaredExponential 10 squared_exponential_ssr 1 _ _ _ eq_refl Rlt_0_1 two_least two_greatest) as [K _].
  destruct K as (points & n & E & P & N & L); [lra|]. exists points. split; [exact E|].
  rewrite L, (ceiling_small _ _ _ _ _ N 10); [reflexivity|]. simpl. field.
Qed.

(* the comments promise neighbouring points that decorrelate by at most one percent (squared exponential) and five percent
   (exponential), that is with spacing at most length_scale / 10 and length_scale / 20: n points only have n - 1 gaps *)
Theorem C73_spacing_refuted : exists (features : list R), forall s c ssr, ssr_of s = Some (c, ssr) ->
  exists points a b, ssr (XFin 1) (map XFin features) = Ok points /\
    nth_error points 0 = Some (XFin a) /\ nth_error points 1 = Some (XFin b) /\
    exists v, covariance_of s (XFin (Rabs (b - a))) (XFin 1) (XFin 1) = Ok (XFin v) /\ v < rho s (1 / c).
Proof.
  exists [0; 1]. intros s c ssr H. pose proof (ssr_of_shapes _ _ H) as Hss. destruct (ssr_of_shape _ _ _ H) as [Hc Hs].
  assert (Hk : exists k : nat, INR k = c /\ (3 <= k)%nat /\ c <= 20).
  { destruct s; inversion H; subst; [exists 10%nat|exists 20%nat]; (split; [simpl; lra|split; [lia|lra]]). }
  destruct Hk as (k & Hk & Hk3 & Hk20).
  destruct (C73_state_space s c ssr 1 _ _ _ H Rlt_0_1 two_least two_greatest) as [K _].
  destruct K as (points & n & E & P & N & L).
  { replace (c * (1 - 0) / 1) with c by field. assert (20 <= 2 ^ 53 + 1) by lra. lra. }
  assert (n = k) as -> by (apply (ceiling_small _ _ _ _ _ N); rewrite Hk; field).
  rewrite Nat.max_l in L by lia. destruct P as [P1 P2]. rewrite L, Hk in P2.
  assert (H3 : 3 <= c) by (rewrite <- Hk; apply (le_INR 3) in Hk3; simpl in Hk3; lra).
  exists points, (0 + INR 0 * ((1 - 0) / (c - 1))), (0 + INR 1 * ((1 - 0) / (c - 1))).
  split; [exact E|]. split; [apply P2; lia|]. split; [apply P2; lia|].
  replace (0 + INR 1 * ((1 - 0) / (c - 1)) - (0 + INR 0 * ((1 - 0) / (c - 1)))) with (1 / (c - 1)) by (simpl; field; lra).
  assert (Hg : 1 / c < 1 / (c - 1)) by (unfold Rdiv; rewrite !Rmult_1_l; apply Rinv_lt_contravar; nra).
  assert (H0 : 0 < 1 / c) by (apply Rdiv_lt_0_compat; lra).
  rewrite Rabs_right by lra.
  rewrite covariance_value. destruct (Rle_dec 1 0) as [?|_]; [lra|]. destruct (Rlt_dec (1 / (c - 1)) 0) as [?|_]; [lra|].
  eexists. split; [reflexivity|]. replace (1 / (c - 1) / 1) with (1 / (c - 1)) by (field; lra).
  set (x := 1 / c) in *. set (y := 1 / (c - 1)) in *. clearbody x y.
  replace (1 ^ 2 * rho s y) with (rho s y) by ring.
  destruct Hss as [-> | ->]; simpl; apply exp_increasing; nra.
Qed.
Print Assumptions C73_spacing_refuted.

(* the points of one representation are distinct unless all features are equal *)
Theorem C73_distinct s c ssr (l : R) (features : list R) points x y :
  ssr_of s = Some (c, ssr) -> 0 < l -> ssr (XFin l) (map XFin features) = Ok points ->
  In x features -> In y features -> x <> y -> NoDup points.
Proof.
  intros H Hl E Hx Hy Hxy. destruct (extremes_exist features) as (lo & hi & A & B); [intros ->; exact Hx|].
  destruct (C73_state_space s c ssr l features lo hi H Hl A B) as [OKcase ABcase].
  destruct (Rle_lt_dec (c * (hi - lo) / l) (2 ^ 53 + 1)) as [C|C]; [|rewrite (ABcase C) in E; discriminate].
  destruct (OKcase C) as (points' & n & E' & P & N & L). rewrite E in E'. injection E' as <-.
  apply (spaced_distinct _ _ _ P). destruct A as [_ A], B as [_ B].
  pose proof (A _ Hx). pose proof (A _ Hy). pose proof (B _ Hx). pose proof (B _ Hy). lra.
Qed.
Print Assumptions C73_distinct.

(* sum and product: the points of the left representation and then those of the right one; a covariance function without one
   is passed over, and without any the strategy does not compile *)
Theorem C73_sum (lhs rhs : representation) (features : list xr) :
  (forall l r a b, lhs = Some l -> rhs = Some r -> l features = Ok a -> r features = Ok b ->
     state_space_strategy (both_ssr lhs rhs) features = Some (Ok (a ++ b))) /\
  (forall l r, lhs = Some l -> rhs = Some r ->
     ~ (exists points, l features = Ok points) -> state_space_strategy (both_ssr lhs rhs) features = Some (l features)) /\
  (forall l r a, lhs = Some l -> rhs = Some r -> l features = Ok a ->
     ~ (exists points, r features = Ok points) -> state_space_strategy (both_ssr lhs rhs) features = Some (r features)) /\
  (rhs = None -> both_ssr lhs rhs = lhs) /\ (lhs = None -> both_ssr lhs rhs = rhs).
Proof.
  split; [|split; [|split; [|split]]].
  - intros l r a b -> -> Ha Hb. simpl. rewrite Ha. simpl. rewrite Hb. reflexivity.
  - intros l r -> -> H. simpl. destruct (l features) as [v| | |]; try reflexivity. destruct H. eauto.
  - intros l r a -> -> Ha H. simpl. rewrite Ha. simpl. destruct (r features) as [v| | |]; try reflexivity. destruct H. eauto.
  - intros ->. destruct lhs; reflexivity.
  - intros ->. destruct rhs; reflexivity.
Qed.
Print Assumptions C73_sum.

(* the inducing points of a sum of two representations are never distinct: both contain the least and the greatest feature.
   Nor are those of one representation when all the features are equal *)
Theorem C73_duplicates_refuted (l1 l2 : R) (features : list R) points s1 c1 ssr1 s2 c2 ssr2 :
  ssr_of s1 = Some (c1, ssr1) -> ssr_of s2 = Some (c2, ssr2) -> 0 < l1 -> 0 < l2 ->
  (state_space_strategy (both_ssr (Some (ssr1 (XFin l1))) (Some (ssr2 (XFin l2)))) (map XFin features) = Some (Ok points) ->
   ~ NoDup points) /\
  (state_space_strategy (Some (ssr1 (XFin l1))) (map XFin features) = Some (Ok points) ->
   (forall x y, In x features -> In y features -> x = y) -> ~ NoDup points).
Proof.
  intros H1 H2 L1 L2.
  assert (G : forall s c ssr l points, ssr_of s = Some (c, ssr) -> 0 < l -> ssr (XFin l) (map XFin features) = Ok points ->
            exists lo hi, least lo features /\ greatest hi features /\ evenly_spaced lo hi points).
  { clear. intros s c ssr l points H Hl E.
    assert (Hne : features <> []) by (intros ->; destruct s; inversion H; subst; discriminate E).
    destruct (extremes_exist _ Hne) as (lo & hi & A & B). exists lo, hi. split; [exact A|]. split; [exact B|].
    destruct (C73_state_space s c ssr l features lo hi H Hl A B) as [OKcase ABcase].
    destruct (Rle_lt_dec (c * (hi - lo) / l) (2 ^ 53 + 1)) as [C|C]; [|rewrite (ABcase C) in E; discriminate].
    destruct (OKcase C) as (points' & n & E' & P & N & L). rewrite E in E'. injection E' as <-. exact P. }
  split.
  - simpl. intros E. injection E as E. apply bind_ok in E. destruct E as (a & Ea & E). apply bind_ok in E. destruct E as (b & Eb & E).
    injection E as <-. destruct (G _ _ _ _ _ H1 L1 Ea) as (lo & hi & A & B & P). destruct (G _ _ _ _ _ H2 L2 Eb) as (lo' & hi' & A' & B' & P').
    rewrite <- (least_unique _ _ _ A A') in P'. rewrite <- (greatest_unique _ _ _ B B') in P'.
    destruct (spaced_ends _ _ _ P) as [F _]. destruct (spaced_ends _ _ _ P') as [F' _].
    apply nth_error_In in F. apply nth_error_In in F'.
    intros HN. apply in_split in F. destruct F as (u & v & ->). rewrite <- app_assoc in HN. simpl in HN.
    apply NoDup_remove_2 in HN. apply HN. apply in_or_app. right. apply in_or_app. right. exact F'.
  - simpl. intros E Heq. injection E as E. destruct (G _ _ _ _ _ H1 L1 E) as (lo & hi & A & B & P).
    rewrite (Heq hi lo (proj1 B) (proj1 A)) in P. exact (spaced_constant _ _ P).
Qed.
Print Assumptions C73_duplicates_refuted.

Example C73_duplicates_meets : exists points,
  state_space_strategy (both_ssr (Some (squared_exponential_ssr (XFin 1))) (Some (exponential_ssr (XFin 1)))) (map XFin [0; 1])
    = Some (Ok points) /\ length points = 30%nat.
Proof.
  destruct (C73_state_space SquaredExponential 10 squared_exponential_ssr 1 _ _ _ eq_refl Rlt_0_1 two_least two_greatest) as [K _].
  destruct K as (a & n & E & P & N & L); [lra|].
  destruct (C73_state_space Exponential 20 exponential_ssr 1 _ _ _ eq_refl Rlt_0_1 two_least two_greatest) as [K _].
  destruct K as (b & m & E' & P' & N' & L'); [lra|].
  exists (a ++ b). split; [cbn [both_ssr state_space_strategy option_map]; rewrite E; cbn [bind]; rewrite E'; reflexivity|].
  rewrite app_length, L, L', (ceiling_small _ _ _ _ _ N 10), (ceiling_small _ _ _ _ _ N' 20); [reflexivity| |]; simpl; field.
Qed.

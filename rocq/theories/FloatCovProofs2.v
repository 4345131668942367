(* Concrete double precision computations. *)
From Coq Require Import ZArith Reals Lra List Bool Lia Permutation.
From Flocq Require Import Core Plus_error Relative IEEE754.BinarySingleNaN.
From Verif Require Import Base FloatModel FloatProofs FloatCovModel FloatCovSpec FloatCovProofs.
Import ListNotations.
Local Open Scope R_scope.

Lemma fval_finite : forall m e, finite (fval m e) -> R64 (fval m e) = rnd64 (F2R (Float radix2 m e)).
Proof.
  intros m e F. generalize (binary_normalize_correct 53 1024 prec_pos prec_emax mode_NE m e false). cbv zeta.
  case Rlt_bool_spec; intros H.
  - intros [A _]. exact A.
  - intros A. apply ovf_inf in A. unfold finite, fval in F. rewrite A in F. discriminate.
Qed.
(* a number between two numbers that round to the same double *)
Lemma rnd_squeeze : forall (t : b64) m1 m2 e v, finite t -> B2SF (fval m1 e) = B2SF t -> B2SF (fval m2 e) = B2SF t ->
  F2R (Float radix2 m1 e) <= v <= F2R (Float radix2 m2 e) -> rnd64 v = R64 t.
Proof.
  intros t m1 m2 e v F E1 E2 [H1 H2]. apply B2SF_inj in E1, E2.
  assert (A1 := fval_finite m1 e). assert (A2 := fval_finite m2 e). rewrite E1 in A1. rewrite E2 in A2.
  specialize (A1 F). specialize (A2 F).
  apply Rle_antisym.
  - rewrite A2. now apply round_le; [ typeclasses eauto | typeclasses eauto | ].
  - rewrite A1. now apply round_le; [ typeclasses eauto | typeclasses eauto | ].
Qed.
Lemma exp_neg_bounds : forall s, 0 <= s -> 1 - s <= exp (- s) <= 1 - s + s * s.
Proof.
  intros s Hs. split.
  - generalize (exp_ineq1_le (- s)). lra.
  - assert (E : exp (- s) * exp s = 1) by (rewrite <- exp_plus, Rplus_opp_l; apply exp_0).
    assert (A := exp_ineq1_le s). assert (P := exp_pos (- s)).
    assert (exp (- s) * (1 + s) <= 1) by nra. nra.
Qed.

Section Excess.
Variable exp_ : b64 -> b64.
Hypothesis EX : exp_rounded exp_.
(* exp at - m 2^-102 *)
Lemma exp_at : forall (s t : b64) (m : Z), B2SF s = SpecFloat.S754_finite false (Z.to_pos m) (-102) -> (0 < m)%Z ->
  finite t -> nonneg t ->
  B2SF (fval ((2 ^ 102 - m) * 2 ^ 102) (-204)) = B2SF t -> B2SF (fval ((2 ^ 102 - m) * 2 ^ 102 + m * m) (-204)) = B2SF t ->
  exp_ (fneg s) = t.
Proof.
  intros s t m S M Ft Nt E1 E2.
  assert (Fs : finite s) by (destruct s; try discriminate; reflexivity).
  assert (V : R64 s = IZR m * bpow radix2 (-102)).
  { rewrite <- SF2R_B2SF, S. unfold SF2R, F2R. cbn [cond_Zopp Defs.Fnum Defs.Fexp]. f_equal. f_equal.
    rewrite Z2Pos.id; trivial. }
  assert (B : bpow radix2 (-204) = bpow radix2 (-102) * bpow radix2 (-102)) by (rewrite <- bpow_plus; reflexivity).
  assert (B2 : IZR (2 ^ 102) * bpow radix2 (-102) = 1).
  { change (IZR (2 ^ 102)) with (bpow radix2 102). rewrite <- bpow_plus. reflexivity. }
  assert (P : 0 < bpow radix2 (-102)) by apply bpow_gt_0.
  assert (M' : 0 < IZR m) by now apply IZR_lt.
  assert (V0 : 0 < R64 s) by (rewrite V; nra).
  destruct (EX (fneg s)) as [F [N Rn]].
  - unfold is_fin, fneg. now rewrite is_finite_Bopp.
  - unfold fneg. rewrite B2R_Bopp. lra.
  - assert (Q : R64 (exp_ (fneg s)) = R64 t).
    { rewrite Rn. unfold fneg. rewrite B2R_Bopp. apply (rnd_squeeze t _ _ _ _ Ft E1 E2).
      destruct (exp_neg_bounds (R64 s)) as [L U]; [ lra | ].
      unfold F2R, Defs.Fnum, Defs.Fexp. rewrite B, plus_IZR, !mult_IZR, minus_IZR.
      set (b := bpow radix2 (-102)) in *. set (c := IZR (2 ^ 102)) in *. set (mm := IZR m) in *.
      assert (X1 : (c - mm) * c * (b * b) = 1 - R64 s).
      { rewrite V. replace ((c - mm) * c * (b * b)) with ((c * b) * (c * b) - mm * b * (c * b)) by ring. rewrite B2. ring. }
      assert (X2 : ((c - mm) * c + mm * mm) * (b * b) = 1 - R64 s + R64 s * R64 s).
      { rewrite Rmult_plus_distr_r, X1, V. ring. }
      rewrite X1, X2. lra. }
    apply B2R_Bsign_inj; trivial. destruct N as [_ N], Nt as [_ Nt]. congruence.
Qed.

Lemma bits : forall x y : b64, B2SF x = B2SF y -> x = y.
Proof. intros x y. apply B2SF_inj. Qed.

Lemma matern_32_excess :
  matern_32 exp_ (fval 13 (-54)) fone (fval 3 0) = Ok (fval 5066549580791809 (-49)).
Proof.
  unfold matern_32. change (fle fone fzero) with false. change (fle fzero (fval 13 (-54))) with true. unfold assert_then. cbv zeta.
  set (s := fdiv _ fone). assert (E : exp_ (fneg s) = fval 9007199254740981 (-53)).
  { apply (exp_at s _ 6337876489387594); try (vm_compute; reflexivity); split; vm_compute; reflexivity. }
  rewrite E. unfold s.
  f_equal. apply bits. vm_compute. reflexivity.
Qed.
Lemma matern_52_excess :
  exists v, matern_52 exp_ (fval 10 (-54)) fone (fval 3 0) = Ok v /\ B2SF v = B2SF (fval 5066549580791809 (-49)).
Proof.
  unfold matern_52. change (fle fone fzero) with false. change (fle fzero (fval 10 (-54))) with true. unfold assert_then. cbv zeta.
  set (s := fdiv _ fone). assert (E : exp_ (fneg s) = fval 9007199254740981 (-53)).
  { apply (exp_at s _ 6293971818901970); try (vm_compute; reflexivity); split; vm_compute; reflexivity. }
  rewrite E. unfold s.
  eexists; split; [ reflexivity | ]. vm_compute. reflexivity.
Qed.
End Excess.

(* ---------- a correctly rounded exp exists ---------- *)
Definition fround (r : R) : b64 := fval (ZnearestE (scaled_mantissa radix2 b64_exp r)) (cexp radix2 b64_exp r).
Lemma fround_correct : forall r, Rabs (rnd64 r) < bpow radix2 1024 ->
  finite (fround r) /\ R64 (fround r) = rnd64 r /\ (0 < r -> Bsign (fround r) = false).
Proof.
  intros r H. unfold fround.
  generalize (binary_normalize_correct 53 1024 prec_pos prec_emax mode_NE
    (ZnearestE (scaled_mantissa radix2 b64_exp r)) (cexp radix2 b64_exp r) false). cbv zeta.
  change (F2R (Float radix2 (ZnearestE (scaled_mantissa radix2 b64_exp r)) (cexp radix2 b64_exp r))) with (rnd64 r).
  cbn [round_mode]. rewrite (round_generic radix2 b64_exp ZnearestE (rnd64 r)) by (apply generic_format_round; typeclasses eauto).
  rewrite Rlt_bool_true by exact H. intros [A [B C]]. split; [ exact B | ]. split; [ exact A | ].
  intros P. unfold fval. rewrite C. case Rcompare_spec; trivial. intros N. exfalso.
  assert (0 <= rnd64 r); [ | lra ]. apply round_ge_generic; try typeclasses eauto; [ apply generic_format_0 | lra ].
Qed.
Definition exp_correct (x : b64) : b64 :=
  match x with
  | B754_zero _ => fone
  | B754_infinity true => fzero
  | B754_infinity false => infinity
  | B754_nan => B754_nan
  | B754_finite _ _ _ _ => fround (exp (R64 x))
  end.
Lemma rnd_one : rnd64 1 = 1.
Proof. rewrite <- (Bone_correct 53 1024 prec_pos prec_emax). apply rnd_id. Qed.
Lemma one_bound : 1 < bpow radix2 1024.
Proof. assert (X : bpow radix2 0 < bpow radix2 1024) by (apply bpow_lt; lia). exact X. Qed.
Lemma rnd_exp_range : forall r, r <= 0 -> 0 <= rnd64 (exp r) <= 1.
Proof.
  intros r H. split.
  - apply round_ge_generic; try typeclasses eauto; [ apply generic_format_0 | left; apply exp_pos ].
  - rewrite <- rnd_one. apply round_le; try typeclasses eauto.
    rewrite <- exp_0. destruct H as [H | ->]; [ left; now apply exp_increasing | right; reflexivity ].
Qed.
Lemma exp_correct_ok : exp_rounded exp_correct.
Proof.
  intros x F H. destruct x as [s | s | | s m e B]; try discriminate F.
  - cbn [exp_correct]. split; [ reflexivity | ]. split; [ split; reflexivity | ].
    unfold fone. rewrite Bone_correct. cbn. rewrite exp_0. symmetry. exact rnd_one.
  - cbn [exp_correct]. set (x := B754_finite s m e B) in *. assert (Q := rnd_exp_range _ H).
    destruct (fround_correct (exp (R64 x))) as [P1 [P2 P3]].
    { rewrite Rabs_pos_eq by apply Q. generalize one_bound. lra. }
    split; [ exact P1 | ]. split; [ | exact P2 ].
    split; [ now apply finite_not_nan | apply P3, exp_pos ].
Qed.
Lemma exp_small : rnd64 (exp (-1100)) = 0.
Proof.
  assert (B : exp (-1100) <= F2R (Float radix2 1 (-1100))).
  { unfold F2R, Defs.Fnum, Defs.Fexp. rewrite Rmult_1_l. replace (-1100) with (- (1100)) by lra. rewrite exp_Ropp.
    change (-1100)%Z with (- (1100))%Z. rewrite (bpow_opp radix2 1100). apply Rinv_le; [ apply bpow_gt_0 | ].
    assert (E : exp 1100 = exp 1 ^ 1100).
    { rewrite <- Rpower_pow by apply exp_pos. unfold Rpower. rewrite ln_exp. f_equal. rewrite INR_IZR_INZ. cbn. lra. }
    rewrite E. rewrite bpow_powerRZ. change 1100%Z with (Z.of_nat 1100). rewrite <- pow_powerRZ.
    apply pow_incr. cbn. generalize (exp_ineq1_le 1). lra. }
  change 0 with (R64 fzero). apply (rnd_squeeze fzero 0 1 (-1100)); try (vm_compute; reflexivity).
  split; [ rewrite F2R_0; left; apply exp_pos | exact B ].
Qed.
Lemma exp_correct_contract : exp_contract exp_correct.
Proof.
  split.
  - reflexivity.
  - intros x N. assert (X := exp_correct_ok (fneg x)).
    destruct (nonneg_cases x N) as [-> | [F [S P]]].
    + cbn. repeat split. cbn. lra.
    + assert (L : R64 (fneg x) <= 0) by (unfold fneg; rewrite B2R_Bopp; lra).
      destruct X as [A [B C]]; [ unfold is_fin, fneg; now rewrite is_finite_Bopp | exact L | ].
      split; [ exact A | ]. split; [ exact B | ]. rewrite C. now apply rnd_exp_range.
  - intros x F H. destruct (exp_correct_ok x F) as [A [B C]]; [ lra | ].
    assert (E : rnd64 (exp (R64 x)) = 0).
    { apply Rle_antisym; [ | apply rnd_exp_range; lra ]. rewrite <- exp_small. apply round_le; try typeclasses eauto.
      destruct H as [H | ->]; [ left; now apply exp_increasing | right; reflexivity ]. }
    apply B2R_Bsign_inj; trivial; [ now rewrite C, E | apply B ].
  - reflexivity.
Qed.
Lemma pow2_square : pow2_contract (fun x => fmul x x).
Proof. split; [ intros []; reflexivity | exact square_nonneg ]. Qed.
(* a function with the properties assumed of acos *)
Definition acos_like (x : b64) : b64 := if is_nan x then B754_nan else if flt x fone then fone else fzero.
Lemma acos_like_contract : acos_contract acos_like.
Proof.
  assert (R1 : R64 fone = 1) by apply Bone_correct.
  split.
  - intros x F H. unfold acos_like. destruct (is_nan x) eqn:N; [ destruct x; discriminate | ].
    destruct (flt x fone); repeat split.
  - intros x F H. unfold acos_like. destruct (is_nan x) eqn:N; [ destruct x; discriminate | ].
    rewrite flt_R by (trivial || reflexivity). rewrite R1, Rlt_bool_true by lra. rewrite R1. lra.
  - intros x N. unfold acos_like. unfold is_NaN in N. rewrite N. reflexivity.
Qed.

(* ---------- sums of two equal numbers ---------- *)
Lemma sum_of_length : forall l c, sum_of l c -> (1 <= length l)%nat.
Proof.
  intros l c H. induction H as [ | ? ? ? ? ? ? ? ? ? P]; cbn; [ lia | ].
  apply Permutation_length in P. rewrite app_length in P. lia.
Qed.
Lemma sum_of_pair : forall x a, sum_of [x; x] a -> a = fadd x x.
Proof.
  intros x a H. remember [x; x] as l eqn:E. destruct H as [y | l1 l2 l a b H1 H2 P]; [ discriminate | subst l ].
  assert (L1 := sum_of_length _ _ H1). assert (L2 := sum_of_length _ _ H2).
  assert (L := Permutation_length P). rewrite app_length in L. cbn in L.
  destruct l1 as [ | y1 [ | ] ]; cbn in L, L1; try lia. destruct l2 as [ | y2 [ | ] ]; cbn in L, L2; try lia.
  assert (I1 : In y1 [x; x]) by (apply (Permutation_in _ (Permutation_sym P)); left; reflexivity).
  assert (I2 : In y2 [x; x]) by (apply (Permutation_in _ (Permutation_sym P)); right; left; reflexivity).
  assert (y1 = x) by (cbn in I1; tauto || (destruct I1 as [ | [ | [] ] ]; congruence)).
  assert (y2 = x) by (cbn in I2; tauto || (destruct I2 as [ | [ | [] ] ]; congruence)).
  subst. apply sum_of_singleton in H1, H2. now subst.
Qed.
Definition in_order (l : list b64) : b64 := match l with [] => fzero | x :: l => fold_left fadd l x end.
Lemma in_order_adds_up : adds_up in_order.
Proof.
  split; [ reflexivity | ]. intros [ | x l ] H; [ congruence | clear H ]. cbn.
  assert (G : forall l l0 a, sum_of l0 a -> sum_of (l0 ++ l) (fold_left fadd l a)).
  { clear. induction l as [ | y l IH]; intros l0 a H; [ rewrite app_nil_r; exact H | ].
    cbn. replace (l0 ++ y :: l) with ((l0 ++ [y]) ++ l) by now rewrite <- app_assoc.
    apply IH. eapply sum_add; [ exact H | apply sum_one | reflexivity ]. }
  apply (G l [x] x). constructor.
Qed.

Lemma angular_self : forall redux acos_, adds_up redux -> acos_contract acos_ ->
  exists v, angular_distance redux acos_ [fone; fone] [fone; fone] = Ok v /\ 0 < R64 v.
Proof.
  intros redux acos_ RX AC. rewrite angular_angle by reflexivity. eexists; split; [ reflexivity | ].
  set (q := fdiv _ _).
  assert (E : B2SF q = SpecFloat.S754_finite false 9007199254740990 (-53)).
  { unfold q, fdot, fnorm. cbn [map combine fst snd].
    replace (fmul fone fone) with fone by (apply bits; vm_compute; reflexivity).
    assert (S : redux [fone; fone] = fadd fone fone) by (apply sum_of_pair, RX; discriminate).
    rewrite S. vm_compute. reflexivity. }
  assert (V : R64 q = 1 - / 4503599627370496).
  { rewrite <- SF2R_B2SF, E. unfold SF2R, F2R, cond_Zopp, Defs.Fnum, Defs.Fexp, bpow.
    change (Z.pow_pos radix2 53) with 9007199254740992%Z. lra. }
  assert (F : finite q) by (destruct q; try discriminate; reflexivity).
  destruct (angle_cases acos_ q) as [[N _] | [[_ [Q | Q]] | [[_ [Q | Q]] | [_ [B ->]]]]].
  - destruct q; discriminate.
  - rewrite Q in E. discriminate.
  - lra.
  - rewrite Q in E. discriminate.
  - lra.
  - apply (acos_positive _ AC); trivial. lra.
Qed.

(* ---------- accuracy of the distance ---------- *)
Lemma euclidean_accuracy : forall x y : b64, finite x -> finite y ->
  euclidean x y = infinity
  \/ exists eps, Rabs eps <= bpow radix2 (-53) /\ R64 (euclidean x y) = Rabs (R64 x - R64 y) * (1 + eps).
Proof.
  intros x y Fx Fy. unfold euclidean. destruct (fsub_finite_cases x y Fx Fy) as [[A [B C]] | [A B]].
  - right. assert (Fy' := generic_format_opp _ _ _ (format64 y)).
    assert (PP : Prec_gt_0 53) by reflexivity.
    destruct (@FLT_plus_error_N_ex radix2 (3 - 1024 - 53) 53 PP (fun t => negb (Z.even t)) (R64 x) (- R64 y) (format64 x) Fy')
      as [eps [H1 H2]].
    exists eps. split.
    + eapply Rle_trans; [ exact H1 | ]. unfold u_ro. set (u := / 2 * bpow radix2 (- (53) + 1)).
      assert (U : u = bpow radix2 (-53)).
      { unfold u. change (/ 2) with (bpow radix2 (-1)). rewrite <- bpow_plus. reflexivity. }
      assert (P : 0 < u) by (rewrite U; apply bpow_gt_0). rewrite <- U.
      apply (Rmult_le_reg_r (1 + u)); [ lra | ]. unfold Rdiv. rewrite Rmult_assoc, Rinv_l by lra. nra.
    + unfold fabs. rewrite B2R_Babs, B. change (R64 x - R64 y) with (R64 x + - R64 y).
      change b64_exp with (FLT_exp (3 - 1024 - 53) 53). rewrite H2. rewrite Rabs_mult. f_equal.
      apply Rabs_pos_eq.
      assert (E1 : Rabs eps <= 1).
      { eapply Rle_trans; [ exact H1 | ]. unfold u_ro. set (u := / 2 * bpow radix2 (- (53) + 1)).
        assert (P : 0 < u) by (unfold u; apply Rmult_lt_0_compat; [ lra | apply bpow_gt_0 ]).
        apply (Rmult_le_reg_r (1 + u)); [ lra | ]. unfold Rdiv. rewrite Rmult_assoc, Rinv_l by lra. lra. }
      apply Rabs_le_inv in E1. lra.
  - left. rewrite A. reflexivity.
Qed.

(* ---------- computed witnesses ---------- *)
Lemma fval_pos : forall m e, finite (fval m e) -> B2SF (fval m e) <> SpecFloat.S754_zero false -> Bsign (fval m e) = false ->
  0 < R64 (fval m e).
Proof.
  intros m e F Z S. destruct (fval m e) as [s | | | s p q B]; try discriminate.
  - cbn in S. subst s. now contradict Z.
  - cbn in S. subst s. cbn. apply F2R_gt_0. cbn. lia.
Qed.

Lemma fmul_inf_zero : fmul infinity fzero = B754_nan.
Proof. reflexivity. Qed.

Lemma matern_52_nan : forall exp_, exp_contract exp_ ->
  matern_52 exp_ fone (fval 1 (-600)) fone = Ok B754_nan.
Proof.
  intros exp_ EX. unfold matern_52. change (fle (fval 1 (-600)) fzero) with false. change (fle fzero fone) with true.
  unfold assert_then. cbv zeta. set (s := fdiv _ (fval 1 (-600))).
  assert (E : exp_ (fneg s) = fzero).
  { apply (exp_underflow _ EX).
    - vm_compute. reflexivity.
    - unfold fneg. rewrite B2R_Bopp.
      assert (V : B2SF s = SpecFloat.S754_finite false 5035177455121576 549) by (vm_compute; reflexivity).
      rewrite <- SF2R_B2SF, V. unfold SF2R, F2R, cond_Zopp, Defs.Fnum, Defs.Fexp.
      assert (bpow radix2 0 <= bpow radix2 549) by (apply bpow_le; lia). change (bpow radix2 0) with 1 in *. lra. }
  rewrite E. reflexivity.
Qed.
Lemma matern_32_nan : forall exp_, exp_contract exp_ ->
  matern_32 exp_ (fval 1 1023) (fval 1 (-1)) fone = Ok B754_nan.
Proof.
  intros exp_ EX. unfold matern_32. change (fle (fval 1 (-1)) fzero) with false. change (fle fzero (fval 1 1023)) with true.
  unfold assert_then. cbv zeta. set (s := fdiv _ (fval 1 (-1))).
  assert (S : s = infinity) by (apply bits; vm_compute; reflexivity). rewrite S.
  change (fneg infinity) with (@B754_infinity 53 1024 true). rewrite (exp_minus_infinity _ EX).
  reflexivity.
Qed.

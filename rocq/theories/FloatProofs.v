From Coq Require Import ZArith Reals Lra List Bool Lia.
From Flocq Require Import Core Plus_error IEEE754.BinarySingleNaN.
From Verif Require Import FloatModel.
Local Open Scope R_scope.

Notation b64_exp := (SpecFloat.fexp 53 1024).
Notation rnd64 := (round radix2 b64_exp ZnearestE).
Notation R64 := (@B2R 53 1024).

Definition finite (x : b64) : Prop := is_finite x = true.
(* zero or positive or +infinity, and not the negative zero *)
Definition nonneg (x : b64) : Prop := is_nan x = false /\ Bsign x = false.

Global Instance valid64 : Valid_exp b64_exp := fexp_correct 53 1024 prec_pos.
Global Instance mono64 : Monotone_exp b64_exp := fexp_monotone 53 1024.
Lemma format64 : forall x : b64, generic_format radix2 b64_exp (R64 x).
Proof. intros; apply generic_format_B2R. Qed.
Lemma rnd_id : forall x : b64, rnd64 (R64 x) = R64 x.
Proof. intros; apply round_generic; [ typeclasses eauto | apply format64 ]. Qed.
Lemma bound64 : forall x : b64, Rabs (R64 x) < bpow radix2 1024.
Proof. intros; apply abs_B2R_lt_emax. Qed.
Global Instance not_ftz : Exp_not_FTZ b64_exp.
Proof. apply monotone_exp_not_FTZ; [ exact valid64 | exact mono64 ]. Qed.

Lemma ovf_inf : forall (x : b64) s, B2SF x = binary_overflow 53 1024 mode_NE s -> x = B754_infinity s.
Proof. intros x s H. destruct x; cbn in H; try discriminate. now inversion H. Qed.

Lemma finite_not_nan : forall x : b64, finite x -> is_nan x = false.
Proof. intros [ | | |]; easy. Qed.

(* subtraction of finite numbers *)
Lemma fsub_finite_cases : forall x y : b64, finite x -> finite y ->
  (finite (fsub x y) /\ R64 (fsub x y) = rnd64 (R64 x - R64 y) /\ Rabs (rnd64 (R64 x - R64 y)) < bpow radix2 1024)
  \/ (fsub x y = B754_infinity (Bsign x) /\ bpow radix2 1024 <= Rabs (rnd64 (R64 x - R64 y))).
Proof.
  intros x y Hx Hy. generalize (Bminus_correct 53 1024 prec_pos prec_emax mode_NE x y Hx Hy).
  cbn [round_mode]. case Rlt_bool_spec; intros H.
  - intros [A [B _]]. left. auto.
  - intros [A _]. right. split; [ | exact H ]. now apply ovf_inf.
Qed.

Lemma fsub_not_nan : forall x y : b64, finite x -> finite y -> is_nan (fsub x y) = false.
Proof.
  intros x y Hx Hy. destruct (fsub_finite_cases x y Hx Hy) as [[A _] | [-> _]]; [ now apply finite_not_nan | reflexivity ].
Qed.

Lemma fabs_eq : forall a b : b64, finite a -> finite b -> Rabs (R64 a) = Rabs (R64 b) -> fabs a = fabs b.
Proof.
  intros a b Ha Hb E. apply B2R_Bsign_inj; unfold fabs.
  - now rewrite is_finite_Babs.
  - now rewrite is_finite_Babs.
  - now rewrite !B2R_Babs.
  - rewrite !Bsign_Babs; auto using finite_not_nan.
Qed.

Lemma rnd_opp : forall r, rnd64 (- r) = - rnd64 r.
Proof. apply round_NE_opp. Qed.

Lemma fabs_fsub_sym : forall x y : b64, fabs (fsub x y) = fabs (fsub y x).
Proof.
  intros x y.
  destruct (is_finite x) eqn:Hx; [ destruct (is_finite y) eqn:Hy | ].
  - assert (E : rnd64 (R64 y - R64 x) = - rnd64 (R64 x - R64 y)).
    { rewrite <- rnd_opp. f_equal. ring. }
    destruct (fsub_finite_cases x y Hx Hy) as [[A [B C]] | [A B]];
      destruct (fsub_finite_cases y x Hy Hx) as [[A' [B' C']] | [A' B']]; rewrite E in *.
    + apply fabs_eq; trivial. rewrite B, B'. now rewrite Rabs_Ropp.
    + rewrite Rabs_Ropp in B'. lra.
    + rewrite Rabs_Ropp in C'. lra.
    + now rewrite A, A'.
  - destruct x as [? | ? | |], y as [? | ? | |]; try discriminate; cbn; reflexivity.
  - destruct x as [? | ? | |], y as [? | ? | |]; try discriminate; cbn; try reflexivity;
      repeat match goal with s : bool |- _ => destruct s end; reflexivity.
Qed.

Lemma fabs_nonneg : forall x : b64, is_nan x = false -> nonneg (fabs x).
Proof. intros x H. split; [ unfold fabs; now rewrite is_nan_Babs | now apply Bsign_Babs ]. Qed.

Lemma rnd_sub_zero : forall x y : b64, rnd64 (R64 x - R64 y) = 0 -> R64 x = R64 y.
Proof.
  intros x y H. destruct (Req_dec (R64 x - R64 y) 0) as [E | E]; [ lra | exfalso ].
  revert H. unfold Rminus. apply round_plus_neq_0; try typeclasses eauto.
  - apply format64.
  - apply generic_format_opp, format64.
  - exact E.
Qed.

Lemma fabs_fsub_zero : forall x y : b64, finite x -> finite y ->
  (fabs (fsub x y) = fzero <-> R64 x = R64 y).
Proof.
  intros x y Hx Hy. split.
  - intros H. destruct (fsub_finite_cases x y Hx Hy) as [[A [B C]] | [A B]].
    + apply rnd_sub_zero. rewrite <- B.
      assert (E : R64 (fabs (fsub x y)) = 0) by (rewrite H; reflexivity).
      unfold fabs in E. rewrite B2R_Babs in E. destruct (Req_dec (R64 (fsub x y)) 0) as [Z | Z]; [ exact Z | ].
      exfalso. now apply (Rabs_no_R0 _ Z).
    + rewrite A in H. discriminate.
  - intros E. destruct (fsub_finite_cases x y Hx Hy) as [[A [B C]] | [A B]].
    + rewrite E, Rminus_diag_eq, round_0 in B by (trivial || typeclasses eauto).
      apply B2R_Bsign_inj; unfold fabs; rewrite ?is_finite_Babs, ?B2R_Babs, ?Bsign_Babs; auto using finite_not_nan.
      rewrite B. cbn. apply Rabs_R0.
    + rewrite E, Rminus_diag_eq, round_0, Rabs_R0 in B by (trivial || typeclasses eauto).
      generalize (bpow_gt_0 radix2 1024). lra.
Qed.

(* order *)
Lemma fle_zero_nonneg : forall x : b64, nonneg x -> fle fzero x = true.
Proof.
  intros [s | s | | s m e B] [N S]; cbn in *; try discriminate; subst; reflexivity.
Qed.
Lemma nonneg_cases : forall x : b64, nonneg x -> x = B754_infinity false \/ (finite x /\ Bsign x = false /\ 0 <= R64 x).
Proof.
  intros [s | s | | s m e B] [N S]; cbn in *; try discriminate; subst; auto.
  - right. repeat split. cbn. lra.
  - right. repeat split. cbn. apply F2R_ge_0. cbn. lia.
Qed.
Lemma finite_nonneg : forall x : b64, finite x -> Bsign x = false -> nonneg x.
Proof. intros; split; auto using finite_not_nan. Qed.

Lemma fle_R : forall x y : b64, finite x -> finite y -> fle x y = Rle_bool (R64 x) (R64 y).
Proof. intros. now apply Bleb_correct. Qed.

Lemma fle_zero_false : forall l : b64, finite l -> 0 < R64 l -> fle l fzero = false.
Proof.
  intros l Hl H. rewrite fle_R by (trivial || reflexivity). apply Rle_bool_false. exact H.
Qed.
Lemma pos_sign : forall l : b64, 0 < R64 l -> Bsign l = false.
Proof.
  intros [s | s | | s m e B]; cbn; try lra. destruct s; trivial. intros H. exfalso.
  assert (F2R (Float radix2 (Z.neg m) e) < 0) by (apply F2R_lt_0; reflexivity). cbn in *. lra.
Qed.

(* division of a nonnegative number by a finite positive one *)
Lemma fdiv_nonneg : forall d l : b64, nonneg d -> finite l -> 0 < R64 l -> nonneg (fdiv d l).
Proof.
  intros d l Hd Hl L. destruct (nonneg_cases d Hd) as [-> | [F [S _]]].
  - assert (SL := pos_sign l L). destruct l; cbn in *; try discriminate; try lra. subst s. split; reflexivity.
  - generalize (Bdiv_correct 53 1024 prec_pos prec_emax mode_NE d l (Rgt_not_eq _ _ L)).
    case Rlt_bool_spec; intros H.
    + intros [A [B C]]. change (is_finite (fdiv d l) = is_finite d) in B. rewrite F in B.
      assert (N : is_nan (fdiv d l) = false) by now apply finite_not_nan.
      split; [ exact N | ]. unfold fdiv. rewrite (C N), S, (pos_sign l L). reflexivity.
    + intros A. apply ovf_inf in A. change (fdiv d l = B754_infinity (xorb (Bsign d) (Bsign l))) in A. rewrite A, S, (pos_sign l L). split; reflexivity.
Qed.
Lemma fdiv_zero : forall l : b64, finite l -> 0 < R64 l -> fdiv fzero l = fzero.
Proof.
  intros l Hl L. assert (S := pos_sign l L). destruct l; cbn in *; try discriminate; try lra. now subst s.
Qed.

(* multiplication *)
Lemma fmul_finite_cases : forall x y : b64, finite x -> finite y ->
  (finite (fmul x y) /\ R64 (fmul x y) = rnd64 (R64 x * R64 y) /\ Rabs (rnd64 (R64 x * R64 y)) < bpow radix2 1024
    /\ Bsign (fmul x y) = xorb (Bsign x) (Bsign y))
  \/ (fmul x y = B754_infinity (xorb (Bsign x) (Bsign y)) /\ bpow radix2 1024 <= Rabs (rnd64 (R64 x * R64 y))).
Proof.
  intros x y Hx Hy. generalize (Bmult_correct 53 1024 prec_pos prec_emax mode_NE x y).
  cbn [round_mode]. case Rlt_bool_spec; intros H.
  - intros [A [B C]]. left. unfold finite in *. change (is_finite (fmul x y) = is_finite x && is_finite y) in B.
    rewrite Hx, Hy in B. repeat split; trivial. apply C. now apply finite_not_nan.
  - intros A. right. split; [ | exact H ]. now apply ovf_inf.
Qed.
Lemma fmul_nonneg : forall x y : b64, finite x -> finite y -> nonneg x -> nonneg y -> nonneg (fmul x y).
Proof.
  intros x y Fx Fy [_ Sx] [_ Sy]. destruct (fmul_finite_cases x y Fx Fy) as [[A [_ [_ B]]] | [A _]].
  - split; [ now apply finite_not_nan | now rewrite B, Sx, Sy ].
  - rewrite A, Sx, Sy. split; reflexivity.
Qed.
Lemma square_nonneg : forall x : b64, is_nan x = false -> nonneg (fmul x x).
Proof.
  intros x N. destruct (is_finite x) eqn:F.
  - destruct (fmul_finite_cases x x F F) as [[A [_ [_ B]]] | [A _]].
    + split; [ now apply finite_not_nan | rewrite B; apply xorb_nilpotent ].
    + rewrite A, xorb_nilpotent. split; reflexivity.
  - destruct x as [ | s | | ]; try discriminate. destruct s; split; reflexivity.
Qed.
(* a factor between 0 and 1 *)
Lemma fmul_shrink : forall a e : b64, finite a -> nonneg a -> finite e -> nonneg e -> R64 e <= 1 ->
  finite (fmul a e) /\ nonneg (fmul a e) /\ R64 (fmul a e) <= R64 a.
Proof.
  intros a e Fa Na Fe Ne E.
  destruct (nonneg_cases a Na) as [-> | [_ [_ A0]]]; [ discriminate | ].
  destruct (nonneg_cases e Ne) as [-> | [_ [_ E0]]]; [ discriminate | ].
  assert (P : 0 <= R64 a * R64 e <= R64 a) by nra.
  assert (Q : 0 <= rnd64 (R64 a * R64 e) <= R64 a).
  { split.
    - apply round_ge_generic; [ typeclasses eauto | typeclasses eauto | apply generic_format_0 | apply P ].
    - apply round_le_generic; [ typeclasses eauto | typeclasses eauto | apply format64 | apply P ]. }
  assert (N := fmul_nonneg a e Fa Fe Na Ne).
  destruct (fmul_finite_cases a e Fa Fe) as [[A [B [_ C]]] | [A B]].
  - rewrite B. tauto.
  - exfalso. rewrite Rabs_pos_eq in B by apply Q. generalize (bound64 a). rewrite Rabs_pos_eq by exact A0. lra.
Qed.
Lemma fmul_one : forall a : b64, finite a -> fmul a fone = a.
Proof.
  intros a Fa. assert (R1 : R64 fone = 1) by apply Bone_correct.
  destruct (fmul_finite_cases a fone Fa (is_finite_Bone _ _ _ _)) as [[A [B [_ C]]] | [A B]].
  - apply B2R_Bsign_inj; trivial.
    + now rewrite B, R1, Rmult_1_r, rnd_id.
    + rewrite C. replace (Bsign fone) with false by reflexivity. apply xorb_false_r.
  - exfalso. rewrite R1, Rmult_1_r, rnd_id in B. generalize (bound64 a). lra.
Qed.

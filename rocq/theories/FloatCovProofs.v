From Coq Require Import ZArith Reals Lra List Bool Lia Permutation.
From Flocq Require Import Core Plus_error Relative IEEE754.BinarySingleNaN.
From Verif Require Import Base FloatModel FloatProofs FloatCovModel FloatCovSpec.
Import ListNotations.
Local Open Scope R_scope.

(* ---------- addition and roots ---------- *)
Lemma fadd_nonneg : forall a b : b64, nonneg a -> nonneg b -> nonneg (fadd a b).
Proof.
  intros a b Ha Hb.
  destruct (nonneg_cases a Ha) as [-> | [Fa [Sa A]]]; destruct (nonneg_cases b Hb) as [-> | [Fb [Sb B]]].
  - split; reflexivity.
  - destruct b; try discriminate; split; reflexivity.
  - destruct a; try discriminate; split; reflexivity.
  - generalize (Bplus_correct 53 1024 prec_pos prec_emax mode_NE a b Fa Fb).
    case Rlt_bool_spec; intros H.
    + intros [_ [P Q]]. split; [ now apply finite_not_nan | ]. unfold fadd. rewrite Q, Sa, Sb.
      case Rcompare_spec; trivial. lra.
    + intros [P _]. apply ovf_inf in P. unfold fadd. rewrite P, Sa. split; reflexivity.
Qed.
Lemma fsqrt_nonneg : forall a : b64, nonneg a -> nonneg (fsqrt a).
Proof.
  intros a Ha. destruct (nonneg_cases a Ha) as [-> | [Fa [Sa A]]]; [ split; reflexivity | ].
  destruct (Bsqrt_correct 53 1024 prec_pos prec_emax mode_NE a) as [_ [P Q]].
  assert (N : is_nan (fsqrt a) = false).
  { apply finite_not_nan. unfold finite, fsqrt. rewrite P. destruct a as [ | | | s ? ? ?]; try discriminate; trivial. cbn in Sa. now subst s. }
  split; [ exact N | ]. unfold fsqrt. now rewrite (Q N).
Qed.

(* ---------- sums ---------- *)
Lemma sum_of_nonneg : forall l a, sum_of l a -> Forall nonneg l -> nonneg a.
Proof.
  intros l a H. induction H as [x | l1 l2 l a b _ IH1 _ IH2 P]; intros F.
  - now inversion F.
  - assert (F' : Forall nonneg (l1 ++ l2)) by (eapply Permutation_Forall; eauto).
    apply Forall_app in F' as [F1 F2]. apply fadd_nonneg; auto.
Qed.
Lemma sum_of_zero : forall l a, sum_of l a -> Forall (fun x => x = fzero) l -> a = fzero.
Proof.
  intros l a H. induction H as [x | l1 l2 l a b _ IH1 _ IH2 P]; intros F.
  - now inversion F.
  - assert (F' : Forall (fun x => x = fzero) (l1 ++ l2)) by (eapply Permutation_Forall; eauto).
    apply Forall_app in F' as [F1 F2]. rewrite IH1, IH2 by trivial. reflexivity.
Qed.
Lemma sum_of_singleton : forall x a, sum_of [x] a -> a = x.
Proof.
  intros x a H. remember [x] as l eqn:E. destruct H as [y | l1 l2 l a b H1 H2 P]; [ now inversion E | subst; exfalso ].
  apply Permutation_length in P. rewrite app_length in P. cbn in P.
  assert (NE : forall l' c, sum_of l' c -> (1 <= length l')%nat).
  { clear. intros l' c H. induction H as [ | ? ? ? ? ? ? ? ? ? P]; cbn; [ lia | ].
    apply Permutation_length in P. rewrite app_length in P. lia. }
  apply NE in H1, H2. lia.
Qed.
Section Redux.
Variable redux : list b64 -> b64.
Hypothesis RX : adds_up redux.
Lemma redux_nonneg : forall l, Forall nonneg l -> nonneg (redux l).
Proof.
  intros l F. destruct RX as [E N]. destruct l as [ | x l ]; [ rewrite E; split; reflexivity | ].
  eapply sum_of_nonneg; eauto. apply N. discriminate.
Qed.
Lemma redux_zero : forall l, Forall (fun x => x = fzero) l -> redux l = fzero.
Proof.
  intros l F. destruct RX as [E N]. destruct l as [ | x l ]; [ exact E | ].
  eapply sum_of_zero; eauto. apply N. discriminate.
Qed.
Lemma redux_one : forall x, redux [x] = x.
Proof. intros x. destruct RX as [_ N]. apply sum_of_singleton. apply N. discriminate. Qed.

(* ---------- squares and norms ---------- *)
Lemma square_fabs : forall a b : b64, fabs a = fabs b -> fmul a a = fmul b b.
Proof.
  intros a b E.
  assert (N : is_nan a = is_nan b) by (rewrite <- (is_nan_Babs _ _ a), <- (is_nan_Babs _ _ b); now f_equal).
  assert (F : is_finite a = is_finite b) by (rewrite <- (is_finite_Babs _ _ a), <- (is_finite_Babs _ _ b); now f_equal).
  destruct (is_finite a) eqn:Fa.
  - symmetry in F. assert (R : Rabs (R64 a) = Rabs (R64 b)).
    { assert (X := f_equal R64 E). unfold fabs in X. now rewrite !B2R_Babs in X. }
    assert (R2 : R64 a * R64 a = R64 b * R64 b).
    { assert (X := Rsqr_eq_asb_1). generalize (Rsqr_abs (R64 a)) (Rsqr_abs (R64 b)). unfold Rsqr. rewrite R. lra. }
    destruct (fmul_finite_cases a a Fa Fa) as [[A [B [C D]]] | [A B]];
      destruct (fmul_finite_cases b b F F) as [[A' [B' [C' D']]] | [A' B']].
    + apply B2R_Bsign_inj; trivial; [ now rewrite B, B', R2 | now rewrite D, D', !xorb_nilpotent ].
    + rewrite R2 in C. lra.
    + rewrite R2 in B. lra.
    + now rewrite A, A', !xorb_nilpotent.
  - destruct a as [ | s | | ], b as [ | s' | | ]; try discriminate; trivial. destruct s, s'; reflexivity.
Qed.

Lemma vector_squares_sym : forall x y : list b64,
  map (fun a => fmul a a) (map (fun ab => fsub (fst ab) (snd ab)) (combine x y))
  = map (fun a => fmul a a) (map (fun ab => fsub (fst ab) (snd ab)) (combine y x)).
Proof.
  induction x as [ | a x IH]; intros [ | b y]; trivial. cbn. f_equal; [ | apply IH ].
  apply square_fabs, fabs_fsub_sym.
Qed.
Lemma euclidean_vector_sym : forall x y, euclidean_vector redux x y = euclidean_vector redux y x.
Proof.
  intros x y. unfold euclidean_vector, fnorm. rewrite vector_squares_sym, Nat.eqb_sym. reflexivity.
Qed.
Lemma fnorm_nonneg : forall v, Forall (fun a => is_nan a = false) v -> nonneg (fnorm redux v).
Proof.
  intros v H. apply fsqrt_nonneg, redux_nonneg. apply Forall_map. eapply Forall_impl; [ | exact H ].
  intros a N. now apply square_nonneg.
Qed.
Lemma diff_not_nan : forall x y, Forall finite x -> Forall finite y ->
  Forall (fun a => is_nan a = false) (map (fun ab : b64 * b64 => fsub (fst ab) (snd ab)) (combine x y)).
Proof.
  intros x y Fx. revert y. induction Fx as [ | a x Ha _ IH]; intros y Fy; [ constructor | ].
  destruct Fy as [ | b y Hb Fy]; constructor; [ now apply fsub_not_nan | now apply IH ].
Qed.
Lemma euclidean_vector_nonneg : forall x y, length x = length y -> Forall finite x -> Forall finite y ->
  exists d, euclidean_vector redux x y = Ok d /\ nonneg d.
Proof.
  intros x y L Fx Fy. unfold euclidean_vector. rewrite (proj2 (Nat.eqb_eq _ _) L). cbn. eexists; split; [ reflexivity | ].
  apply fnorm_nonneg. now apply diff_not_nan.
Qed.
Lemma fsub_self_square : forall a : b64, finite a -> fmul (fsub a a) (fsub a a) = fzero.
Proof.
  intros a F. assert (Z : fabs (fsub a a) = fzero) by now apply fabs_fsub_zero.
  change (fmul (fsub a a) (fsub a a) = fmul fzero fzero). apply square_fabs. rewrite Z. reflexivity.
Qed.
Lemma euclidean_vector_self : forall x, Forall finite x -> euclidean_vector redux x x = Ok fzero.
Proof.
  intros x F. unfold euclidean_vector. rewrite Nat.eqb_refl. cbn. f_equal.
  unfold fnorm. rewrite redux_zero; [ reflexivity | ].
  rewrite map_map. clear RX. induction F as [ | a x Ha _ IH]; cbn; constructor; [ now apply fsub_self_square | exact IH ].
Qed.

Lemma radial_distance_sym : forall x y, radial_distance redux x y = radial_distance redux y x.
Proof. intros. apply fabs_fsub_sym. Qed.
Lemma radial_distance_nonneg : forall x y, finite (fnorm redux x) -> finite (fnorm redux y) ->
  nonneg (radial_distance redux x y)
  /\ (radial_distance redux x y = fzero <-> R64 (fnorm redux x) = R64 (fnorm redux y)).
Proof. intros x y Fx Fy. split; [ apply fabs_nonneg; now apply fsub_not_nan | now apply fabs_fsub_zero ]. Qed.

(* ---------- angles ---------- *)
Lemma fmul_comm : forall a b : b64, fmul a b = fmul b a.
Proof.
  intros a b. destruct (is_finite a) eqn:Fa; [ destruct (is_finite b) eqn:Fb | ].
  - destruct (fmul_finite_cases a b Fa Fb) as [[A [B [C D]]] | [A B]];
      destruct (fmul_finite_cases b a Fb Fa) as [[A' [B' [C' D']]] | [A' B']]; rewrite (Rmult_comm (R64 b)) in *.
    + apply B2R_Bsign_inj; trivial; [ now rewrite B, B' | now rewrite D, D', xorb_comm ].
    + lra.
    + lra.
    + now rewrite A, A', xorb_comm.
  - destruct a as [? | ? | |], b as [? | ? | |]; try discriminate; cbn; rewrite ?(xorb_comm s), ?(xorb_comm s0); reflexivity.
  - destruct a as [? | ? | |], b as [? | ? | |]; try discriminate; cbn; rewrite ?(xorb_comm s), ?(xorb_comm s0); reflexivity.
Qed.
Lemma fdot_sym : forall x y, fdot redux x y = fdot redux y x.
Proof.
  intros x y. unfold fdot. f_equal. revert y. clear RX. induction x as [ | a x IH]; intros [ | b y]; trivial. cbn.
  rewrite fmul_comm. f_equal. apply IH.
Qed.
Lemma angular_sym : forall acos_ x y, angular_distance redux acos_ x y = angular_distance redux acos_ y x.
Proof.
  intros. unfold angular_distance. rewrite Nat.eqb_sym, fdot_sym, (fmul_comm (fnorm redux x)). reflexivity.
Qed.
End Redux.

Definition angle_of (acos_ : b64 -> b64) (q : b64) : b64 :=
  if flt (fsub fone EPSILON) q then fzero else if flt q (fadd (fneg fone) EPSILON) then M_PI else acos_ q.
Definition hi64 : b64 := fsub fone EPSILON.
Definition lo64 : b64 := fadd (fneg fone) EPSILON.
Lemma hi64_val : R64 hi64 = 1 - / 9007199254740992.
Proof.
  rewrite <- SF2R_B2SF. assert (E : B2SF hi64 = SpecFloat.S754_finite false 9007199254740991 (-53)) by (vm_compute; reflexivity).
  rewrite E. unfold SF2R, F2R, cond_Zopp, Defs.Fnum, Defs.Fexp, bpow.
  change (Z.pow_pos radix2 53) with 9007199254740992%Z. lra.
Qed.
Lemma lo64_val : R64 lo64 = - (1 - / 9007199254740992).
Proof.
  rewrite <- SF2R_B2SF. assert (E : B2SF lo64 = SpecFloat.S754_finite true 9007199254740991 (-53)) by (vm_compute; reflexivity).
  rewrite E. unfold SF2R, F2R, cond_Zopp, Defs.Fnum, Defs.Fexp, bpow.
  change (Z.pow_pos radix2 53) with 9007199254740992%Z.
  change (- (9007199254740991))%Z with (-9007199254740991)%Z. lra.
Qed.
Lemma hi64_finite : finite hi64.
Proof. vm_compute. reflexivity. Qed.
Lemma lo64_finite : finite lo64.
Proof. vm_compute. reflexivity. Qed.

Lemma flt_R : forall x y : b64, finite x -> finite y -> flt x y = Rlt_bool (R64 x) (R64 y).
Proof. intros. now apply Bltb_correct. Qed.

(* the three ways to get an angle *)
Lemma angle_cases : forall acos_ q,
  (is_nan q = true /\ angle_of acos_ q = acos_ q)
  \/ (angle_of acos_ q = fzero /\ (q = infinity \/ 1 <= R64 q))
  \/ (angle_of acos_ q = M_PI /\ (q = B754_infinity true \/ R64 q <= -1))
  \/ (finite q /\ -1 < R64 q < 1 /\ angle_of acos_ q = acos_ q).
Proof.
  intros acos_ q. unfold angle_of. fold hi64 lo64.
  destruct (is_nan q) eqn:N.
  - left. split; trivial. destruct q; try discriminate. reflexivity.
  - right. destruct (is_finite q) eqn:F.
    + rewrite !flt_R by (trivial; apply hi64_finite || apply lo64_finite).
      rewrite hi64_val, lo64_val.
      case Rlt_bool_spec; intros H1.
      * left. split; trivial. right.
        (* the next double after 1 - 2^-53 is 1 *)
        apply Rnot_lt_le. intros H2.
        assert (S : succ radix2 b64_exp (R64 hi64) <= R64 q).
        { apply succ_le_lt; try apply format64; [ typeclasses eauto | now rewrite hi64_val ]. }
        assert (E : succ radix2 b64_exp (R64 hi64) = 1).
        { assert (C := Bsucc_correct 53 1024 prec_pos prec_emax hi64 hi64_finite).
          rewrite Rlt_bool_true in C.
          - destruct C as [C _]. rewrite <- C.
            replace (Bsucc hi64) with fone; [ apply Bone_correct | ].
            apply B2SF_inj. vm_compute. reflexivity.
          - apply Rle_lt_trans with 1; [ | change 1 with (bpow radix2 0); apply bpow_lt; lia ].
            apply succ_le_lt; [ typeclasses eauto | apply format64 | | rewrite hi64_val; lra ].
            rewrite <- (Bone_correct 53 1024 prec_pos prec_emax). apply generic_format_B2R. }
        lra.
      * case Rlt_bool_spec; intros H2.
        -- right; left. split; trivial. right.
           apply Rnot_lt_le. intros H3.
           assert (S : R64 q <= pred radix2 b64_exp (R64 lo64)).
           { apply pred_ge_gt; try apply format64; [ typeclasses eauto | now rewrite lo64_val ]. }
           assert (E : pred radix2 b64_exp (R64 lo64) = -1).
           { assert (C := Bpred_correct 53 1024 prec_pos prec_emax lo64 lo64_finite).
             rewrite Rlt_bool_true in C.
             - destruct C as [C _]. rewrite <- C.
               replace (Bpred lo64) with (fneg fone).
               + unfold fneg. rewrite B2R_Bopp. unfold fone. now rewrite Bone_correct.
               + apply B2SF_inj. vm_compute. reflexivity.
             - apply Rlt_le_trans with (-1).
               + assert (X : bpow radix2 0 < bpow radix2 1024) by (apply bpow_lt; lia).
                 change (bpow radix2 0) with 1 in X. lra.
               + apply pred_ge_gt; [ typeclasses eauto | | apply format64 | rewrite lo64_val; lra ].
                 apply generic_format_opp. change (IPR 1) with 1. rewrite <- (Bone_correct 53 1024 prec_pos prec_emax). apply generic_format_B2R. }
           lra.
        -- right; right. split; [ exact F | ]. split; [ lra | trivial ].
    + destruct q as [ | s | | ]; try discriminate. destruct s.
      * right; left. split; [ reflexivity | now left ].
      * left. split; [ reflexivity | now left ].
Qed.

Lemma angular_angle : forall redux acos_ x y, length x = length y ->
  angular_distance redux acos_ x y
  = Ok (angle_of acos_ (fdiv (fdot redux x y) (fmul (fnorm redux x) (fnorm redux y)))).
Proof. intros redux acos_ x y L. unfold angular_distance. now rewrite (proj2 (Nat.eqb_eq _ _) L). Qed.

Lemma angle_nonneg : forall acos_ q, acos_contract acos_ -> is_nan q = false ->
  finite (angle_of acos_ q) /\ nonneg (angle_of acos_ q).
Proof.
  intros acos_ q AC N. destruct (angle_cases acos_ q) as [[X _] | [[-> _] | [[-> _] | [F [B ->]]]]].
  - congruence.
  - repeat split.
  - split; [ vm_compute; reflexivity | split; vm_compute; reflexivity ].
  - apply (acos_range _ AC); trivial. lra.
Qed.

(* ---------- covariances ---------- *)
Section Cov.
Variables (exp_ pow2 : b64 -> b64).
Hypothesis EX : exp_contract exp_.
Hypothesis PW : pow2_contract pow2.
Variables (l sigma : b64).
Hypothesis (Fl : finite l) (Pl : 0 < R64 l) (Fs : finite (fmul sigma sigma)).

Lemma sigma_not_nan : is_nan sigma = false.
Proof. generalize Fs. destruct sigma; trivial; discriminate. Qed.
Lemma sigma2_nonneg : nonneg (fmul sigma sigma).
Proof. apply square_nonneg, sigma_not_nan. Qed.

Lemma se_range : forall d, nonneg d ->
  exists v, squared_exponential exp_ pow2 d l sigma = Ok v /\ finite v /\ nonneg v /\ R64 v <= R64 (fmul sigma sigma).
Proof.
  intros d Hd. unfold squared_exponential. rewrite (fle_zero_false l Fl Pl), (fle_zero_nonneg d Hd). cbn.
  eexists; split; [ reflexivity | ].
  destruct (exp_range _ EX (pow2 (fdiv d l))) as [F [N L]].
  { apply (pow2_range _ PW). now apply fdiv_nonneg. }
  destruct (fmul_shrink (fmul sigma sigma) (exp_ (fneg (pow2 (fdiv d l)))) Fs sigma2_nonneg F N L) as [A [B C]]. auto.
Qed.
Lemma se_zero : squared_exponential exp_ pow2 fzero l sigma = Ok (fmul sigma sigma).
Proof.
  unfold squared_exponential. rewrite (fle_zero_false l Fl Pl), (fle_zero_nonneg fzero) by (split; reflexivity).
  unfold assert_then. rewrite (fdiv_zero l Fl Pl).
  unfold fzero. rewrite (pow2_at_0 _ PW). cbn. rewrite (exp_at_0 _ EX). now rewrite fmul_one.
Qed.
Lemma exponential_range : forall d, nonneg d ->
  exists v, exponential exp_ d l sigma = Ok v /\ finite v /\ nonneg v /\ R64 v <= R64 (fmul sigma sigma).
Proof.
  intros d Hd. unfold exponential. rewrite (fle_zero_false l Fl Pl), (fle_zero_nonneg d Hd). cbn.
  eexists; split; [ reflexivity | ].
  destruct (exp_range _ EX (fabs (fdiv d l))) as [F [N L]].
  { apply fabs_nonneg. now apply fdiv_nonneg. }
  destruct (fmul_shrink (fmul sigma sigma) (exp_ (fneg (fabs (fdiv d l)))) Fs sigma2_nonneg F N L) as [A [B C]]. auto.
Qed.
Lemma exponential_zero : exponential exp_ fzero l sigma = Ok (fmul sigma sigma).
Proof.
  unfold exponential. rewrite (fle_zero_false l Fl Pl), (fle_zero_nonneg fzero) by (split; reflexivity).
  unfold assert_then. rewrite (fdiv_zero l Fl Pl).
  cbn. rewrite (exp_at_0 _ EX). now rewrite fmul_one.
Qed.

Lemma scale_nonneg : forall k d, (k = 3 \/ k = 5)%Z -> nonneg d -> nonneg (fdiv (fmul (fsqrt (fval k 0)) d) l).
Proof.
  intros k d K Hd. apply fdiv_nonneg; trivial.
  assert (X : finite (fsqrt (fval k 0)) /\ nonneg (fsqrt (fval k 0)) /\ exists m e B, fsqrt (fval k 0) = B754_finite false m e B).
  { destruct K as [-> | ->]; (split; [ vm_compute; reflexivity | split; [ split; vm_compute; reflexivity | ] ]).
    - destruct (fsqrt (fval 3 0)) eqn:E; apply (f_equal B2SF) in E; vm_compute in E; try discriminate E.
      injection E as <- _ _. eauto.
    - destruct (fsqrt (fval 5 0)) eqn:E; apply (f_equal B2SF) in E; vm_compute in E; try discriminate E.
      injection E as <- _ _. eauto. }
  destruct X as [F [N [m [e [B E]]]]].
  destruct (nonneg_cases d Hd) as [-> | [Fd [Sd D]]].
  - rewrite E. split; reflexivity.
  - now apply fmul_nonneg.
Qed.

Lemma matern_32_ok : forall d, nonneg d ->
  finite (fmul (fmul sigma sigma) (fadd fone (fdiv (fmul (fsqrt (fval 3 0)) d) l))) ->
  exists v, matern_32 exp_ d l sigma = Ok v /\ finite v /\ nonneg v.
Proof.
  intros d Hd Fm. unfold matern_32. rewrite (fle_zero_false l Fl Pl), (fle_zero_nonneg d Hd). unfold assert_then. cbv zeta.
  eexists; split; [ reflexivity | ]. set (s := fdiv _ l) in *.
  assert (S : nonneg s) by (apply scale_nonneg; auto).
  destruct (exp_range _ EX s S) as [F [N L]].
  assert (M : nonneg (fmul (fmul sigma sigma) (fadd fone s))).
  { assert (A : nonneg (fadd fone s)) by (apply fadd_nonneg; trivial; split; reflexivity).
    destruct (nonneg_cases _ A) as [I | [FA _]].
    - rewrite I in Fm |- *. exfalso. destruct (fmul sigma sigma) as [? | ? | |]; discriminate.
    - apply fmul_nonneg; trivial. apply sigma2_nonneg. }
  destruct (fmul_shrink _ (exp_ (fneg s)) Fm M F N L) as [A [B C]]. auto.
Qed.
Lemma matern_52_ok : forall d, nonneg d ->
  (let s := fdiv (fmul (fsqrt (fval 5 0)) d) l in
   finite (fmul (fmul sigma sigma) (fadd (fadd fone s) (fdiv (fmul s s) (fval 3 0))))) ->
  exists v, matern_52 exp_ d l sigma = Ok v /\ finite v /\ nonneg v.
Proof.
  intros d Hd Fm. unfold matern_52. rewrite (fle_zero_false l Fl Pl), (fle_zero_nonneg d Hd). unfold assert_then. cbv zeta in Fm |- *.
  eexists; split; [ reflexivity | ]. set (s := fdiv _ l) in *.
  assert (S : nonneg s) by (apply scale_nonneg; auto).
  destruct (exp_range _ EX s S) as [F [N L]].
  set (p := fadd (fadd fone s) (fdiv (fmul s s) (fval 3 0))) in *.
  assert (M : nonneg (fmul (fmul sigma sigma) p)).
  { assert (A : nonneg p).
    { apply fadd_nonneg; [ apply fadd_nonneg; trivial; split; reflexivity | ].
      apply fdiv_nonneg; [ apply square_nonneg, S | vm_compute; reflexivity | ].
      rewrite <- SF2R_B2SF. vm_compute B2SF. cbn. unfold F2R; cbn. lra. }
    destruct (nonneg_cases _ A) as [I | [FA _]].
    - rewrite I in Fm |- *. exfalso. destruct (fmul sigma sigma) as [? | ? | |]; discriminate.
    - apply fmul_nonneg; trivial. apply sigma2_nonneg. }
  destruct (fmul_shrink _ (exp_ (fneg s)) Fm M F N L) as [A [B C]]. auto.
Qed.
Lemma scale_zero : forall k, (k = 3 \/ k = 5)%Z -> fdiv (fmul (fsqrt (fval k 0)) fzero) l = fzero.
Proof.
  intros k K. rewrite <- (fdiv_zero l Fl Pl) at 2. f_equal.
  destruct K as [-> | ->]; apply B2SF_inj; vm_compute; reflexivity.
Qed.
Lemma matern_32_zero : matern_32 exp_ fzero l sigma = Ok (fmul sigma sigma).
Proof.
  unfold matern_32. rewrite (fle_zero_false l Fl Pl), (fle_zero_nonneg fzero) by (split; reflexivity).
  unfold assert_then. rewrite scale_zero by auto. cbv zeta.
  replace (fadd fone fzero) with fone by (apply B2SF_inj; vm_compute; reflexivity).
  rewrite fmul_one by trivial. cbn. rewrite (exp_at_0 _ EX). now rewrite fmul_one.
Qed.
Lemma matern_52_zero : matern_52 exp_ fzero l sigma = Ok (fmul sigma sigma).
Proof.
  unfold matern_52. rewrite (fle_zero_false l Fl Pl), (fle_zero_nonneg fzero) by (split; reflexivity).
  unfold assert_then. rewrite scale_zero by auto. cbv zeta.
  replace (fadd (fadd fone fzero) (fdiv (fmul fzero fzero) (fval 3 0))) with fone by (apply B2SF_inj; vm_compute; reflexivity).
  rewrite fmul_one by trivial. cbn. rewrite (exp_at_0 _ EX). now rewrite fmul_one.
Qed.
End Cov.

(* C90: distances and radial covariance functions computed in double precision. *)
From Coq Require Import ZArith Reals Lra List Bool Lia.
From Flocq Require Import Core IEEE754.BinarySingleNaN.
From Verif Require Import Base FloatModel FloatProofs FloatCovModel FloatCovSpec FloatCovProofs FloatCovProofs2.
Import ListNotations.
Local Open Scope R_scope.

(* The distance of two doubles does not depend on their order, bit for bit, whatever the doubles are. *)
Theorem C90_euclidean_symmetric : forall x y, euclidean x y = euclidean y x.
Proof. exact fabs_fsub_sym. Qed.
Print Assumptions C90_euclidean_symmetric.

(* The distance of two finite doubles is never NaN nor negative, so that the assertion in the covariance functions
   holds. It is zero only for equal numbers. Unless it overflows its relative error is at most 2^-53. *)
Theorem C90_euclidean : forall x y, is_fin x -> is_fin y ->
  at_least_0 (euclidean x y)
  /\ (euclidean x y = fzero <-> val x = val y)
  /\ (euclidean x y = infinity
      \/ exists eps, Rabs eps <= bpow radix2 (-53) /\ val (euclidean x y) = Rabs (val x - val y) * (1 + eps)).
Proof.
  intros x y Fx Fy. split; [ apply fabs_nonneg; now apply fsub_not_nan | ].
  split; [ now apply fabs_fsub_zero | now apply euclidean_accuracy ].
Qed.
Print Assumptions C90_euclidean.

(* 1 and its neighbour are at distance 2^-52, and the two smallest positive doubles are at the smallest positive distance *)
Example C90_euclidean_meets :
  is_fin fone /\ is_fin (fval 4503599627370497 (-52))
  /\ B2SF (euclidean fone (fval 4503599627370497 (-52))) = SpecFloat.S754_finite false 4503599627370496 (-104)
  /\ B2SF (euclidean (fval 1 (-1074)) (fval 2 (-1074))) = SpecFloat.S754_finite false 1 (-1074).
Proof. repeat split; vm_compute; reflexivity. Qed.

(* finding: an infinite feature is at distance NaN from itself, and the covariance functions then stop the program
   instead of returning the variance. *)
Theorem C90_euclidean_infinite_refuted :
  exists x, is_nan x = false /\ euclidean x x <> fzero
    /\ forall exp_ pow2, squared_exponential exp_ pow2 (euclidean x x) fone fone = Abort.
Proof. exists infinity. split; [ reflexivity | ]. split; [ discriminate | reflexivity ]. Qed.
Print Assumptions C90_euclidean_infinite_refuted.

(* Vectors: whatever the order in which Eigen adds the squares, the distance does not depend on the order of its
   arguments. *)
Theorem C90_vector_symmetric : forall redux x y, euclidean_vector redux x y = euclidean_vector redux y x.
Proof. exact euclidean_vector_sym. Qed.
Print Assumptions C90_vector_symmetric.

(* For finite vectors of one size it is not NaN and not negative, and a vector is at distance zero from itself. *)
Theorem C90_vector : forall redux, adds_up redux -> forall x y, length x = length y -> Forall is_fin x -> Forall is_fin y ->
  (exists d, euclidean_vector redux x y = Ok d /\ at_least_0 d) /\ euclidean_vector redux x x = Ok fzero.
Proof.
  intros redux RX x y L Fx Fy. split; [ now apply euclidean_vector_nonneg | now apply euclidean_vector_self ].
Qed.
Print Assumptions C90_vector.

Example C90_vector_meets :
  adds_up in_order
  /\ match euclidean_vector in_order [fval 3 0; fval 0 0] [fval 0 0; fval 4 0] with
     | Ok d => B2SF d = B2SF (fval 5 0) | _ => False end.
Proof. split; [ exact in_order_adds_up | vm_compute; reflexivity ]. Qed.

(* finding: two different vectors can be at distance zero, because the squares of their differences underflow; a
   covariance function cannot tell them apart. Doubles do not have this problem (C90_euclidean). *)
Theorem C90_vector_distinct_refuted :
  exists x y, Forall is_fin x /\ Forall is_fin y /\ length x = length y /\ map val x <> map val y
    /\ forall redux, adds_up redux -> euclidean_vector redux x y = Ok fzero.
Proof.
  exists [fval 1 (-600)], [fzero]. split; [ repeat constructor; vm_compute; reflexivity | ].
  split; [ repeat constructor | ]. split; [ reflexivity | ]. split.
  - intros H. assert (H' := f_equal (hd 1) H). cbn [hd map] in H'. change (val fzero) with 0 in H'.
    assert (P : 0 < val (fval 1 (-600))).
    { apply fval_pos; [ vm_compute; reflexivity | vm_compute; discriminate | vm_compute; reflexivity ]. }
    rewrite H' in P. lra.
  - intros redux RX. unfold euclidean_vector, fnorm. cbn [length Nat.eqb assert_then combine map fst snd].
    rewrite redux_one by exact RX. unfold assert_then. rewrite Nat.eqb_refl. reflexivity.
Qed.
Print Assumptions C90_vector_distinct_refuted.

(* finding: the norm of a finite vector overflows although its length is an ordinary double: 2^600 is at an infinite
   distance from 0 when it is a vector, at distance 2^600 when it is a number. *)
Theorem C90_vector_overflow_refuted :
  exists a, is_fin a /\ euclidean a fzero = a
    /\ forall redux, adds_up redux -> euclidean_vector redux [a] [fzero] = Ok infinity.
Proof.
  exists (fval 1 600). split; [ vm_compute; reflexivity | ]. split; [ apply bits; vm_compute; reflexivity | ].
  intros redux RX. unfold euclidean_vector, fnorm. cbn [length Nat.eqb assert_then combine map fst snd].
  rewrite redux_one by exact RX. unfold assert_then. rewrite Nat.eqb_refl. reflexivity.
Qed.
Print Assumptions C90_vector_overflow_refuted.

(* The radial distance is symmetric, and when both norms are finite it is not NaN, not negative, and zero exactly when
   the norms are equal. *)
Theorem C90_radial_distance : forall redux x y,
  radial_distance redux x y = radial_distance redux y x
  /\ (is_fin (fnorm redux x) -> is_fin (fnorm redux y) ->
      at_least_0 (radial_distance redux x y)
      /\ (radial_distance redux x y = fzero <-> val (fnorm redux x) = val (fnorm redux y))).
Proof.
  intros redux x y. split; [ apply radial_distance_sym | ].
  intros Fx Fy. now apply radial_distance_nonneg.
Qed.
Print Assumptions C90_radial_distance.

Example C90_radial_distance_meets :
  is_fin (fnorm in_order [fval 3 0; fval 4 0])
  /\ B2SF (radial_distance in_order [fval 3 0; fval 4 0] [fval 1 0; fzero]) = B2SF (fval 4 0).
Proof. split; vm_compute; reflexivity. Qed.

(* finding: a finite vector whose squares overflow is at radial distance NaN from itself. *)
Theorem C90_radial_distance_refuted :
  exists x, Forall is_fin x /\ forall redux, adds_up redux -> is_NaN (radial_distance redux x x).
Proof.
  exists [fval 1 600]. split; [ repeat constructor; vm_compute; reflexivity | ].
  intros redux RX. unfold radial_distance, fnorm. cbn [map]. rewrite redux_one by exact RX. vm_compute. reflexivity.
Qed.
Print Assumptions C90_radial_distance_refuted.

(* The angular distance is symmetric. With q the rounded quotient of the dot product and of the product of the norms, it
   is 0 when q is 1 or more, pi when q is -1 or less, and acos(q) is only used for -1 < q < 1 or for NaN. It is finite
   and not negative when q is not NaN. *)
Theorem C90_angular : forall redux acos_ x y, length x = length y ->
  let q := fdiv (fdot redux x y) (fmul (fnorm redux x) (fnorm redux y)) in
  angular_distance redux acos_ x y = angular_distance redux acos_ y x
  /\ exists v, angular_distance redux acos_ x y = Ok v
     /\ ((is_NaN q /\ v = acos_ q)
         \/ (v = fzero /\ (q = infinity \/ 1 <= val q))
         \/ (v = M_PI /\ (q = B754_infinity true \/ val q <= -1))
         \/ (is_fin q /\ -1 < val q < 1 /\ v = acos_ q))
     /\ (acos_contract acos_ -> is_nan q = false -> is_fin v /\ at_least_0 v).
Proof.
  intros redux acos_ x y L q. split; [ apply angular_sym | ].
  exists (angle_of acos_ q). split; [ now apply angular_angle | ].
  split; [ apply angle_cases | intros AC N; now apply angle_nonneg ].
Qed.
Print Assumptions C90_angular.

Example C90_angular_meets :
  acos_contract acos_like
  /\ is_nan (fdiv (fdot in_order [fone; fzero] [fone; fone])
      (fmul (fnorm in_order [fone; fzero]) (fnorm in_order [fone; fone]))) = false
  /\ angular_distance in_order acos_like [fone; fzero] [fval 5 0; fzero] = Ok fzero
  /\ angular_distance in_order acos_like [fone; fzero] [fval (-5) 0; fzero] = Ok M_PI.
Proof.
  split; [ exact acos_like_contract | ]. split; [ vm_compute; reflexivity | ].
  split; rewrite angular_angle by reflexivity; f_equal; apply bits; vm_compute; reflexivity.
Qed.

(* finding: the special cases around 1 do not make the angle of a vector with itself zero. For (1, 1) the rounded
   quotient is 1 - 2^-52, which is below 1 - 1e-16, so that the distance is acos of it, about 2e-8. *)
Theorem C90_angular_self_refuted :
  exists x, forall redux acos_, adds_up redux -> acos_contract acos_ ->
    exists v, angular_distance redux acos_ x x = Ok v /\ 0 < val v.
Proof. exists [fone; fone]. exact angular_self. Qed.
Print Assumptions C90_angular_self_refuted.

(* finding: the angular distance of a zero vector, and of a finite vector whose squares overflow, is NaN; a covariance
   function then stops the program. *)
Theorem C90_angular_nan_refuted :
  exists x y, Forall is_fin x /\ Forall is_fin y /\ length x = 1%nat /\ length y = 1%nat
    /\ forall redux acos_, adds_up redux -> acos_contract acos_ ->
       (exists v, angular_distance redux acos_ x y = Ok v /\ is_NaN v
         /\ forall exp_, exponential exp_ v fone fone = Abort)
       /\ (exists w, angular_distance redux acos_ y y = Ok w /\ is_NaN w).
Proof.
  exists [fzero], [fval 1 600]. split; [ repeat constructor | ].
  split; [ repeat constructor; vm_compute; reflexivity | ]. split; [ reflexivity | ]. split; [ reflexivity | ].
  intros redux acos_ RX AC.
  assert (Q : forall a b, (a = fzero \/ a = fval 1 600) -> b = fval 1 600 ->
    fdiv (fdot redux [a] [b]) (fmul (fnorm redux [a]) (fnorm redux [b])) = B754_nan).
  { intros a b [-> | ->] ->; unfold fdot, fnorm; cbn [map combine fst snd]; rewrite !redux_one by exact RX;
      apply bits; vm_compute; reflexivity. }
  assert (N : is_NaN (acos_ B754_nan)) by now apply (acos_nan _ AC).
  split.
  - exists (acos_ B754_nan). rewrite angular_angle, Q by auto. split; [ reflexivity | ]. split; [ exact N | ].
    intros exp_. unfold exponential. change (fle fone fzero) with false. unfold is_NaN in N.
    destruct (acos_ B754_nan); try discriminate. reflexivity.
  - exists (acos_ B754_nan). rewrite angular_angle, Q by auto. split; [ reflexivity | exact N ].
Qed.
Print Assumptions C90_angular_nan_refuted.

(* The squared exponential and exponential covariances of a nonnegative distance are finite, between zero and the
   variance sigma*sigma, and the variance itself at distance zero: the largest entry of a row of a covariance matrix
   computed with them is its diagonal entry, rounding included. *)
Theorem C90_squared_exponential : forall exp_ pow2 l sigma, exp_contract exp_ -> pow2_contract pow2 ->
  is_fin l -> 0 < val l -> is_fin (fmul sigma sigma) ->
  squared_exponential exp_ pow2 fzero l sigma = Ok (fmul sigma sigma)
  /\ forall d, at_least_0 d -> exists v, squared_exponential exp_ pow2 d l sigma = Ok v
       /\ is_fin v /\ at_least_0 v /\ val v <= val (fmul sigma sigma).
Proof. intros exp_ pow2 l sigma EX PW Fl Pl Fs. split; [ now apply se_zero | now apply se_range ]. Qed.
Print Assumptions C90_squared_exponential.

Theorem C90_exponential : forall exp_ l sigma, exp_contract exp_ ->
  is_fin l -> 0 < val l -> is_fin (fmul sigma sigma) ->
  exponential exp_ fzero l sigma = Ok (fmul sigma sigma)
  /\ forall d, at_least_0 d -> exists v, exponential exp_ d l sigma = Ok v
       /\ is_fin v /\ at_least_0 v /\ val v <= val (fmul sigma sigma).
Proof. intros exp_ l sigma EX Fl Pl Fs. split; [ now apply exponential_zero | now apply exponential_range ]. Qed.
Print Assumptions C90_exponential.

(* The same in terms of features: for finite doubles the covariance does not depend on the order of its arguments, is
   between zero and the variance, and is the variance for a feature and itself. *)
Theorem C90_covariance : forall exp_ pow2 l sigma, exp_contract exp_ -> pow2_contract pow2 ->
  is_fin l -> 0 < val l -> is_fin (fmul sigma sigma) ->
  forall x y, is_fin x -> is_fin y ->
  forall k, (k = (fun x y => squared_exponential exp_ pow2 (euclidean x y) l sigma)
             \/ k = (fun x y => exponential exp_ (euclidean x y) l sigma)) ->
  k x y = k y x /\ k x x = Ok (fmul sigma sigma)
  /\ exists v, k x y = Ok v /\ is_fin v /\ 0 <= val v <= val (fmul sigma sigma).
Proof.
  intros exp_ pow2 l sigma EX PW Fl Pl Fs x y Fx Fy k K.
  assert (Z : euclidean x x = fzero) by (apply C90_euclidean; trivial; reflexivity).
  destruct (C90_euclidean x y Fx Fy) as [N _].
  destruct (C90_squared_exponential exp_ pow2 l sigma EX PW Fl Pl Fs) as [S1 S2].
  destruct (C90_exponential exp_ l sigma EX Fl Pl Fs) as [E1 E2].
  destruct K as [-> | ->]; cbn beta; rewrite Z, (C90_euclidean_symmetric y x).
  - split; [ reflexivity | ]. split; [ exact S1 | ]. destruct (S2 _ N) as [v [A [B [C D]]]]. exists v. repeat split; trivial.
    destruct (nonneg_cases v C) as [-> | [_ [_ P]]]; [ discriminate | exact P ].
  - split; [ reflexivity | ]. split; [ exact E1 | ]. destruct (E2 _ N) as [v [A [B [C D]]]]. exists v. repeat split; trivial.
    destruct (nonneg_cases v C) as [-> | [_ [_ P]]]; [ discriminate | exact P ].
Qed.
Print Assumptions C90_covariance.

(* a correctly rounded exp, and x*x for pow(x,2), have the assumed properties *)
Example C90_covariance_meets :
  exp_contract exp_correct /\ exp_rounded exp_correct /\ pow2_contract (fun x => fmul x x)
  /\ is_fin fone /\ 0 < val fone /\ is_fin (fmul (fval 3 0) (fval 3 0)).
Proof.
  split; [ exact exp_correct_contract | ]. split; [ exact exp_correct_ok | ]. split; [ exact pow2_square | ].
  split; [ reflexivity | ]. split; [ unfold fone; rewrite Bone_correct; lra | vm_compute; reflexivity ].
Qed.

(* The Matern covariances are the variance at distance zero, and finite and not negative as long as the polynomial
   factor times the variance does not overflow. *)
Theorem C90_matern : forall exp_ l sigma, exp_contract exp_ ->
  is_fin l -> 0 < val l -> is_fin (fmul sigma sigma) ->
  (matern_32 exp_ fzero l sigma = Ok (fmul sigma sigma) /\ matern_52 exp_ fzero l sigma = Ok (fmul sigma sigma))
  /\ forall d, at_least_0 d ->
     (let s := fdiv (fmul (fsqrt (fval 3 0)) d) l in is_fin (fmul (fmul sigma sigma) (fadd fone s)) ->
      exists v, matern_32 exp_ d l sigma = Ok v /\ is_fin v /\ at_least_0 v)
     /\ (let s := fdiv (fmul (fsqrt (fval 5 0)) d) l in
         is_fin (fmul (fmul sigma sigma) (fadd (fadd fone s) (fdiv (fmul s s) (fval 3 0)))) ->
         exists v, matern_52 exp_ d l sigma = Ok v /\ is_fin v /\ at_least_0 v).
Proof.
  intros exp_ l sigma EX Fl Pl Fs. split; [ split; [ now apply matern_32_zero | now apply matern_52_zero ] | ].
  intros d Hd. split; intros s F; [ now apply matern_32_ok | now apply matern_52_ok ].
Qed.
Print Assumptions C90_matern.

Example C90_matern_meets :
  is_fin (fmul (fmul (fval 3 0) (fval 3 0)) (fadd fone (fdiv (fmul (fsqrt (fval 3 0)) (fval 1 10)) fone))).
Proof. vm_compute. reflexivity. Qed.

(* finding: even with a correctly rounded exp the Matern covariances of two different features can be larger than the
   variance, so that the computed 2 by 2 covariance matrix has a negative determinant. *)
Theorem C90_matern_bounded_refuted :
  exists d52 d32 l sigma, at_least_0 d32 /\ at_least_0 d52 /\ 0 < val d32 /\ 0 < val d52
    /\ forall exp_, exp_rounded exp_ ->
       (exists v, matern_32 exp_ d32 l sigma = Ok v /\ val (fmul sigma sigma) < val v)
       /\ (exists v, matern_52 exp_ d52 l sigma = Ok v /\ val (fmul sigma sigma) < val v).
Proof.
  exists (fval 10 (-54)), (fval 13 (-54)), fone, (fval 3 0).
  split; [ split; vm_compute; reflexivity | ]. split; [ split; vm_compute; reflexivity | ].
  split; [ apply fval_pos; [ vm_compute; reflexivity | vm_compute; discriminate | vm_compute; reflexivity ] | ].
  split; [ apply fval_pos; [ vm_compute; reflexivity | vm_compute; discriminate | vm_compute; reflexivity ] | ].
  intros exp_ EX.
  assert (L : val (fmul (fval 3 0) (fval 3 0)) < val (fval 5066549580791809 (-49))).
  { rewrite <- !SF2R_B2SF.
    replace (B2SF (fmul (fval 3 0) (fval 3 0))) with (SpecFloat.S754_finite false 5066549580791808 (-49)) by (vm_compute; reflexivity).
    replace (B2SF (fval 5066549580791809 (-49))) with (SpecFloat.S754_finite false 5066549580791809 (-49)) by (vm_compute; reflexivity).
    unfold SF2R. apply F2R_lt. cbn. lia. }
  split.
  - eexists; split; [ now apply matern_32_excess | exact L ].
  - destruct (matern_52_excess exp_ EX) as [v [A B]]. exists v. split; [ exact A | ]. apply bits in B. now rewrite B.
Qed.
Print Assumptions C90_matern_bounded_refuted.

(* finding: when the polynomial factor overflows a Matern covariance is infinity times zero, NaN, instead of zero: with
   a length scale of 2^-600 for a distance of one for the five halves, and for three halves when sqrt(3) d / l overflows. *)
Theorem C90_matern_nan_refuted :
  exists d l d' l', at_least_0 d /\ at_least_0 d' /\ is_fin d /\ is_fin d' /\ 0 < val l /\ 0 < val l'
    /\ forall exp_, exp_contract exp_ ->
       matern_52 exp_ d l fone = Ok B754_nan /\ matern_32 exp_ d' l' fone = Ok B754_nan.
Proof.
  exists fone, (fval 1 (-600)), (fval 1 1023), (fval 1 (-1)).
  split; [ split; reflexivity | ]. split; [ split; vm_compute; reflexivity | ].
  split; [ reflexivity | ]. split; [ vm_compute; reflexivity | ].
  split; [ apply fval_pos; [ vm_compute; reflexivity | vm_compute; discriminate | vm_compute; reflexivity ] | ].
  split; [ apply fval_pos; [ vm_compute; reflexivity | vm_compute; discriminate | vm_compute; reflexivity ] | ].
  intros exp_ EX. split; [ now apply matern_52_nan | now apply matern_32_nan ].
Qed.
Print Assumptions C90_matern_nan_refuted.

(* A length scale that is zero or negative gives a zero covariance, and the distance is not looked at. Otherwise a
   distance that is NaN or negative stops the program. *)
Theorem C90_bad_arguments : forall exp_ pow2 d l sigma,
  (fle l fzero = true ->
     squared_exponential exp_ pow2 d l sigma = Ok fzero /\ exponential exp_ d l sigma = Ok fzero
     /\ matern_32 exp_ d l sigma = Ok fzero /\ matern_52 exp_ d l sigma = Ok fzero)
  /\ (fle l fzero = false -> is_NaN d \/ flt d fzero = true ->
     squared_exponential exp_ pow2 d l sigma = Abort /\ exponential exp_ d l sigma = Abort
     /\ matern_32 exp_ d l sigma = Abort /\ matern_52 exp_ d l sigma = Abort).
Proof.
  intros exp_ pow2 d l sigma. unfold squared_exponential, exponential, matern_32, matern_52. split.
  - intros ->. repeat split.
  - intros -> H. assert (E : fle fzero d = false).
    { destruct H as [H | H]; destruct d as [s | s | | s m e B]; try discriminate; trivial;
        destruct s; try discriminate H; reflexivity. }
    rewrite E. repeat split.
Qed.
Print Assumptions C90_bad_arguments.

Example C90_bad_arguments_meets :
  fle (fval (-1) 0) fzero = true /\ fle fone fzero = false /\ is_NaN (euclidean infinity infinity)
  /\ flt (fval (-1) 0) fzero = true.
Proof. repeat split; vm_compute; reflexivity. Qed.

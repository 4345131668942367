(* C51: covariance matrices of the radial covariance functions. *)
From Coq Require Import Reals Lra.
From Verif Require Import Base ExtRealModel DistanceModel DistanceSpec DistanceProofs DistanceProps
  RadialModel RadialSpec RadialProofs.
From mathcomp Require Import all_ssreflect all_algebra.
From Verif Require Import RealStruct GpSpec PsdProofs CallerPsd RealPsd RealPsd2 RealPsd3 RadialPsd.
Set Implicit Arguments.
Unset Strict Implicit.
Unset Printing Implicit Defensive.
Import Order.TTheory GRing.Theory Num.Theory.
Local Open Scope ring_scope.

(* any number of points, of any dimension, with repetitions; every length scale and sigma *)
Theorem C51_psd_euclidean (s : RadialSpec.shape) (ell sigma : R) (d n : nat) (xs : 'I_n -> list R) :
  (forall i, length (xs i) = d) ->
  exists M : 'M[R]_n,
    (forall i j, radial_call euclidean_distance (covariance_of s) (XFin ell) (XFin sigma) (xs i) (xs j) =
                 Ok (XFin (M i j))) /\
    psd M /\ (Rlt 0 ell -> forall i, M i i = pow sigma 2).
Proof.
move=> h; apply: (radial_matrix (dist := fun i j => norm (differences (xs i) (xs j))) s ell sigma (psd_gram_list h)).
- by move=> i j; rewrite euclidean_ok // !h.
- by move=> i j; exact: norm_ge0.
move=> i j; rewrite norm_sq sp_differences ?h // !mxE.
by move: (sum_products _ _) (sum_products _ _) (sum_products _ _) => a b c; Rring.
Qed.
Print Assumptions C51_psd_euclidean.
Example C51_psd_euclidean_meets :
  forall i : 'I_3, length (nth [::] [:: [:: IZR 0; IZR 1]; [:: IZR 2; IZR 1]; [:: IZR 2; IZR 1]] i) = 2%N.
Proof. by case=> [[|[|[]]]]. Qed.

Lemma psd_outer n (t : 'I_n -> R) : psd (\matrix_(i, j) Rmult (t i) (t j)).
Proof.
have h : forall i : 'I_n, length [:: t i] = 1%N by [].
apply: psd_eq (psd_gram_list h) => i j; rewrite !mxE /=; exact: Rplus_0_r.
Qed.
Lemma outer_sq n (t : 'I_n -> R) i j :
  Rmult (Rabs (Rminus (t i) (t j))) (Rabs (Rminus (t i) (t j))) =
  squared_distances (\matrix_(i, j) Rmult (t i) (t j)) i j.
Proof.
rewrite -[LHS]/(Rsqr (Rabs _)) -Rsqr_abs /Rsqr !mxE; move: (t i) (t j) => a b; Rring.
Qed.

Theorem C51_psd_scalar (s : RadialSpec.shape) (ell sigma : R) (n : nat) (xs : 'I_n -> R) :
  exists M : 'M[R]_n,
    (forall i j, radial_call euclidean_scalar (covariance_of s) (XFin ell) (XFin sigma) (xs i) (xs j) =
                 Ok (XFin (M i j))) /\
    psd M /\ (Rlt 0 ell -> forall i, M i i = pow sigma 2).
Proof.
apply: (radial_matrix (dist := fun i j => Rabs (Rminus (xs i) (xs j))) s ell sigma (psd_outer xs)) => // i j.
- exact: Rabs_pos.
- exact: outer_sq.
Qed.
Print Assumptions C51_psd_scalar.

(* points of any sizes *)
Theorem C51_psd_radial (s : RadialSpec.shape) (ell sigma : R) (n : nat) (xs : 'I_n -> list R) :
  exists M : 'M[R]_n,
    (forall i j, radial_call radial_distance (covariance_of s) (XFin ell) (XFin sigma) (xs i) (xs j) =
                 Ok (XFin (M i j))) /\
    psd M /\ (Rlt 0 ell -> forall i, M i i = pow sigma 2).
Proof.
apply: (radial_matrix (dist := fun i j => Rabs (Rminus (norm (xs i)) (norm (xs j)))) s ell sigma
          (psd_outer (fun i => norm (xs i)))) => // i j.
- exact: Rabs_pos.
- exact: outer_sq.
Qed.
Print Assumptions C51_psd_radial.

(* three unit vectors of the plane; the first two are at the angular distance 0 *)
Definition corner (i : 'I_3) : list R :=
  nth [::] [:: [:: IZR 1; IZR 0]; [:: IZR 1; Rinv (pow (IZR 10) 9)]; [:: IZR 0; IZR 1]] i.
Definition corner_angle (v : R) (i j : 'I_3) : R :=
  nth R0 (nth [::] [:: [:: R0; R0; Rdiv PI (IZR 2)]; [:: R0; R0; v]; [:: Rdiv PI (IZR 2); v; R0]] i) j.

(* not positive semidefinite with the angular distance: points at distance 0 have different covariances *)
Lemma not_psd3 (M : 'M[R]_3) (o0 o1 o2 : 'I_3) : o0 != o1 -> o0 != o2 -> o1 != o2 ->
  psd M -> M o0 o0 = R1 -> M o1 o1 = R1 -> M o0 o1 = R1 -> M o0 o2 = M o1 o2.
Proof.
move=> n01 n02 n12 [sy pos] e0 e1 e01.
have sym i j : M i j = M j i by have := congr1 (fun A : 'M__ => A j i) sy; rewrite mxE.
pose x (t : R) : 'cV[R]_3 := \col_i (if i == o0 then t else if i == o1 then - t else if i == o2 then R1 else R0).
have q t : quad M (x t) = Rplus (Rmult (Rmult (IZR 2) t) (Rminus (M o0 o2) (M o1 o2))) (M o2 o2).
  rewrite quadE.
  have S (F : 'I_3 -> R) : \sum_i F i = F o0 + (F o1 + F o2).
    rewrite (bigD1 o0) //= (bigD1 o1) /= 1?eq_sym // (bigD1 o2) /=; last by rewrite eq_sym n02 eq_sym n12.
    rewrite big1 ?addr0 // => i; have : i \in [:: o0; o1; o2] -> ~~ [&& i != o0, i != o1 & i != o2].
      by rewrite !inE; case: eqP => // _; case: eqP => // _ /= ->.
    have u : uniq [:: o0; o1; o2] by rewrite /= !inE negb_or n01 n02 n12.
    have -> : i \in [:: o0; o1; o2].
      have := (uniq_min_size u (s2 := enum 'I_3)); rewrite size_enum_ord.
      move=> /(_ (fun z _ => mem_enum _ z) erefl)[_ h]; by rewrite h mem_enum.
    by move=> /(_ isT) h0 /andP[/andP[a b] c]; move: h0; rewrite a b c.
  rewrite !S !mxE !eqxx (eq_sym o1 o0) (eq_sym o2 o0) (eq_sym o2 o1) (negbTE n01) (negbTE n02) (negbTE n12).
  rewrite (sym o1 o0) (sym o2 o0) (sym o2 o1) e0 e1 e01.
  move: (M o0 o2) (M o1 o2) (M o2 o2) => a b c; toR; ring.
have h := pos (x _); set d := Rminus (M o0 o2) (M o1 o2) in q.
case: (Req_dec d R0) => [z|nz]; first by rewrite /d in z; move: z; move: (M o0 o2) (M o1 o2) => a b ?; lra.
have := pos (x (Rdiv (Ropp (Rplus (M o2 o2) R1)) (Rmult (IZR 2) d))); rewrite q => /RleP.
have -> : Rplus (Rmult (Rmult (IZR 2) (Rdiv (Ropp (Rplus (M o2 o2) R1)) (Rmult (IZR 2) d))) d) (M o2 o2) = Ropp R1.
  move: nz; clear; move: d (M o2 o2) => d m nz; field; exact: nz.
by toR; lra.
Qed.

(* finding: with the angular distance, whose small angles are clamped to 0, the matrix of three directions is not positive
   semi-definite; Exponential is the shape programs can use, the other three are rejected by static_asserts (C94) *)
Theorem C51_angular_refuted (s : RadialSpec.shape) : exists xs : 'I_3 -> list R,
  (forall i, length (xs i) = 2%N /\ nonzero (xs i)) /\
  exists V : 'M[R]_3,
    (forall i j, radial_call angular_distance (covariance_of s) (XFin R1) (XFin R1) (xs i) (xs j) =
                Ok (XFin (V i j))) /\ ~ psd V.
Proof.
exists corner; split.
  have e := e_pos.
  case=> [[|[|[|[]]]]] //= hi; split=> //; [left|left|right; left]; lra.
have [v [E V]] := d23.
exists (\matrix_(i, j) rho s (corner_angle v i j)); split; last first.
  move=> p; have := @not_psd3 _ (inord 0) (inord 1) (inord 2) _ _ _ p.
  rewrite !mxE /corner_angle !inordK //= => h.
  have lt := rho_decreasing s v (Rdiv PI (IZR 2)) (proj1 V) (proj2 V).
  suff : rho s (Rdiv PI (IZR 2)) = rho s v by lra.
  by apply: h; rewrite ?rho_0 // -val_eqE /= !inordK.
have e := e_pos; have P k : Rlt 0 (norm (corner k)).
  by apply: norm_pos; case: k => [[|[|[|[]]]]] //= ?; [left|left|right; left]; lra.
have A i j : angular_distance (corner i) (corner j) = Ok (XFin (corner_angle v i j)).
  have Sy k l : angular_distance (corner k) (corner l) = angular_distance (corner l) (corner k).
    by apply: angular_sym => //; case: k => [[|[|[|[]]]]] ? //=; case: l => [[|[|[|[]]]]].
  have [->|ne] := eqVneq i j.
    rewrite angular_self //; case: j => [[|[|[|[]]]]] //.
  move: ne; case: i => [[|[|[|[]]]]] // hi; case: j => [[|[|[|[]]]]] // hj // _.
  - exact: d12.
  - exact: d13.
  - by rewrite Sy; exact: d12.
  - by rewrite Sy; exact: d13.
  - by rewrite Sy; exact: E.
move=> i j; rewrite /radial_call A [bind _ _]/= covariance_value mxE.
case: Rle_dec => h; first by exfalso; lra.
case: Rlt_dec => h2.
  exfalso; have := PI_RGT_0; move: h2; clear A P h; rewrite /corner_angle.
  case: i => [[|[|[|[]]]]] //= hi; case: j => [[|[|[|[]]]]] //= hj *; lra.
by congr (Ok (XFin _)); rewrite /Rdiv Rinv_1 Rmult_1_r /= !Rmult_1_l.
Qed.
Print Assumptions C51_angular_refuted.

(* C94: covariance matrices of the radial covariance functions of the angle between directions. *)
From Coq Require Import Reals Lra.
From Verif Require Import Base ExtRealModel DistanceModel DistanceSpec DistanceProofs DistanceProps
  RadialModel RadialSpec RadialProofs AngularSpec AngularProofs.
From mathcomp Require Import all_ssreflect all_algebra.
From Verif Require Import RealStruct GpSpec PsdProofs CallerPsd RealPsd RadialPsd AngularPsd.
Set Implicit Arguments.
Unset Strict Implicit.
Unset Printing Implicit Defensive.
Import Order.TTheory GRing.Theory Num.Theory.
Local Open Scope ring_scope.

Section Directions.
Variables (d n : nat) (xs : 'I_n -> list R).
Hypothesis lens : forall i, length (xs i) = d.
Hypothesis nz : forall i, nonzero (xs i).
Lemma psd_cosine : psd (\matrix_(i, j) cosine (xs i) (xs j)).
Proof.
apply: psd_eq (psd_scaled (fun i => Rinv (norm (xs i))) (psd_gram_list lens)) => i j.
rewrite !mxE /cosine inner_sp !len_norm; toR.
have hi := norm_pos _ (nz i); have hj := norm_pos _ (nz j).
by move: (sum_products _ _) (norm _) (norm _) hi hj => a b c hb hc; field; split; lra.
Qed.
Lemma range i j : Rle (Rabs (cosine (xs i) (xs j))) 1.
Proof.
have [h1 h2] := cosine_range (xs i) (xs j) (eq_trans (lens i) (esym (lens j))) (nz i) (nz j).
by rewrite /Rabs; case: Rcase_abs => *; lra.
Qed.
(* the matrix for exact angles *)
Lemma psd_exact (ell sigma : R) : Rlt 0 ell ->
  psd (\matrix_(i, j) Rmult (pow sigma 2) (exp (Ropp (Rdiv (acos (cosine (xs i) (xs j))) ell)))).
Proof.
move=> l0; have l' : Rle 0 (Rinv ell) by apply: Rlt_le; exact: Rinv_0_lt_compat.
have s0 : 0 <= pow sigma 2 :> R by apply/RleP; exact: pow2_ge_0.
have b : forall i j, Rle (Rabs ((\matrix_(i, j) cosine (xs i) (xs j) : 'M[R]_n) i j)) 1.
  by move=> i j; rewrite mxE; exact: range.
apply: psd_eq (psdZ s0 (psd_exp_acos l' psd_cosine b)) => i j; rewrite !mxE; toR.
by rewrite [Rmult (Rinv ell) _]Rmult_comm.
Qed.
Lemma values s (ell sigma : R) i j : Rlt 0 ell ->
  radial_call angular_distance (covariance_of s) (XFin ell) (XFin sigma) (xs i) (xs j) =
  Ok (XFin (Rmult (pow sigma 2) (rho s (Rdiv (angle (xs i) (xs j)) ell)))).
Proof.
move=> l0; rewrite /radial_call angle_ok ?lens // [bind _ _]/= covariance_value.
case: Rle_dec => h; first lra.
case: Rlt_dec => // h'; by have := angle_ge0 (xs i) (xs j); lra.
Qed.
Lemma no_length_scale s (ell sigma : R) i j : Rle ell 0 ->
  radial_call angular_distance (covariance_of s) (XFin ell) (XFin sigma) (xs i) (xs j) = Ok (XFin R0).
Proof.
by move=> l0; rewrite /radial_call angle_ok ?lens // [bind _ _]/= covariance_value; case: Rle_dec.
Qed.
End Directions.

(* Exponential: any number of directions, with repetitions, in any dimension, none of the angles between 0 and
   about 1.5e-8, nor that close to a half turn without being one; every length scale and sigma *)
Theorem C94_exponential (ell sigma : R) (d n : nat) (xs : 'I_n -> list R) :
  (forall i, length (xs i) = d /\ nonzero (xs i)) -> (forall i j, resolved (xs i) (xs j)) ->
  exists M : 'M[R]_n,
    (forall i j, radial_call angular_distance (covariance_of Exponential) (XFin ell) (XFin sigma) (xs i) (xs j) =
                 Ok (XFin (M i j))) /\
    psd M /\ (Rlt 0 ell -> forall i, M i i = pow sigma 2).
Proof.
move=> h r; have lens i := proj1 (h i); have nz i := proj2 (h i).
case: (Rle_dec ell 0) => l0.
  exists 0; split; last by split; [exact: psd0|move=> *; exfalso; lra].
  by move=> i j; rewrite (no_length_scale lens) // mxE.
have {}l0 : Rlt 0 ell by lra.
exists (\matrix_(i, j) Rmult (pow sigma 2) (rho Exponential (Rdiv (angle (xs i) (xs j)) ell))); split; last split.
- by move=> i j; rewrite (values lens) // mxE.
- apply: psd_eq (psd_exact lens nz sigma l0) => i j; by rewrite !mxE /rho angle_resolved.
by move=> _ i; rewrite mxE angle_self // /Rdiv Rmult_0_l rho_0 Rmult_1_r.
Qed.
Print Assumptions C94_exponential.
Example C94_exponential_meets : let xs (i : 'I_4) := turn i in
  (forall i, length (xs i) = 2%N /\ nonzero (xs i)) /\ (forall i j, resolved (xs i) (xs j)).
Proof.
have lt4 (i : 'I_4) : Peano.lt i 4 by apply/ssrnat.ltP; exact: ltn_ord.
split=> [i|i j]; first by have [-> []] := turn_props i (lt4 i).
rewrite /resolved cosine_turn //; case: (Nat.eqb _ _); first by left.
case: (Nat.odd _); last by right; left.
right; right; lra.
Qed.

(* every matrix of directions is positive semi-definite up to the clamping of the small angles *)
Theorem C94_exponential_nearly (ell sigma : R) (d n : nat) (xs : 'I_n -> list R) : Rlt 0 ell ->
  (forall i, length (xs i) = d /\ nonzero (xs i)) ->
  exists M : 'M[R]_n,
    (forall i j, radial_call angular_distance (covariance_of Exponential) (XFin ell) (XFin sigma) (xs i) (xs j) =
                 Ok (XFin (M i j))) /\
    psd (M + (Rmult (INR n) (Rmult (pow sigma 2) (Rdiv (Rdiv 3 (pow 10 8)) ell)))%:M).
Proof.
move=> l0 h; have lens i := proj1 (h i); have nz i := proj2 (h i).
have i0 := Rinv_0_lt_compat _ l0.
exists (\matrix_(i, j) Rmult (pow sigma 2) (rho Exponential (Rdiv (angle (xs i) (xs j)) ell))); split.
  by move=> i j; rewrite (values lens) // mxE.
apply: psd_perturbed (psd_exact lens nz sigma l0) _ _.
  by apply/matrixP => i j; rewrite !mxE angle_sym.
move=> i j; rewrite !mxE /rho -Rmult_minus_distr_l Rabs_mult (Rabs_pos_eq (pow sigma 2)); last exact: pow2_ge_0.
apply: Rmult_le_compat_l; first exact: pow2_ge_0.
have a0 := angle_ge0 (xs i) (xs j); have [b0 _] := acos_bound (cosine (xs i) (xs j)).
have c := cosine_range (xs i) (xs j) (eq_trans (lens i) (esym (lens j))) (nz i) (nz j).
apply: Rle_trans (exp_lip _ _ _ _) _; try (by apply: Rmult_le_pos => //; lra).
rewrite /Rdiv -Rmult_minus_distr_r Rabs_mult (Rabs_pos_eq (Rinv ell)); last lra.
apply: Rmult_le_compat_r; first lra.
exact: angle_near.
Qed.
Print Assumptions C94_exponential_nearly.
Example C94_exponential_nearly_meets : let xs (i : 'I_3) := nth [::] [:: [:: IZR 1; Rinv (pow 10 9)]; [:: IZR 1; IZR 0]; [:: IZR 1; IZR 1]] i in
  Rlt 0 1 /\ (forall i, length (xs i) = 2%N /\ nonzero (xs i)).
Proof. by split; [lra|case=> [[|[|[]]]] //= hi; split=> //; left; lra]. Qed.

(* SquaredExponential, Matern32 and Matern52 of the angle are not positive semi-definite, whatever the precision of the
   angles: for the directions 0, 90, 180 and 270 degrees the matrix has a negative eigenvalue. The static_asserts of
   radial.hpp:139-141, 426-427 and 496-497 reject these combinations, and Exponential has none: by C94_exponential they
   are exactly the ones to reject. (The snippet of doc/src/temperature-example.rst:59 uses a rejected one.) *)
Theorem C94_rejected_combinations (s : RadialSpec.shape) (sigma : R) : s <> Exponential -> sigma <> R0 ->
  exists (ell : R) (xs : 'I_4 -> list R),
    Rlt 0 ell /\ (forall i, length (xs i) = 2%N /\ nonzero (xs i)) /\ (forall i j, resolved (xs i) (xs j)) /\
    exists V : 'M[R]_4,
      (forall i j, radial_call angular_distance (covariance_of s) (XFin ell) (XFin sigma) (xs i) (xs j) =
                   Ok (XFin (V i j))) /\
      quad V (\col_i (-1) ^+ i) < 0.
Proof.
move=> ns s0; exists (unit s), (fun i : 'I_4 => turn i); split; first exact: unit_pos.
have [h r] := C94_exponential_meets; split=> //; split=> //.
exists (\matrix_(i, j) Rmult (pow sigma 2) (rho s (Rdiv (angle (turn i) (turn j)) (unit s)))); split.
  move=> i j; rewrite mxE; apply: (@values 2 4 (fun i : 'I_4 => turn i)); last exact: unit_pos.
  - by move=> k; have [] := h k.
  - by move=> k; have [] := h k.
have N := smooth_negative s ns; set a := rho s _ in N; set b := rho s _ in N.
have p : Rlt 0 (pow sigma 2) by rewrite /pow Rmult_1_r; exact: Rsqr_pos_lt.
have lt4 (i : 'I_4) : Peano.lt i 4 by apply/ssrnat.ltP; exact: ltn_ord.
have V (i j : 'I_4) : rho s (Rdiv (angle (turn i) (turn j)) (unit s)) =
   if Nat.eqb i j then R1 else if Nat.odd (i + j) then a else b.
  rewrite angle_turn //; case: (Nat.eqb _ _); first by rewrite /Rdiv Rmult_0_l rho_0.
  by case: (Nat.odd _).
rewrite quadE.
have -> : \sum_i \sum_j (\col_i (-1) ^+ i : 'cV[R]_4) i 0 * (\matrix_(i, j) Rmult (pow sigma 2) (rho s (Rdiv (angle (turn i) (turn j)) (unit s)))) i j *
     (\col_i (-1) ^+ i : 'cV[R]_4) j 0 = Rmult (IZR 4) (Rmult (pow sigma 2) (Rplus (Rminus 1 (Rmult 2 a)) b)).
  rewrite !(big_ord_recr, big_ord0) /= !mxE !V /= ?addnE /=.
  move: (pow sigma 2) => q; rewrite !exprS expr0; toR; ring.
apply/RltP; move: (pow sigma 2) p N => q p N; change (Rlt (Rmult 4 (Rmult q (Rplus (Rminus 1 (Rmult 2 a)) b))) 0); nra.
Qed.
Print Assumptions C94_rejected_combinations.
Example C94_rejected_combinations_meets : SquaredExponential <> Exponential /\ R1 <> R0.
Proof. split=> //; lra. Qed.

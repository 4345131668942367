From Coq Require Import Reals Lra.
From Verif Require Import Base ExtRealModel DistanceModel DistanceProofs RadialModel RadialSpec RadialProofs.
From mathcomp Require Import all_ssreflect all_algebra.
From Verif Require Import RealStruct GpSpec PsdProofs CallerPsd RealPsd RealPsd2 RealPsd3.
Set Implicit Arguments.
Unset Strict Implicit.
Unset Printing Implicit Defensive.
Import Order.TTheory GRing.Theory Num.Theory.
Local Open Scope ring_scope.

Lemma sp_sum d : forall x y : list R, length x = d -> length y = d ->
  sum_products x y = \sum_(k < d) List.nth k x R0 * List.nth k y R0.
Proof.
elim: d => [|d IH] [|a x] [|b y] //=; first by rewrite big_ord0.
by move=> [hx] [hy]; rewrite big_ord_recl /= (IH x y hx hy).
Qed.
Lemma psd_gram_list d n (xs : 'I_n -> list R) : (forall i, length (xs i) = d) ->
  psd (\matrix_(i, j) sum_products (xs i) (xs j)).
Proof.
move=> h; pose E : 'M[R]_(d, n) := \matrix_(k, i) List.nth k (xs i) R0.
have pI : psd (1%:M : 'M[R]_d).
  split; first by rewrite /symmetric tr_scalar_mx.
  move=> x; rewrite /quad mulmx1 mxE; apply: sumr_ge0 => i _; rewrite mxE; exact: sqr_ge0.
apply: psd_eq (psd_congr E pI) => i j; rewrite mulmx1 [RHS]mxE (sp_sum (h i) (h j)) mxE.
by apply: eq_bigr => k _; rewrite !mxE.
Qed.

(* the values of the four functions at distances given by a Gram matrix *)
Section Shapes.
Variables (n : nat) (K : 'M[R]_n).
Hypothesis pK : psd K.
Variables (dist : 'I_n -> 'I_n -> R).
Hypothesis d0 : forall i j, Rle 0 (dist i j).
Hypothesis dE : forall i j, Rmult (dist i j) (dist i j) = squared_distances K i j.
Variables ell sigma : R.
Hypothesis hl : Rlt 0 ell.
Definition factor_of (s : RadialSpec.shape) : R := match s with Matern32 => sqrt 3 | Matern52 => sqrt 5 | _ => R1 end.
Lemma factor_ge0 s : Rle 0 (factor_of s).
Proof. case: s => /=; [lra|lra|exact: sqrt_pos|exact: sqrt_pos]. Qed.
Let scaled s : 'M[R]_n := Rmult (Rdiv (factor_of s) ell) (Rdiv (factor_of s) ell) *: K.
Lemma scaled_psd s : psd (scaled s).
Proof. by apply: psdZ => //; apply/RleP; exact: Rle_0_sqr. Qed.
Lemma scaled_sq s i j : squared_distances (scaled s) i j =
  Rmult (Rmult (factor_of s) (Rdiv (dist i j) ell)) (Rmult (factor_of s) (Rdiv (dist i j) ell)).
Proof.
have -> : Rmult (Rmult (factor_of s) (Rdiv (dist i j) ell)) (Rmult (factor_of s) (Rdiv (dist i j) ell)) =
   Rmult (Rmult (Rdiv (factor_of s) ell) (Rdiv (factor_of s) ell)) (Rmult (dist i j) (dist i j)) by field; lra.
rewrite dE /squared_distances !mxE; move: (K i i) (K j j) (K i j) (Rmult (Rdiv _ _) _) => *; Rring.
Qed.
Lemma scaled_root s i j : sqrt (squared_distances (scaled s) i j) = Rmult (factor_of s) (Rdiv (dist i j) ell).
Proof.
rewrite scaled_sq sqrt_square //; apply: Rmult_le_pos; first exact: factor_ge0.
by apply: Rmult_le_pos => //; apply: Rlt_le; exact: Rinv_0_lt_compat.
Qed.
Lemma shape_psd s : psd (\matrix_(i, j) Rmult (pow sigma 2) (rho s (Rdiv (dist i j) ell))).
Proof.
suff p : psd (\matrix_(i, j) rho s (Rdiv (dist i j) ell)).
  have s2 : 0 <= pow sigma 2 by apply/RleP; exact: pow2_ge_0.
  by apply: psd_eq (psdZ s2 p) => i j; rewrite !mxE.
have pS := scaled_psd s; have sq := scaled_sq s; have root := scaled_root s.
case: s pS sq root => pS sq root.
- apply: psd_eq (psd_gaussian pS) => i j; rewrite mxE [RHS]mxE sq /=.
  by congr exp; ring.
- have := psd_exp_root pS (Rle_refl 0); apply: psd_eq => i j; rewrite mxE [RHS]mxE /= Rplus_0_r /exp_root root /=.
  by congr exp; ring.
- have := psd_matern_3 pS (Rle_refl 0); apply: psd_eq => i j; rewrite mxE [RHS]mxE /= Rplus_0_r /matern_3 root /=.
  by [].
have := psd_matern_5 pS (Rle_refl 0); apply: psd_eq => i j; rewrite mxE [RHS]mxE /= Rplus_0_r /matern_5 root sq /=.
congr (Rmult (Rplus _ _) _); have h5 : Rmult (sqrt 5) (sqrt 5) = IZR 5 by apply: sqrt_sqrt; lra.
rewrite -[X in _ = Rdiv (Rmult X _) _]h5; field; lra.
Qed.
End Shapes.

(* every entry is a value of the function; the matrix of the values *)
Lemma radial_matrix (X : Type) (metric : X -> X -> outcome xr) n (xs : 'I_n -> X) (dist : 'I_n -> 'I_n -> R)
    (K : 'M[R]_n) s (ell sigma : R) :
  psd K -> (forall i j, metric (xs i) (xs j) = Ok (XFin (dist i j))) -> (forall i j, Rle 0 (dist i j)) ->
  (forall i j, Rmult (dist i j) (dist i j) = squared_distances K i j) ->
  exists M : 'M[R]_n,
    (forall i j, radial_call metric (covariance_of s) (XFin ell) (XFin sigma) (xs i) (xs j) = Ok (XFin (M i j))) /\
    psd M /\ (Rlt 0 ell -> forall i, M i i = pow sigma 2).
Proof.
move=> pK hm d0 dE.
case: (Rle_dec ell 0) => hl.
  exists 0; split; last by split; [exact: psd0|move=> h; exfalso; lra].
  move=> i j; rewrite /radial_call hm /= covariance_value; case: Rle_dec => // h; by rewrite mxE.
exists (\matrix_(i, j) Rmult (pow sigma 2) (rho s (Rdiv (dist i j) ell))); split; last split.
- move=> i j; rewrite /radial_call hm [bind _ _]/= covariance_value; case: Rle_dec => // _.
  case: Rlt_dec => [h|_]; first by have := d0 i j; lra.
  by rewrite mxE.
- apply: (shape_psd pK d0 dE); lra.
move=> _ i; rewrite mxE; have -> : dist i i = R0.
  have := dE i i; rewrite mxE; have := d0 i i; move: (K i i) (dist i i) => k x h e.
  have : Rmult x x = R0 by rewrite e; Rring.
  by case/Rmult_integral.
by rewrite /Rdiv Rmult_0_l rho_0 Rmult_1_r.
Qed.

(* Covariance functions of angles, for C94: positive semi-definite matrices of functions of the arc cosine.
   No code is modelled here. *)
From Coq Require Import Reals Lra.
From mathcomp Require Import all_ssreflect all_algebra.
From Verif Require Import RealStruct GpSpec PsdProofs CallerPsd RealPsd.
From Verif Require ArcsinSeries.
Set Implicit Arguments.
Unset Strict Implicit.
Unset Printing Implicit Defensive.
Import Order.TTheory GRing.Theory Num.Theory.
Local Open Scope ring_scope.

Lemma psd_asin_inside n (A : 'M[R]_n) : psd A -> (forall i j, Rlt (Rabs (A i j)) 1) ->
  psd (\matrix_(i, j) asin (A i j)).
Proof.
move=> pA h.
have p2 : psd (\matrix_(i, j) Rmult (A i j) (A i j)) by apply: psd_eq (schur_product pA pA) => i j; rewrite !mxE.
have pS : psd (\matrix_(i, j) Coquelicot.PSeries.PSeries ArcsinSeries.a ((\matrix_(i, j) Rmult (A i j) (A i j) : 'M[R]_n) i j)).
  apply: (@psd_series n _ ArcsinSeries.a); first exact: p2.
    by move=> k; apply/RleP; apply: Rlt_le; exact: (proj1 (ArcsinSeries.a_range k)).
  move=> i j; rewrite mxE; apply: ArcsinSeries.Sa_cv.
  by have [h0 h1] := ArcsinSeries.sq_small _ (h i j); rewrite Rabs_pos_eq.
apply: psd_eq (schur_product pA pS) => i j; rewrite !mxE ArcsinSeries.asin_series //.
Qed.
Lemma psd_asin n (A : 'M[R]_n) : psd A -> (forall i j, Rle (Rabs (A i j)) 1) -> psd (\matrix_(i, j) asin (A i j)).
Proof.
move=> pA h; pose r (m : nat) := Rminus 1 (Rinv (Rplus (INR m) 1)).
have r01 m : Rle 0 (r m) /\ Rlt (r m) 1.
  have := pos_INR m => hm; have h0 : Rlt 0 (Rinv (Rplus (INR m) 1)) by apply: Rinv_0_lt_compat; lra.
  have h1 : Rle (Rinv (Rplus (INR m) 1)) 1 by rewrite -[X in Rle _ X]Rinv_1; apply: Rinv_le_contravar; lra.
  by rewrite /r; split; lra.
apply: (@cv_psd _ (fun m => \matrix_(i, j) asin (Rmult (r m) (A i j)))).
  move=> m; have [r0 r1] := r01 m.
  have q : forall i j, Rlt (Rabs ((r m *: A) i j)) 1.
    move=> i j; rewrite mxE; change (Rlt (Rabs (Rmult (r m) (A i j))) 1); rewrite Rabs_mult Rabs_pos_eq //.
    have := h i j; have := Rabs_pos (A i j); move: (Rabs _) => y y0 y1; nra.
  by apply: psd_eq (psd_asin_inside (psdZ (introT (RleP _ _) r0) pA) q) => i j; rewrite !mxE.
move=> i j; rewrite mxE; apply: (cv_eq _ (ArcsinSeries.asin_scaled_cv _ (h i j))) => m; by rewrite mxE.
Qed.
Lemma psd_exp_acos n (A : 'M[R]_n) (c : R) : Rle 0 c -> psd A -> (forall i j, Rle (Rabs (A i j)) 1) ->
  psd (\matrix_(i, j) exp (Ropp (Rmult c (acos (A i j))))).
Proof.
move=> c0 pA h; have p := psd_exp (psdZ (introT (RleP _ _) c0) (psd_asin pA h)).
have e0 : 0 <= exp (Ropp (Rmult c (Rdiv PI 2))) :> R by apply/RleP; apply: Rlt_le; exact: exp_pos.
apply: psd_eq (psdZ e0 p) => i j; rewrite !mxE; change (Rmult (exp (Ropp (Rmult c (Rdiv PI 2)))) (exp (Rmult c (asin (A i j)))) = exp (Ropp (Rmult c (acos (A i j))))).
rewrite -exp_plus acos_asin; last by have := h i j; move: (A i j) => y; rewrite /Rabs; case: Rcase_abs => *; lra.
congr exp; ring.
Qed.

(* a perturbation of the entries *)
Lemma double_sum n (u : 'I_n -> R) (d : R) : \sum_i \sum_j (d * u i + d * u j) = (d + d) * n%:R * \sum_i u i.
Proof.
have -> : \sum_i \sum_j (d * u i + d * u j) = \sum_i (d * u i *+ n) + \sum_(i < n) \sum_j d * u j.
  by rewrite -big_split /=; apply: eq_bigr => i _; rewrite big_split /= sumr_const card_ord.
rewrite sumrMnl sumr_const card_ord -mulr_sumr; move: (\sum_i _) => S.
by rewrite -(mulr_natr (d * S)) -mulrDl -mulrDl mulrAC.
Qed.
Lemma quad_scalar n (d : R) (x : 'cV[R]_n) : quad d%:M x = d * \sum_i x i 0 ^+ 2.
Proof.
rewrite quadE mulr_sumr; apply: eq_bigr => i _; rewrite (bigD1 i) //= big1 ?addr0; last first.
  by move=> j ji; rewrite mxE eq_sym (negbTE ji) mulr0n mulr0 mul0r.
by rewrite mxE eqxx mulr1n expr2 mulrCA mulrA.
Qed.
Lemma psd_perturbed n (K M : 'M[R]_n) (c : R) : psd K -> symmetric M -> (forall i j, Rle (Rabs (Rminus (M i j) (K i j))) c) ->
  psd (M + (Rmult (INR n) c)%:M).
Proof.
move=> [sK hK] sM h; split.
  by rewrite /symmetric linearD /= tr_scalar_mx sM.
move=> x; have -> : M + (Rmult (INR n) c)%:M = K + ((M - K) + (Rmult (INR n) c)%:M) by rewrite addrA [K + _]addrC subrK.
rewrite quadD; apply: addr_ge0; first exact: hK.
pose d : R := Rdiv c 2.
have -> : quad ((M - K) + (Rmult (INR n) c)%:M) x =
    \sum_i \sum_j (x i 0 * (M - K) i j * x j 0 + (d * x i 0 ^+ 2 + d * x j 0 ^+ 2)).
  rewrite quadD quad_scalar quadE.
  have -> : Rmult (INR n) c = (d + d) * n%:R.
    by rewrite RnatE /d; move: (INR n) => y; toR; field.
  rewrite -double_sum -big_split /=; apply: eq_bigr => i _; by rewrite -big_split.
apply: sumr_ge0 => i _; apply: sumr_ge0 => j _.
rewrite !mxE !expr2; have := h i j; move: (M i j) (K i j) (x i 0) (x j 0) => m k u v hc.
have {}hc : Rle (Ropp c) (Rminus m k) /\ Rle (Rminus m k) c by move: hc; rewrite /Rabs; case: Rcase_abs => *; lra.
rewrite /d; apply/RleP; toR; change (Rle 0 (Rplus (Rmult (Rmult u (Rplus m (Ropp k))) v) (Rplus (Rmult (Rdiv c 2) (Rmult u u)) (Rmult (Rdiv c 2) (Rmult v v))))).
move: hc; rewrite /Rminus; move: (Rplus m (Ropp k)) => e [h1 h2].
have c0 : Rle 0 c by lra.
have s1 := Rle_0_sqr (Rplus u v); have s2 := Rle_0_sqr (Rminus u v); rewrite /Rsqr in s1 s2.
have q1 := Rmult_le_pos _ _ c0 s1; have q2 := Rmult_le_pos _ _ c0 s2; clear s1 s2.
case: (Rle_dec 0 (Rmult u v)) => s.
  have t := Rmult_le_pos (Rplus e c) _ (ltac:(lra)) s; move: t q2; clear; lra.
have s' : Rle 0 (Ropp (Rmult u v)) by lra.
have t := Rmult_le_pos (Rminus c e) _ (ltac:(lra)) s'; move: t q1; clear; lra.
Qed.

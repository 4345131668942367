(* The radial functions of a squared distance are positive semi-definite. No code is modelled here. *)
From Coq Require Import Reals Lra.
From mathcomp Require Import all_ssreflect all_algebra.
From Verif Require Import RealStruct GpSpec PsdProofs CallerPsd RealPsd RealPsd2.
Set Implicit Arguments.
Unset Strict Implicit.
Unset Printing Implicit Defensive.
Import Order.TTheory GRing.Theory Num.Theory.
Local Open Scope ring_scope.

(* a decreasing function is the integral of its derivative: if -f' = c g and g is positive
   semi-definite then so is f *)
Lemma psd_tail n (N : 'M[R]_n) (f g : R -> R) (c : R) : Rle 0 c ->
  symmetric N -> (forall i j, Rle 0 (N i j)) ->
  (forall s, Rlt 0 s -> derivable_pt_lim f s (Ropp (Rmult c (g s)))) ->
  (forall s, Rle 0 s -> continuity_pt f s) ->
  (forall s, Rle 0 s -> Un_cv (fun k => f (Rplus s (INR k))) 0) ->
  (forall t, Rlt 0 t -> psd (\matrix_(i, j) g (Rplus (N i j) t))) ->
  forall t, Rle 0 t -> psd (\matrix_(i, j) f (Rplus (N i j) t)).
Proof.
move=> c0 sN N0 hf fc f0 pg.
have key e : Rlt 0 e -> psd (\matrix_(i, j) f (Rplus (N i j) e)).
  move=> he; split; first by apply/matrixP => i j; rewrite !mxE -[in RHS]sN mxE.
  move=> x; pose A u : 'M[R]_n := \matrix_(i, j) f (Rplus (N i j) u).
  pose D u : 'M[R]_n := (- c) *: \matrix_(i, j) g (Rplus (N i j) u).
  have dA u : Rlt 0 u -> derivable_pt_lim (fun v => quad (A v) x) u (quad (D u) x).
    move=> hu; apply: deriv_quad => i j; rewrite !mxE.
    apply: (@deriv_ext (fun v => f (Rplus (N i j) v))); first by move=> v; rewrite mxE.
    have -> : (- c) * g (Rplus (N i j) u) = Rmult (Ropp (Rmult c (g (Rplus (N i j) u)))) (Rplus 0 1).
      by move: (g _) => *; Rring.
    apply: (derivable_pt_lim_comp (fun v => Rplus (N i j) v) f).
      by apply: (derivable_pt_lim_plus (fun _ => N i j) id); [exact: derivable_pt_lim_const|exact: derivable_pt_lim_id].
    by apply: hf; have := N0 i j; lra.
  have dN u : Rlt 0 u -> Rle (quad (D u) x) 0.
    move=> hu; case: (pg u hu) => _ /(_ x) /RleP h.
    have -> : quad (D u) x = Ropp (Rmult c (quad (\matrix_(i, j) g (Rplus (N i j) u)) x)).
      rewrite /quad -scalemxAr -scalemxAl mxE; move: ((_ *m _) 0 0) => q; by Rring.
    by have := Rmult_le_pos _ _ c0 h; Rlra.
  have dec k : quad (A (Rplus e (INR k))) x <= quad (A e) x.
    apply/RleP; have hk : Rle e (Rplus e (INR k)) by have := pos_INR k; lra.
    have := @mono_le (fun v => Ropp (quad (A v) x)) (fun v => Ropp (quad (D v) x)) e _ hk.
    move=> H; have : Rle (Ropp (quad (A e) x)) (Ropp (quad (A (Rplus e (INR k))) x)); last by Rlra.
    apply: H => [v h1 _|v h1 _]; first by apply: derivable_pt_lim_opp; apply: dA; lra.
    by have h2 : Rlt 0 v; [lra|have := dN v h2; Rlra].
  have cv : Un_cv (fun k => quad (A (Rplus e (INR k))) x) (quad (0 : 'M[R]_n) x).
    apply: cv_quad => i j; rewrite mxE.
    have h : Rle 0 (Rplus (N i j) e) by have := N0 i j; lra.
    by apply: (cv_eq _ (f0 _ h)) => k; rewrite mxE Rplus_assoc.
  have q0 : quad (0 : 'M[R]_n) x = 0 by rewrite /quad mulmx0 mul0mx mxE.
  rewrite q0 in cv; rewrite -/(A e).
  have := @cv_ge0 (fun k => Rminus (quad (A e) x) (quad (A (Rplus e (INR k))) x)) (Rminus (quad (A e) x) 0).
  rewrite Rminus_0_r; apply=> [k|]; first by apply/RleP; have /RleP := dec k; Rlra.
  rewrite -[X in Un_cv _ X]Rminus_0_r; apply: CV_minus => //; exact: cv_const.
move=> t [ht|<-]; first exact: key.
apply: (@cv_psd _ (fun k => \matrix_(i, j) f (Rplus (N i j) (RinvN k)))).
  by move=> k; apply: key; exact: (cond_pos (RinvN k)).
move=> i j; rewrite mxE; apply: (@cv_eq (fun k => f (Rplus (N i j) (RinvN k)))).
  by move=> k; rewrite mxE.
apply: continuity_seq; first by apply: fc; have := N0 i j; lra.
by apply: CV_plus; [exact: cv_const|exact: RinvN_cv].
Qed.

(* ---- the functions, of the squared distance ---- *)
Local Open Scope R_scope.
Definition exp_root (s : R) : R := exp (- sqrt s).
Definition matern_3 (s : R) : R := (1 + sqrt s) * exp (- sqrt s).
Definition matern_5 (s : R) : R := (1 + sqrt s + s / 3) * exp (- sqrt s).

Lemma exp_quartic r : 0 <= r -> (1 + r + r * r / 3) * exp (- r) <= 256 / (16 + r * r).
Proof.
move=> hr; have h1 := exp_ineq1_le (r / 4).
have -> : exp (- r) = / (exp (r / 4) * exp (r / 4) * (exp (r / 4) * exp (r / 4))).
  by rewrite -!exp_plus -exp_Ropp; congr exp; field.
set e := exp (r / 4) in h1 *.
have he : (1 + r / 4) * (1 + r / 4) <= e * e by nra.
have h0 : 0 < e * e by nra.
apply: (Rmult_le_reg_r (e * e * (e * e))); first by nra.
have -> : (1 + r + r * r / 3) * / (e * e * (e * e)) * (e * e * (e * e)) = 1 + r + r * r / 3 by field; nra.
apply: (Rmult_le_reg_r (16 + r * r)); first by nra.
have -> : 256 / (16 + r * r) * (e * e * (e * e)) * (16 + r * r) = 256 * (e * e * (e * e)) by field; nra.
move: (e * e) he h0 => q he h0.
have : (1 + r / 4) * (1 + r / 4) * ((1 + r / 4) * (1 + r / 4)) <= q * q by nra.
set p := (1 + r / 4) * (1 + r / 4).
have : 1 + r + r * r / 3 <= 16 * p by rewrite /p; nra.
have : 16 + r * r <= 16 * p by rewrite /p; nra.
have : 0 < p by rewrite /p; nra.
move=> p0 a1 a2 a3; have b0 : 0 <= 1 + r + r * r / 3 by nra.
apply: (Rle_trans _ ((16 * p) * (16 * p))); last by lra.
by apply: Rmult_le_compat => //; nra.
Qed.
Lemma cv_small (u : nat -> R) (c : R) : (forall k, 0 <= u k <= c * RinvN k) -> Un_cv u 0.
Proof.
move=> h; have cv : Un_cv (fun k => c * RinvN k) 0.
  by rewrite -(Rmult_0_r c); apply: CV_mult; [exact: cv_const|exact: RinvN_cv].
move=> eps he; case: (cv eps he) => N hN; exists N => k hk.
have := hN k hk; rewrite /Rfunctions.R_dist !Rminus_0_r; have := h k => -[h1 h2].
by rewrite !Rabs_right; lra.
Qed.
Lemma cv_radial (p : R -> R) s : 0 <= s -> (forall r, 0 <= r -> 0 <= p r <= 1 + r + r * r / 3) ->
  Un_cv (fun k => p (sqrt (s + INR k)) * exp (- sqrt (s + INR k))) 0.
Proof.
move=> hs hp; apply: (@cv_small _ 256) => k; have hk := pos_INR k.
set r := sqrt _; have hr : 0 <= r by exact: sqrt_pos.
have rr : r * r = s + INR k by apply: sqrt_sqrt; lra.
have [p0 p1] := hp r hr; have e0 := exp_pos (- r); split; first by apply: Rmult_le_pos => //; lra.
apply: (Rle_trans _ ((1 + r + r * r / 3) * exp (- r))); first by apply: Rmult_le_compat_r; lra.
apply: (Rle_trans _ _ _ (exp_quartic hr)); rewrite rr /Rdiv; apply: Rmult_le_compat_l; first lra.
by rewrite /=; apply: Rinv_le_contravar; lra.
Qed.
Lemma exp_root_cv s : 0 <= s -> Un_cv (fun k => exp_root (s + INR k)) 0.
Proof.
move=> hs; apply: (cv_eq _ (@cv_radial (fun _ => 1) s hs _)) => [k|r hr]; first by rewrite Rmult_1_l.
by nra.
Qed.
Lemma matern_3_cv s : 0 <= s -> Un_cv (fun k => matern_3 (s + INR k)) 0.
Proof. move=> hs; apply: (cv_eq _ (@cv_radial (fun r => 1 + r) s hs _)) => [k|r hr] //; by nra. Qed.
Lemma matern_5_cv s : 0 <= s -> Un_cv (fun k => matern_5 (s + INR k)) 0.
Proof.
move=> hs; apply: (cv_eq _ (@cv_radial (fun r => 1 + r + r * r / 3) s hs _)) => [k|r hr]; last by nra.
by rewrite /matern_5 sqrt_sqrt //; have := pos_INR k; lra.
Qed.

Lemma deriv_exp_root s : 0 < s -> derivable_pt_lim exp_root s (exp (- sqrt s) * - / (2 * sqrt s)).
Proof.
move=> hs; apply: (derivable_pt_lim_comp (fun v => - sqrt v) exp); last exact: derivable_pt_lim_exp.
by apply: derivable_pt_lim_opp; exact: derivable_pt_lim_sqrt.
Qed.
Lemma deriv_matern_3 s : 0 < s -> derivable_pt_lim matern_3 s (- (/ 2 * exp_root s)).
Proof.
move=> hs; have hr := sqrt_lt_R0 _ hs.
have -> : - (/ 2 * exp_root s) =
  (0 + / (2 * sqrt s)) * exp (- sqrt s) + (1 + sqrt s) * (exp (- sqrt s) * - / (2 * sqrt s)).
  by rewrite /exp_root; field; lra.
apply: (derivable_pt_lim_mult (fun v => 1 + sqrt v) exp_root); last exact: deriv_exp_root.
by apply: (derivable_pt_lim_plus (fun _ => 1) sqrt); [exact: derivable_pt_lim_const|exact: derivable_pt_lim_sqrt].
Qed.
Lemma deriv_matern_5 s : 0 < s -> derivable_pt_lim matern_5 s (- (/ 6 * matern_3 s)).
Proof.
move=> hs; have hr := sqrt_lt_R0 _ hs; have rr := sqrt_sqrt s (Rlt_le _ _ hs).
have -> : - (/ 6 * matern_3 s) =
  (0 + / (2 * sqrt s) + / 3) * exp (- sqrt s) + (1 + sqrt s + s / 3) * (exp (- sqrt s) * - / (2 * sqrt s)).
  have -> : s / 3 = sqrt s * sqrt s / 3 by rewrite rr.
  by rewrite /matern_3; field; lra.
apply: (derivable_pt_lim_mult (fun v => 1 + sqrt v + v / 3) exp_root); last exact: deriv_exp_root.
apply: (derivable_pt_lim_plus (fun v => 1 + sqrt v) (fun v => v / 3)).
  by apply: (derivable_pt_lim_plus (fun _ => 1) sqrt); [exact: derivable_pt_lim_const|exact: derivable_pt_lim_sqrt].
apply: (@deriv_ext (fun v => / 3 * v)); first by move=> v; field.
rewrite -{2}(Rmult_1_r (/ 3)); apply: derivable_pt_lim_scal; exact: derivable_pt_lim_id.
Qed.
Lemma cont_exp_root s : 0 <= s -> continuity_pt exp_root s.
Proof.
move=> hs; apply: (continuity_pt_comp (fun v => - sqrt v) exp).
  by apply: continuity_pt_opp; exact: continuity_pt_sqrt.
by apply: derivable_continuous_pt; exact: derivable_pt_exp.
Qed.
Lemma cont_matern_3 s : 0 <= s -> continuity_pt matern_3 s.
Proof.
move=> hs; apply: (continuity_pt_mult (fun v => 1 + sqrt v) exp_root); last exact: cont_exp_root.
apply: (continuity_pt_plus (fun _ => 1) sqrt); last exact: continuity_pt_sqrt.
by apply: derivable_continuous_pt; exact: derivable_pt_const.
Qed.
Lemma cont_matern_5 s : 0 <= s -> continuity_pt matern_5 s.
Proof.
move=> hs; apply: (continuity_pt_mult (fun v => 1 + sqrt v + v / 3) exp_root); last exact: cont_exp_root.
apply: (continuity_pt_plus (fun v => 1 + sqrt v) (fun v => v / 3)).
  apply: (continuity_pt_plus (fun _ => 1) sqrt); last exact: continuity_pt_sqrt.
  by apply: derivable_continuous_pt; exact: derivable_pt_const.
apply: (continuity_pt_mult id (fun _ => / 3)); apply: derivable_continuous_pt; [exact: derivable_pt_id|exact: derivable_pt_const].
Qed.

(* N i j is a squared distance: g i + g j - 2 K i j with K a Gram matrix of diagonal g *)
Section Squared.
Variables (n : nat) (K : 'M[R]_n).
Hypothesis pK : psd K.
Definition squared_distances : 'M[R]_n := \matrix_(i, j) (K i i + K j j - (K i j + K i j)).
Let N := squared_distances.
Lemma sq_ge0 i j : 0 <= N i j.
Proof. by rewrite mxE; exact: (N_ge0 pK (fun i => Rle_refl _)). Qed.
Lemma sq_sym : symmetric N.
Proof. by apply/matrixP => i j; rewrite !mxE; exact: (N_sym (fun i => K i i) pK). Qed.
Lemma psd_exp_root t : 0 <= t -> psd (\matrix_(i, j) exp_root (N i j + t)).
Proof.
move=> ht; have hg i : K i i <= K i i + t / 2 by lra.
apply: psd_eq (schoenberg (cnd_sqrt pK hg)) => i j; rewrite !mxE /exp_root; congr (exp (- sqrt _)).
by field.
Qed.
Lemma psd_matern_3 t : 0 <= t -> psd (\matrix_(i, j) matern_3 (N i j + t)).
Proof.
apply: (@psd_tail n N matern_3 exp_root (/ 2)) => //; first lra.
- exact: sq_sym.
- exact: sq_ge0.
- exact: deriv_matern_3.
- exact: cont_matern_3.
- exact: matern_3_cv.
by move=> u hu; apply: psd_exp_root; lra.
Qed.
Lemma psd_matern_5 t : 0 <= t -> psd (\matrix_(i, j) matern_5 (N i j + t)).
Proof.
apply: (@psd_tail n N matern_5 matern_3 (/ 6)) => //; first lra.
- exact: sq_sym.
- exact: sq_ge0.
- exact: deriv_matern_5.
- exact: cont_matern_5.
- exact: matern_5_cv.
by move=> u hu; apply: psd_matern_3; lra.
Qed.
Lemma psd_gaussian : psd (\matrix_(i, j) exp (- N i j)).
Proof.
apply: psd_eq (psd_scaled (fun i => exp (- K i i)) (psd_exp (psdD pK pK))) => i j.
rewrite /N !mxE !RmultE -!exp_plus; congr exp; move: (K i i) (K j j) (K i j) => *; toR; eqR; ring.
Qed.
End Squared.

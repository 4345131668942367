(* Resolvents, square roots and Schoenberg's theorem for conditionally negative definite matrices.
   No code is modelled here. *)
From Coq Require Import Reals Lra.
From mathcomp Require Import all_ssreflect all_algebra.
From Verif Require Import RealStruct GpSpec PsdProofs CallerPsd RealPsd.
Set Implicit Arguments.
Unset Strict Implicit.
Unset Printing Implicit Defensive.
Import Order.TTheory GRing.Theory Num.Theory.
Local Open Scope ring_scope.

(* ---- resolvents ---- *)
Lemma psd_off n (A : 'M[R]_n) i j : psd A -> Rle (Rmult 2 (Rabs (A i j))) (A i i + A j j).
Proof.
move=> pA; have sA : A j i = A i j by case: pA => s _; rewrite -{1}s mxE.
pose f (k : 'I_2) := if k == ord0 then i else j.
have [_ H] := psd_mxsub f pA.
have q2 (e : R) : quad (mxsub f f A) (\col_k (if k == ord0 then 1 else e)) =
   A i i + A i j * e + e * A i j + e * A j j * e.
  rewrite quadE !big_ord_recl !big_ord0 !mxE /f /= sA; Rring.
have /RleP h1 := H (\col_k (if k == ord0 then 1 else 1)).
have /RleP h2 := H (\col_k (if k == ord0 then 1 else -1)).
rewrite q2 in h1; rewrite q2 in h2.
toR; rewrite /Rabs; case: Rcase_abs => h; lra.
Qed.

Lemma psd_resolvent n (K : 'M[R]_n) (a : 'I_n -> R) : psd K -> (forall i, Rlt (K i i) (a i)) ->
  psd (\matrix_(i, j) (a i + a j - (K i j + K i j))^-1).
Proof.
move=> pK h.
have a0 i : 0 < a i by apply/RltP; have /RleP := psd_diag_ge0 i pK; have := h i; move=> *; Rlra.
have pC := psd_cauchy a0.
have pQ := schur_product (psdD pK pK) pC; set Q := entrywise _ _ in pQ.
have s0 i j : Rlt 0 (a i + a j) by have /RltP := a0 i; have /RltP := a0 j => *; Rlra.
have QE i j : Q i j = Rdiv (Rmult 2 (K i j)) (a i + a j).
  rewrite /Q /entrywise !mxE; have := s0 i j; move: (K i j) (a i) (a j) => k p q h0; toR; eqR; field; lra.
clearbody Q.
have Q1 i j : Rlt (Rabs (Q i j)) 1.
  rewrite QE /Rdiv Rabs_mult Rabs_mult (Rabs_right 2); last lra.
  rewrite (Rabs_right (Rinv _)); last by apply: Rle_ge; apply: Rlt_le; apply: Rinv_0_lt_compat.
  apply: (Rmult_lt_reg_r (a i + a j)) => //.
  rewrite Rmult_assoc Rinv_l; last by have := s0 i j; move=> h0; apply: Rgt_not_eq.
  have := psd_off i j pK; have := h i; have := h j => *; Rlra.
have pG : psd (\matrix_(i, j) Rinv (1 - Q i j)).
  apply: (@psd_series n Q (fun _ => 1) (fun x => Rinv (1 - x)) pQ).
    by move=> _; exact: ler01.
  move=> i j eps he; case: (@GP_infinite (Q i j) (Q1 i j) eps he) => N hN; exists N => k hk; exact: hN.
apply: psd_eq (schur_product pC pG) => i j; rewrite /entrywise !mxE QE.
have := s0 i j; have := psd_off i j pK; have := h i; have := h j; rewrite /Rabs.
move: (a i) (a j) (K i j) (K i i) (K j j) => p q k u v h1 h2 h3 h4; toR; eqR; field.
by move: h3; case: Rcase_abs => *; split; lra.
Qed.

(* ---- derivatives of finite sums ---- *)
Lemma deriv_sum (I : finType) (f : I -> R -> R) (d : I -> R) x :
  (forall i, derivable_pt_lim (f i) x (d i)) -> derivable_pt_lim (fun u => \sum_i f i u) x (\sum_i d i).
Proof.
move=> h.
have ext (g1 g2 : R -> R) (l : R) : g1 =1 g2 -> derivable_pt_lim g1 x l -> derivable_pt_lim g2 x l.
  by move=> e hd eps he; case: (hd eps he) => del hdel; exists del => k k0 hk; rewrite -!e; exact: hdel.
elim: (index_enum I) => [|i s IH].
  rewrite big_nil; apply: (ext (fun _ => R0)); first by move=> u; rewrite big_nil.
  exact: derivable_pt_lim_const.
rewrite big_cons; apply: (ext (fun u => Rplus (f i u) (\sum_(j <- s) f j u))).
  by move=> u; rewrite big_cons.
exact: (derivable_pt_lim_plus (f i) (fun u => \sum_(j <- s) f j u)).
Qed.
Lemma deriv_ext (g1 g2 : R -> R) (x l : R) : g1 =1 g2 -> derivable_pt_lim g1 x l -> derivable_pt_lim g2 x l.
Proof. by move=> e hd eps he; case: (hd eps he) => del hdel; exists del => k k0 hk; rewrite -!e; exact: hdel. Qed.
(* a form whose entries are differentiable *)
Lemma deriv_quad n (A : R -> 'M[R]_n) (D : 'M[R]_n) (x : 'cV[R]_n) u :
  (forall i j, derivable_pt_lim (fun v => A v i j) u (D i j)) ->
  derivable_pt_lim (fun v => quad (A v) x) u (quad D x).
Proof.
move=> h; apply: (@deriv_ext (fun v => \sum_i \sum_j x i 0 * A v i j * x j 0)).
  by move=> v; rewrite quadE.
rewrite quadE; apply: deriv_sum => i; apply: deriv_sum => j.
apply: (@deriv_ext (fun v => Rmult (Rmult (x i 0) (x j 0)) (A v i j))).
  by move=> v; rewrite -[RHS]mulrA [A v i j * _]mulrC mulrA.
have -> : x i 0 * D i j * x j 0 = Rmult (Rmult (x i 0) (x j 0)) (D i j).
  by rewrite -[LHS]mulrA [D i j * _]mulrC mulrA.
exact: derivable_pt_lim_scal.
Qed.
(* the derivative decides the sign *)
Lemma mono_le (f d : R -> R) (a b : R) : Rle a b -> (forall c, Rle a c -> Rle c b -> derivable_pt_lim f c (d c)) ->
  (forall c, Rlt a c -> Rlt c b -> Rle 0 (d c)) -> Rle (f a) (f b).
Proof.
move=> [hab|-> _ _]; last exact: Rle_refl.
move=> hf hd; case: (MVT_cor2 f d a b hab) => [c [h1 h2]|c [e [h1 h2]]]; first exact: hf.
have := hd c h1 h2 => h0; have : Rle 0 (d c * (b - a)); last by rewrite -RmultE; toR; lra.
by apply: Rmult_le_pos => //; toR; lra.
Qed.

(* ---- the square root of a conditionally negative definite matrix ---- *)
Definition cnd n (M : 'M[R]_n) : Prop :=
  symmetric M /\ forall x : 'cV[R]_n, \sum_i x i 0 = 0 -> quad M x <= 0.

Lemma atan_cv s : Rlt 0 s -> Un_cv (fun k => atan (Rdiv (Rplus (INR k) 1) s)) (Rdiv PI 2).
Proof.
move=> hs.
have hk k : Rlt 0 (Rplus (INR k) 1) by have := pos_INR k; lra.
apply: (@cv_eq (fun k => Rminus (Rdiv PI 2) (atan (Rmult s (RinvN k))))).
  move=> k; have h := hk k; rewrite -atan_inv; last first.
    by apply: Rmult_lt_0_compat => //; apply: Rinv_0_lt_compat.
  congr (atan _); rewrite /RinvN /=; field; split; lra.
rewrite -[X in Un_cv _ X]Rminus_0_r; apply: CV_minus; first exact: cv_const.
rewrite -atan_0; apply: (continuity_seq atan).
  by apply: derivable_continuous_pt; exact: derivable_pt_atan.
rewrite -(Rmult_0_r s); apply: CV_mult; [exact: cv_const|exact: RinvN_cv].
Qed.

(* s atan(u / s) and atan(u / s) / s *)
Lemma deriv_atan s u : Rlt 0 s ->
  derivable_pt_lim (fun v => atan (Rdiv v s)) u (Rdiv s (Rplus (Rmult s s) (Rmult u u))).
Proof.
move=> hs; have -> : Rdiv s (Rplus (Rmult s s) (Rmult u u)) = Rmult (Rinv (Rplus 1 (pow (Rmult u (Rinv s)) 2))) (Rinv s).
  have := Rle_0_sqr u; rewrite /Rsqr => h; have : Rlt 0 (Rmult s s) by apply: Rmult_lt_0_compat.
  by move=> h2; field; repeat split; nra.
apply: (derivable_pt_lim_comp (fun v => Rdiv v s) atan); last exact: derivable_pt_lim_atan.
apply: (@deriv_ext (fun v => Rmult (Rinv s) v)); first by move=> v; rewrite /Rdiv Rmult_comm.
rewrite -{2}(Rmult_1_r (Rinv s)); apply: derivable_pt_lim_scal; exact: derivable_pt_lim_id.
Qed.

Section Sqrt.
Variables (n : nat) (K : 'M[R]_n) (g : 'I_n -> R).
Hypothesis pK : psd K.
Hypothesis hg : forall i, Rle (K i i) (g i).
Let N i j : R := g i + g j - (K i j + K i j).
Lemma N_ge0 i j : Rle 0 (N i j).
Proof.
have := psd_off i j pK; have := hg i; have := hg j; rewrite /N /Rabs.
move: (g i) (g j) (K i j) (K i i) (K j j) => p q k u v h1 h2; case: Rcase_abs => *; Rlra.
Qed.
Lemma N_sym i j : N i j = N j i.
Proof. by rewrite /N; case: pK => s _; rewrite -{1 2}s !mxE (Rplus_comm (g i)). Qed.

Lemma resolvent_N t : Rlt 0 t -> psd (\matrix_(i, j) (Rinv (Rplus (N i j) t))).
Proof.
move=> t0.
have h i : Rlt (K i i) (Rplus (g i) (Rdiv t 2)) by have := hg i; lra.
apply: psd_eq (psd_resolvent pK h) => i j; rewrite !mxE /N; congr Rinv; toR; eqR; field.
Qed.

Lemma cnd_sqrt : cnd (\matrix_(i, j) sqrt (N i j)).
Proof.
split; first by apply/matrixP => i j; rewrite !mxE N_sym.
move=> x x0.
pose A u : 'M[R]_n := \matrix_(i, j) Rmult (sqrt (N i j)) (atan (Rdiv u (sqrt (N i j)))).
pose D u : 'M[R]_n := \matrix_(i, j) Rdiv (N i j) (Rplus (N i j) (Rmult u u)).
have dA u i j : derivable_pt_lim (fun v => A v i j) u (D u i j).
  rewrite mxE; case: (N_ge0 i j) => [hN|hN].
    have hs := sqrt_lt_R0 _ hN.
    apply: (@deriv_ext (fun v => Rmult (sqrt (N i j)) (atan (Rdiv v (sqrt (N i j)))))).
      by move=> v; rewrite mxE.
    have -> : Rdiv (N i j) (Rplus (N i j) (Rmult u u)) =
      Rmult (sqrt (N i j)) (Rdiv (sqrt (N i j)) (Rplus (Rmult (sqrt (N i j)) (sqrt (N i j))) (Rmult u u))).
      rewrite sqrt_sqrt; last exact: Rlt_le.
      by rewrite -{1}(sqrt_sqrt (N i j)); [rewrite /Rdiv Rmult_assoc|exact: Rlt_le].
    by apply: derivable_pt_lim_scal; exact: deriv_atan.
  rewrite -hN /Rdiv Rmult_0_l; apply: (@deriv_ext (fun _ => R0)); last exact: derivable_pt_lim_const.
  by move=> v; rewrite mxE -hN sqrt_0 Rmult_0_l.
have sx : \sum_i \sum_j x i 0 * x j 0 = 0.
  rewrite (eq_bigr (fun i => x i 0 * \sum_j x j 0)); last by move=> i _; rewrite mulr_sumr.
  by rewrite -mulr_suml x0 mul0r.
have hD u : Rlt 0 u -> Rle (quad (D u) x) 0.
  move=> hu; have u2 : Rlt 0 (Rmult u u) by apply: Rmult_lt_0_compat.
  have [_ /(_ x) /RleP h] := resolvent_N u2.
  have e : quad (D u) x + Rmult u u * quad (\matrix_(i, j) (Rinv (Rplus (N i j) (Rmult u u)))) x = 0.
    rewrite -[RHS]sx !quadE mulr_sumr -big_split; apply: eq_bigr => i _.
    rewrite /= mulr_sumr -big_split; apply: eq_bigr => j _ /=.
    rewrite !mxE; have := N_ge0 i j; move: (x i 0) (x j 0) (N i j) => p q m hm; toR; eqR; field; lra.
  by have := Rmult_le_pos _ _ (Rlt_le _ _ u2) h; move: e; rewrite RplusE RmultE R0E => *; Rlra.
have hA u : Rlt 0 u -> quad (A u) x <= 0.
  move=> hu; apply/RleP.
  have A0 : quad (A 0) x = 0.
    rewrite quadE big1 // => i _; rewrite big1 // => j _; rewrite mxE /Rdiv Rmult_0_l atan_0 Rmult_0_r.
    by rewrite mulr0 mul0r.
  have := @mono_le (fun v => Ropp (quad (A v) x)) (fun v => Ropp (quad (D v) x)) 0 u (Rlt_le _ _ hu).
  rewrite A0 => H; have : Rle (Ropp 0) (Ropp (quad (A u) x)); last by Rlra.
  apply: H => [c _ _|c h1 _]; first by apply: derivable_pt_lim_opp; exact: deriv_quad.
  by have := hD c h1; Rlra.
pose B : 'M[R]_n := \matrix_(i, j) Rmult (sqrt (N i j)) (Rdiv PI 2).
have cv : Un_cv (fun k => quad (- A (Rplus (INR k) 1)) x) (quad (- B) x).
  apply: cv_quad => i j; rewrite !mxE; apply: (@cv_eq (fun k => Ropp (A (Rplus (INR k) 1) i j))).
    by move=> k; rewrite !mxE.
  apply: CV_opp; apply: (@cv_eq (fun k => Rmult (sqrt (N i j)) (atan (Rdiv (Rplus (INR k) 1) (sqrt (N i j)))))).
    by move=> k; rewrite mxE.
  case: (N_ge0 i j) => [hN|<-].
    by apply: CV_mult; [exact: cv_const|apply: atan_cv; exact: sqrt_lt_R0].
  by rewrite sqrt_0 Rmult_0_l; apply: (cv_eq _ (cv_const R0)) => k; rewrite Rmult_0_l.
have quadN (M : 'M[R]_n) : quad (- M) x = - quad M x by rewrite /quad mulmxN mulNmx mxE.
have hB : 0 <= quad (- B) x.
  apply: (cv_ge0 _ cv) => k; rewrite quadN oppr_ge0; apply: hA; have := pos_INR k; lra.
move: hB; rewrite quadN oppr_ge0.
have -> : quad B x = quad (\matrix_(i, j) sqrt (N i j)) x * Rdiv PI 2.
  rewrite !quadE mulr_suml; apply: eq_bigr => i _; rewrite mulr_suml; apply: eq_bigr => j _.
  by rewrite !mxE -!RmultE; move: (x i 0) (x j 0) (sqrt _) (Rdiv _ _) => *; Rring.
have hp : 0 < Rdiv PI 2 by apply/RltP; have := PI_RGT_0; rewrite R0E; lra.
by rewrite pmulr_lle0.
Qed.
End Sqrt.

(* ---- Schoenberg ---- *)
Lemma schoenberg n (M : 'M[R]_n) : cnd M -> psd (\matrix_(i, j) exp (- M i j)).
Proof.
case: n M => [|n] M [sM hM].
  by split=> [|x]; [apply/matrixP => -[] | rewrite quadE big_ord0].
have sy i j : M i j = M j i by rewrite -{1}sM mxE.
pose K : 'M[R]_n.+1 := \matrix_(i, j) (M i 0 + M 0 j - M i j - M 0 0).
have pK : psd K.
  split; first by apply/matrixP => i j; rewrite !mxE (sy j 0) (sy 0 i) (sy j i) [M 0 j + _]addrC.
  move=> x; pose s := \sum_i x i 0.
  pose y : 'cV[R]_n.+1 := \col_i (x i 0 - (if i == 0 then s else 0)).
  have pick (G : 'I_n.+1 -> R) : \sum_i G i * (if i == 0 then s else 0) = G 0 * s.
    by rewrite (bigD1 0) //= big1 ?addr0 // => i /negbTE ->; rewrite mulr0.
  have y0 : \sum_i y i 0 = 0.
    under eq_bigr do rewrite mxE; rewrite sumrB -/s.
    rewrite [X in _ - X](_ : _ = s) ?subrr //.
    by rewrite (bigD1 0) //= big1 ?addr0 // => i /negbTE ->.
  have := hM y y0.
  have -> : quad M y = - quad K x; last by rewrite oppr_le0.
  pose b := \sum_i x i 0 * M i 0.
  have inner i : \sum_j M i j * y j 0 = \sum_j M i j * x j 0 - M i 0 * s.
    by under eq_bigr do rewrite mxE mulrBr; rewrite sumrB pick.
  have e1 : quad M y = \sum_i x i 0 * (\sum_j M i j * x j 0) - b * s - (b - M 0 0 * s) * s.
    rewrite quadE.
    transitivity (\sum_i y i 0 * \sum_j M i j * y j 0).
      by apply: eq_bigr => i _; rewrite mulr_sumr; apply: eq_bigr => j _; rewrite mulrA.
    under eq_bigr do rewrite inner mxE mulrBl [X in _ - X]mulrC.
    rewrite sumrB pick; congr (_ - _).
      under eq_bigr do rewrite mulrBr mulrA; by rewrite sumrB -mulr_suml.
    by congr ((_ - _) * _); rewrite /b; apply: eq_bigr => j _; rewrite sy mulrC.
  have e2 : quad K x = b * s + b * s - \sum_i x i 0 * (\sum_j M i j * x j 0) - M 0 0 * s * s.
    rewrite quadE.
    transitivity (\sum_i (x i 0 * M i 0 * s + x i 0 * b - x i 0 * (\sum_j M i j * x j 0) - x i 0 * (M 0 0 * s))).
      apply: eq_bigr => i _; rewrite /s /b !mulr_sumr -big_split -!sumrB /=; apply: eq_bigr => j _.
      by rewrite !mxE (sy 0 j); move: (x i 0) (x j 0) (M i 0) (M j 0) (M i j) (M 0 0) => *; Rring.
    rewrite !sumrB big_split -!mulr_suml /= -/b -/s [s * b]mulrC; congr (_ - _); exact: mulrC.
  rewrite e1 e2; move: (\sum_i _ * _) (M 0 0) => p m; clear; clearbody b s; by Rring.
pose w i := exp (Rplus (Ropp (M i 0)) (Rdiv (M 0 0) 2)).
apply: psd_eq (psd_scaled w (psd_exp pK)) => i j; rewrite !mxE /w !RmultE -!exp_plus; congr exp.
rewrite (sy 0 j); move: (M i 0) (M j 0) (M i j) (M 0 0) => p q r t; toR; eqR; field.
Qed.

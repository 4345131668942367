From Coq Require Import Reals Lra.
From Verif Require Import ExtRealModel DistanceModel DistanceProofs RadialModel.
From mathcomp Require Import all_ssreflect all_algebra.
From Verif Require Import RealStruct GpModel GpSpec GpProofs PsdProofs LdltModel LdltSpec LdltProofs RealPsd LikelihoodProofs
  ErfSpec ScoreModel ScoreSpec.
From Verif Require Base.
Set Implicit Arguments.
Unset Strict Implicit.
Unset Printing Implicit Defensive.
Import Order.TTheory GRing.Theory Num.Theory.
Local Open Scope ring_scope.

(* ---- sums ---- *)
Lemma xsum_fin n (F : 'I_n -> xr) (f : 'I_n -> R) : (forall i, F i = XFin (f i)) -> xsum F = XFin (\sum_i f i)%R.
Proof. by move=> h; rewrite /xsum (fold_xadd _ _ h) add0r sum_enum. Qed.
Lemma xmean_fin n (F : 'I_n -> xr) (f : 'I_n -> R) : (0 < n)%N -> (forall i, F i = XFin (f i)) ->
  xmean F = XFin ((\sum_i f i) / n%:R)%R.
Proof.
move=> n0 h; rewrite /xmean (xsum_fin h) /xdiv (proj2 (Reqb_false _ _)) //.
by apply/eqP; rewrite pnatr_eq0 -lt0n.
Qed.
Lemma xsqrt_fin (x : R) : 0 <= x -> xsqrt (XFin x) = XFin (R_sqrt.sqrt x).
Proof. by move=> /RleP h; rewrite /= (proj2 (Rltb_false _ _)). Qed.

(* ---- norms ---- *)
Lemma lagrange n (a b : 'I_n -> R) :
  \sum_i \sum_j (a i * b j - a j * b i) ^+ 2 =
  2%:R * ((\sum_i a i ^+ 2) * (\sum_i b i ^+ 2) - (\sum_i a i * b i) ^+ 2).
Proof.
have E i j : (a i * b j - a j * b i) ^+ 2 = a i ^+ 2 * b j ^+ 2 + b i ^+ 2 * a j ^+ 2 - 2%:R * ((a i * b i) * (a j * b j)).
  by rewrite !expr2 two_R; Rring.
under eq_bigr => i _ do under eq_bigr => j _ do rewrite E.
under eq_bigr => i _ do rewrite sumrB big_split /= -!mulr_sumr.
rewrite sumrB big_split /= -mulr_sumr -!mulr_suml mulrBr expr2; congr (_ - _).
by rewrite mulr_natl mulr2n [X in _ + X]mulrC.
Qed.
Lemma cauchy n (a b : 'I_n -> R) : (\sum_i a i * b i) ^+ 2 <= (\sum_i a i ^+ 2) * (\sum_i b i ^+ 2).
Proof.
have : 0 <= \sum_i \sum_j (a i * b j - a j * b i) ^+ 2 by apply: sumr_ge0 => i _; apply: sumr_ge0 => j _; exact: sqr_ge0.
by rewrite lagrange pmulr_rge0 ?ltr0n // subr_ge0.
Qed.
Lemma sqrt_triangle (A B c : R) : Rle 0 A -> Rle 0 B -> Rle (Rmult c c) (Rmult A B) -> Rle 0 (Rplus (Rplus A B) (Rmult 2 c)) ->
  Rle (R_sqrt.sqrt (Rplus (Rplus A B) (Rmult 2 c))) (Rplus (R_sqrt.sqrt A) (R_sqrt.sqrt B)).
Proof.
move=> a b h h0; have sa := R_sqrt.sqrt_pos A; have sb := R_sqrt.sqrt_pos B.
have ea := R_sqrt.sqrt_def _ a; have eb := R_sqrt.sqrt_def _ b; have e := R_sqrt.sqrt_def _ h0.
move: (R_sqrt.sqrt A) (R_sqrt.sqrt B) (R_sqrt.sqrt (Rplus (Rplus A B) _)) sa sb ea eb e => x y z x0 y0 ea eb e.
have m : Rle c (Rmult x y).
  apply: Rsqr_incr_0_var; last by nra.
  by rewrite /Rsqr; rewrite -ea -eb in h; nra.
apply: Rsqr_incr_0_var; last by lra.
by rewrite /Rsqr e -ea -eb; nra.
Qed.

Lemma weighted_sum_ge0 n (w v : 'cV[R]_n) : (forall i, 0 <= w i 0) -> 0 <= \sum_i w i 0 * v i 0 ^+ 2.
Proof. by move=> h; apply: sumr_ge0 => i _; apply: mulr_ge0; [|exact: sqr_ge0]. Qed.
Lemma weighted_norm_ge0 n (w v : 'cV[R]_n) : 0 <= weighted_norm w v.
Proof. by apply/RleP; exact: R_sqrt.sqrt_pos. Qed.
Lemma weighted_norm_triangle n (w a b : 'cV[R]_n) : (forall i, 0 <= w i 0) ->
  weighted_norm w (a + b) <= weighted_norm w a + weighted_norm w b.
Proof.
move=> w0; rewrite /weighted_norm; set A := \sum_i w i 0 * a i 0 ^+ 2; set B := \sum_i w i 0 * b i 0 ^+ 2.
set c := \sum_i w i 0 * (a i 0 * b i 0).
have E : \sum_i w i 0 * (a + b) i 0 ^+ 2 = Rplus (Rplus A B) (Rmult 2 c).
  rewrite -RmultE -!RplusE -two_R mulr_sumr -!big_split; apply: eq_bigr => i _.
  by rewrite /= mxE two_R !expr2; move: (w i 0) (a i 0) (b i 0) => u x y; Rring.
have sq (x : R) : 0 <= x -> R_sqrt.sqrt x ^+ 2 = x by move=> /RleP x0; rewrite expr2; exact: R_sqrt.sqrt_def.
have C : c ^+ 2 <= A * B.
  have := cauchy (fun i => R_sqrt.sqrt (w i 0) * a i 0) (fun i => R_sqrt.sqrt (w i 0) * b i 0).
  have -> : \sum_i R_sqrt.sqrt (w i 0) * a i 0 * (R_sqrt.sqrt (w i 0) * b i 0) = c.
    by apply: eq_bigr => i _; rewrite mulrACA -expr2 sq.
  have -> : \sum_i (R_sqrt.sqrt (w i 0) * a i 0) ^+ 2 = A by apply: eq_bigr => i _; rewrite exprMn sq.
  by have -> : \sum_i (R_sqrt.sqrt (w i 0) * b i 0) ^+ 2 = B by apply: eq_bigr => i _; rewrite exprMn sq.
rewrite E; apply/RleP; apply: sqrt_triangle.
- by apply/RleP; exact: weighted_sum_ge0.
- by apply/RleP; exact: weighted_sum_ge0.
- by apply/RleP; rewrite -RmultE -expr2.
- by apply/RleP; rewrite -E; exact: weighted_sum_ge0.
Qed.
Lemma weighted_normN n (w a : 'cV[R]_n) : weighted_norm w (- a) = weighted_norm w a.
Proof. by rewrite /weighted_norm; congr R_sqrt.sqrt; apply: eq_bigr => i _; rewrite mxE sqrrN. Qed.
Lemma weighted_norm_pair n (w a b y : 'cV[R]_n) : (forall i, 0 <= w i 0) ->
  weighted_norm w (a - b) <= weighted_norm w (a - y) + weighted_norm w (b - y).
Proof.
move=> w0; have -> : a - b = (a - y) + - (b - y) by rewrite opprB addrA subrK.
by apply: le_trans (weighted_norm_triangle _ _ w0) _; rewrite weighted_normN.
Qed.
Lemma weighted_norm_le n (w w' v : 'cV[R]_n) : (forall i, 0 <= w i 0) -> (forall i, w i 0 <= w' i 0) -> weighted_norm w v <= weighted_norm w' v.
Proof.
move=> w0 h; apply/RleP; apply: R_sqrt.sqrt_le_1_alt; apply/RleP; apply: ler_sum => i _.
by apply: ler_wpmul2r; [exact: sqr_ge0|exact: h].
Qed.

(* ---- the energy score ---- *)
Lemma mean_err_norms_value n k (samples : 'M[R]_(n, k)) (y w : 'cV[R]_n) : (0 < k)%N -> (forall i, 0 <= w i 0) ->
  mean_err_norms samples y w = XFin ((\sum_j weighted_norm w (col j samples - y)) / k%:R)%R.
Proof.
move=> k0 w0; apply: xmean_fin => // j.
rewrite (@xsum_fin _ _ (fun i => w i 0 * (col j samples - y) i 0 ^+ 2)) ?xsqrt_fin //; first exact: weighted_sum_ge0.
by move=> i; rewrite !mxE mulrC.
Qed.
Lemma pairwise_value n k (a b : 'M[R]_(n, k)) (w : 'cV[R]_n) : (0 < k)%N ->
  pairwise_errors_paired a b w = XFin ((\sum_j weighted_norm (\col_i w i 0 ^+ 2) (col j a - col j b)) / k%:R)%R.
Proof.
move=> k0; apply: xmean_fin => // j.
rewrite (@xsum_fin _ _ (fun i => (\col_i w i 0 ^+ 2 : 'cV_n) i 0 * (col j a - col j b) i 0 ^+ 2)) ?xsqrt_fin //.
  by apply: weighted_sum_ge0 => i; rewrite mxE sqr_ge0.
by move=> i; rewrite !mxE exprMn mulrC.
Qed.

Section Draw.
Variable n : nat.
Variable f : ldlt_state n.
Definition draw_map : 'M[R]_n := transpositions_mx f *m matrixL f *m diag_mx (\col_i R_sqrt.sqrt (vectorD f i 0))^T.
Lemma draw_value k (mean : 'cV[R]_n) (Z : 'M[R]_(n, k)) : positive_D f ->
  draw_mvn true f mean Z = Base.Ok (draw_map *m Z + \matrix_(i, j) mean i 0).
Proof.
move=> Dp; rewrite /draw_mvn /=; have -> : [forall i, 0 < vectorD f i 0] by apply/forallP => i; exact: Dp.
by rewrite /= transpositions_mulE scale_rowsE /draw_map !mulmxA.
Qed.
Lemma draw_map_sq A : factors f A -> positive_D f -> draw_map *m draw_map^T =
  transpositions_mx f *m transpositions_mx f *m A *m (transpositions_mx f *m transpositions_mx f)^T.
Proof.
move=> fA Dp; rewrite [in RHS]fA /draw_map; set P := transpositions_mx f; set L := matrixL f.
have -> : diag_mx (vectorD f)^T = diag_mx (\col_i R_sqrt.sqrt (vectorD f i 0))^T *m diag_mx (\col_i R_sqrt.sqrt (vectorD f i 0))^T.
  rewrite mulmx_diag; congr diag_mx; apply/matrixP => i j; rewrite !mxE.
  by rewrite RmultE R_sqrt.sqrt_def //; apply/RleP; apply: ltW; have := Dp j; rewrite mxE.
have O : P *m P^T = 1%:M := P_orth f.
rewrite !trmx_mul tr_diag_mx !mulmxA -(mulmxA P P P^T) O mulmx1.
by rewrite -(mulmxA _ P P^T) O mulmx1.
Qed.
Lemma draw_abort k success (mean : 'cV[R]_n) (Z : 'M[R]_(n, k)) : ~ (success = true /\ positive_D f) ->
  draw_mvn success f mean Z = Base.Abort.
Proof.
rewrite /draw_mvn; case: success => //= h; case: forallP => // Dp; by case: h.
Qed.
End Draw.

Lemma antithetic_value n num (mean : 'cV[R]_n) (f : ldlt_state n) (Z : 'M[R]_(n, k_generate num)) : positive_D f ->
  antithetic_sample mean true f Z =
  Base.Ok (row_mx (\matrix_(i, j) mean i 0 + draw_map f *m Z) (\matrix_(i, j) mean i 0 - draw_map f *m Z)).
Proof.
move=> Dp; rewrite /antithetic_sample draw_value //=; congr (Base.Ok (row_mx _ _)); first by rewrite addrC.
rewrite opprD addrC; set a := draw_map f *m Z; rewrite addrCA addrC; congr (_ - _).
by apply/matrixP => i j; rewrite !mxE mulr_natl mulr2n addrK.
Qed.

Section Energy.
Variable compute_ldlt : forall n, 'M[R]_n -> ldlt_state n.
Variable info : forall n, 'M[R]_n -> bool.
Variables (n num : nat) (prediction : joint R_fieldType n).
Hypothesis hnum : (1 < num)%N.
Hypothesis hinfo : info (j_cov prediction) = true.
Let f := compute_ldlt (j_cov prediction).
Hypothesis Dp : positive_D f.

Definition samples (Z : 'M[R]_(n, k_generate num)) : 'M[R]_(n, k_generate num + k_generate num) :=
  row_mx (\matrix_(i, j) j_mean prediction i 0 + draw_map f *m Z) (\matrix_(i, j) j_mean prediction i 0 - draw_map f *m Z).
Definition energy_terms (w y : 'cV[R]_n) (Za Zb : 'M[R]_(n, k_generate num)) : R :=
  ((\sum_j (weighted_norm w (col j (samples Za) - y) + weighted_norm w (col j (samples Zb) - y) -
           weighted_norm (\col_i w i 0 ^+ 2) (col j (samples Za) - col j (samples Zb)))) /
  (2%:R * (k_generate num + k_generate num)%:R))%R.

Lemma k_pos : (0 < k_generate num + k_generate num)%N.
Proof. by rewrite /k_generate addn1 addSn. Qed.

Lemma energy_shape (w y : 'cV[R]_n) Za Zb : (forall i, 0 <= w i 0) ->
  energy_score compute_ldlt info prediction y (Some (existT _ n w)) Za Zb =
  Base.assert_then (xgeb (XFin (energy_terms w y Za Zb)) (XFin (Ropp (Rinv (Rpow_def.pow 10 12)))))
    (Base.Ok (std_max (XFin 0) (XFin (energy_terms w y Za Zb)))).
Proof.
move=> w0; have k0 := k_pos.
rewrite /energy_score hnum !eqxx /= !conform_mx_id hinfo -/f !antithetic_value //=.
rewrite !mean_err_norms_value // pairwise_value //= -!/(samples _).
set u := Rplus _ _; have -> : u = energy_terms w y Za Zb => //.
rewrite /u /energy_terms sumrB big_split /= invfM two_R.
set a := \sum_j _; set b := \sum_j _; set c := \sum_j _; move: a b c (_^-1) => a b c k.
by Rfield.
Qed.

Lemma energy_terms_ge0 (w y : 'cV[R]_n) Za Zb : (forall i, 0 <= w i 0 <= 1) -> 0 <= energy_terms w y Za Zb.
Proof.
move=> h; apply: mulr_ge0; last by rewrite invr_ge0 mulr_ge0 ?ler0n.
apply: sumr_ge0 => j _; rewrite subr_ge0.
apply: le_trans (weighted_norm_pair _ _ _ _); last by move=> i; case/andP: (h i).
apply: weighted_norm_le => i; rewrite ?mxE ?sqr_ge0 //.
by case/andP: (h i) => h0 h1; rewrite expr2 ler_pimulr.
Qed.
Lemma tiny12 : (Ropp (Rinv (Rpow_def.pow 10 12)) : R) <= 0.
Proof.
have h : Rlt 0 (Rinv (Rpow_def.pow 10 12)) by apply: Rinv_0_lt_compat; apply: pow_lt; lra.
by apply/RleP; toR; lra.
Qed.
Lemma energy_value (w y : 'cV[R]_n) Za Zb : (forall i, 0 <= w i 0 <= 1) ->
  energy_score compute_ldlt info prediction y (Some (existT _ n w)) Za Zb = Base.Ok (XFin (energy_terms w y Za Zb)).
Proof.
move=> h; have e0 := energy_terms_ge0 y Za Zb h; rewrite energy_shape; last by move=> i; case/andP: (h i).
rewrite /xgeb /xleb (proj2 (Rleb_true _ _)) /=; last by apply/RleP; apply: le_trans tiny12 e0.
by rewrite /std_max /xltb; case E : (Rltb _ _) => //; move/Rltb_false: E => /RleP E; congr (Base.Ok (XFin _)); apply: le_anti; rewrite e0.
Qed.
End Energy.

(* ---- the variogram score ---- *)
Lemma fold_xadd_in (I : eqType) (s : seq I) (F : I -> xr) (f : I -> R) (a : R) : (forall i, i \in s -> F i = XFin (f i)) ->
  foldl (fun acc i => xadd acc (F i)) (XFin a) s = XFin (a + \sum_(i <- s) f i)%R.
Proof.
elim: s a => [|i s IH] a /= h; first by rewrite big_nil addr0.
rewrite h ?mem_head //= IH; first by rewrite big_cons addrA.
by move=> j js; rewrite h // in_cons js orbT.
Qed.
Lemma sum_filter_enum n (p : pred 'I_n) (f : 'I_n -> R) : \sum_(i <- [seq i <- enum 'I_n | p i]) f i = \sum_(i | p i) f i.
Proof. by rewrite big_filter big_enum_cond; apply: eq_bigl => i; rewrite andbC andbT. Qed.

Section Variogram.
Variable erf : R -> R.
Definition is_madogram (order : variogram_score_order) : bool := if order is cMadogram then true else false.

Lemma mean_abs_sym mu sigma : mean_abs_normal erf (- mu) sigma = mean_abs_normal erf mu sigma.
Proof. by rewrite /mean_abs_normal Rabs_Ropp Rmult_opp_opp. Qed.
Lemma mean_power_sym m mu sigma : mean_power erf m (- mu) sigma = mean_power erf m mu sigma.
Proof. by rewrite /mean_power mean_abs_sym Rabs_Ropp; case: m => //; Rring. Qed.
Lemma deviation_sym n (C : 'M[R]_n) i j : C^T = C -> difference_deviation C j i = difference_deviation C i j.
Proof.
move=> s; rewrite /difference_deviation; have -> : C j i = C i j by rewrite -{1}s mxE.
by congr (R_sqrt.sqrt _); ring.
Qed.
Lemma term_sym n m (mu y : 'cV[R]_n) (C : 'M[R]_n) i j : C^T = C -> variogram_term erf m mu C y j i = variogram_term erf m mu C y i j.
Proof.
move=> s; rewrite /variogram_term deviation_sym // distrC; congr ((_ - _) ^+ 2).
by rewrite -mean_power_sym Ropp_minus_distr.
Qed.

(* the tolerance of expected_abs_normal_1 *)
Definition resolved (sigma : R) : Prop := Rle sigma 0 \/ Rle (Rinv (Rpow_def.pow 10 16)) sigma.

Lemma expected_value order mu sigma : (order = cMadogram -> resolved sigma) ->
  expected_abs_normal erf (XFin mu) (XFin sigma) order = XFin (mean_power erf (is_madogram order) mu sigma).
Proof.
case: order => // h; have {h} h := h erefl; rewrite /resolved in h.
rewrite /expected_abs_normal /expected_abs_normal_1; move: (Rinv (Rpow_def.pow 10 16)) h => e h; rewrite /mean_power /=.
case E : (Rleb sigma 0).
  by move/Rleb_true: E => E; case: (Rlt_dec 0 sigma) => // E'; lra.
move/Rleb_false: E => E; case: (Rlt_dec 0 sigma) => [?|E']; last by case: E'.
have {h} h : Rle e sigma by case: h => // ?; lra.
have -> : std_max (XFin e) (XFin sigma) = XFin sigma.
  rewrite /std_max /xltb; case L : (Rltb _ _) => //; move/Rltb_false: L => L; congr XFin; lra.
have p := PI_RGT_0; have d : Rlt 0 (Rdiv 2 Rtrigo1.PI) by apply: Rdiv_lt_0_compat; lra.
rewrite /xdiv (proj2 (Reqb_false _ _)) /=; last by lra.
rewrite (proj2 (Rltb_false _ _)) /=; last by lra.
congr XFin; rewrite /mean_abs_normal; congr (Rplus (Rmult _ (Rtrigo_def.exp _)) (Rmult _ (erf _))).
- have -> : Rmult (Rdiv (Rabs mu) sigma) (Rdiv (Rabs mu) sigma) = Rdiv (Rmult mu mu) (Rmult sigma sigma).
    have -> : Rmult mu mu = Rmult (Rabs mu) (Rabs mu) by rewrite -Rabs_mult Rabs_pos_eq //; nra.
    by field; lra.
  by field; lra.
- have s2 : Rlt 0 (R_sqrt.sqrt 2) by apply: sqrt_lt_R0; lra.
  by Rfield; split; lra.
Qed.

Variables (n : nat) (prediction : joint R_fieldType n) (y : 'cV[R]_n) (w : 'M[R]_n) (order : variogram_score_order).
Hypothesis Cp : psd (j_cov prediction).
Hypothesis hr : order = cMadogram -> forall i j, resolved (difference_deviation (j_cov prediction) i j).
Let term i j := variogram_term erf (is_madogram order) (j_mean prediction) (j_cov prediction) y i j.

Lemma difference_ge0 i j : 0 <= j_cov prediction i i + j_cov prediction j j - 2%:R * j_cov prediction i j.
Proof.
case: Cp => s _; have := psd_mxsub (fun k : 'I_2 => if k == 0 then i else j) Cp.
case=> _ /(_ (\col_k (if k == 0 then 1 else -1))); rewrite /quad mxE !big_ord_recl big_ord0 !mxE !big_ord_recl !big_ord0 !mxE /=.
have -> : j_cov prediction j i = j_cov prediction i j by rewrite -{1}s mxE.
by rewrite two_R; move: (j_cov _ i i) (j_cov _ j j) (j_cov _ i j) => a b c /RleP h; apply/RleP; move: h; toR; lra.
Qed.

Lemma variogram_row_value i : variogram_row erf prediction y w order i = XFin (\sum_(j < n | (i < j)%N) w i j * term i j)%R.
Proof.
rewrite /variogram_row -sum_filter_enum -[\sum_(_ <- _) _]add0r; apply: fold_xadd_in => j _.
rewrite xsqrt_fin ?difference_ge0 //.
have DE : R_sqrt.sqrt (j_cov prediction i i + j_cov prediction j j - 2%:R * j_cov prediction i j) =
   difference_deviation (j_cov prediction) i j by rewrite two_R.
rewrite DE expected_value; last by move=> e; exact: hr.
have -> : mean_power erf (is_madogram order) (j_mean prediction j 0 - j_mean prediction i 0)%R (difference_deviation (j_cov prediction) i j) =
  mean_power erf (is_madogram order) (j_mean prediction i 0 - j_mean prediction j 0) (difference_deviation (j_cov prediction) i j).
  by rewrite -mean_power_sym; congr mean_power; exact: opprB.
rewrite /xsub /xadd /xopp /xmul /xscale /term /variogram_term; congr XFin; rewrite expr2 -!RmultE mulrA.
by case: order.
Qed.
Lemma variogram_sum : foldl (fun sum row => xadd sum (variogram_row erf prediction y w order row)) (XFin 0)
               [seq row : 'I_n <- enum 'I_n | (row < n.-1)%N] = XFin (\sum_(i < n) \sum_(j < n | (i < j)%N) w i j * term i j)%R.
Proof.
rewrite (fold_xadd_in _ (fun i _ => variogram_row_value i)) add0r sum_filter_enum; congr XFin.
rewrite [RHS](bigID (fun i : 'I_n => i < n.-1)%N) /= [X in _ + X]big1 ?addr0 // => i; rewrite -leqNgt => h.
apply: big_pred0 => j; apply/negbTE; rewrite -leqNgt; apply: leq_trans h.
by case: n j => [[]//|m] j /=; rewrite -ltnS.
Qed.
Lemma variogram_value : variogram_score erf prediction y (Some (existT (fun s : nat * nat => 'M[R]_(s.1, s.2)) (n, n) w)) order =
  let v := (\sum_(i < n) \sum_(j < n | (i < j)%N) w i j * term i j)%R in
  if 0 <= v then Base.Ok (XFin v) else Base.Abort.
Proof.
rewrite /variogram_score !eqxx /= !conform_mx_id variogram_sum /xgeb /xleb /Base.assert_then.
by set v := \sum_i _; case: ifP => [/Rleb_true /RleP ->|/Rleb_false /RltP]; rewrite // ltNge => /negbTE ->.
Qed.
End Variogram.

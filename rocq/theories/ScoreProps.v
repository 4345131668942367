(* C60: draws from a multivariate normal distribution, the energy score, the variogram score and the continuous ranked
   probability score. *)
From Coq Require Import Reals Lra Lia.
From Verif Require Import ExtRealModel DistanceModel DistanceProofs RadialModel ErfSpec ErfProofs.
From Verif Require ErfExample.
From mathcomp Require Import all_ssreflect all_fingroup all_algebra.
From Verif Require Import RealStruct GpModel GpSpec GpProofs PsdProofs LdltModel LdltSpec LdltProofs RealPsd LikelihoodProofs
  ScoreModel ScoreSpec ScoreProofs.
From Verif Require Base.
Set Implicit Arguments.
Unset Strict Implicit.
Unset Printing Implicit Defensive.
Import Order.TTheory GRing.Theory Num.Theory.
Local Open Scope ring_scope.

(* ---- draws ---- *)
(* draw_mvn maps standard normal draws Z to M Z + mean; M M^T is the covariance with its rows and columns moved twice
   by the pivoting. Without a successful factorization of a positive definite matrix it aborts. *)
Theorem C60_draw n (f : ldlt_state n) (A : 'M[R]_n) success (mean : 'cV[R]_n) : factors f A ->
  (success = true /\ positive_D f ->
     exists M : 'M[R]_n, (forall k (Z : 'M[R]_(n, k)), draw_mvn success f mean Z = Base.Ok (M *m Z + \matrix_(i, j) mean i 0)) /\
       let PP := transpositions_mx f *m transpositions_mx f in M *m M^T = PP *m A *m PP^T) /\
  (~ (success = true /\ positive_D f) -> forall k (Z : 'M[R]_(n, k)), draw_mvn success f mean Z = Base.Abort).
Proof.
move=> fA; split => [[-> Dp]|h k Z]; last exact: draw_abort.
by exists (draw_map f); split => [k Z|]; [exact: draw_value|exact: draw_map_sq].
Qed.
Print Assumptions C60_draw.

(* the draws have the covariance A exactly when moving rows and columns twice keeps A *)
Theorem C60_draw_correct_when n (f : ldlt_state n) (A : 'M[R]_n) (mean : 'cV[R]_n) : factors f A -> positive_D f ->
  let PP := transpositions_mx f *m transpositions_mx f in
  (exists M : 'M[R]_n, (forall k (Z : 'M[R]_(n, k)), draw_mvn true f mean Z = Base.Ok (M *m Z + \matrix_(i, j) mean i 0)) /\
     M *m M^T = A) <-> PP *m A = A *m PP.
Proof.
move=> fA Dp PP; have o : PP^T *m PP = 1%:M.
  by rewrite /PP trmx_mul mulmxA -(mulmxA _ (transpositions_mx f)^T) PT_orth mulmx1 PT_orth.
have o' : PP *m PP^T = 1%:M by exact: mulmx1C.
split => [[M [/(_ _ 1%:M) hM e]]|c].
- move: hM; rewrite draw_value // !mulmx1; case=> /addIr e'; subst M.
  by rewrite -[in RHS]e (draw_map_sq fA Dp) -/PP -!mulmxA o mulmx1.
- exists (draw_map f); split => [k Z|]; first exact: draw_value.
  by rewrite (draw_map_sq fA Dp) -/PP c -mulmxA o' mulmx1.
Qed.
Print Assumptions C60_draw_correct_when.
Theorem C60_draw_unpivoted n (f : ldlt_state n) (A : 'M[R]_n) (mean : 'cV[R]_n) : factors f A -> positive_D f ->
  transpositions_mx f *m transpositions_mx f = 1%:M ->
  exists M : 'M[R]_n, (forall k (Z : 'M[R]_(n, k)), draw_mvn true f mean Z = Base.Ok (M *m Z + \matrix_(i, j) mean i 0)) /\
     M *m M^T = A.
Proof. by move=> fA Dp e; apply/(C60_draw_correct_when mean fA Dp); rewrite e mul1mx mulmx1. Qed.
Print Assumptions C60_draw_unpivoted.

(* the factorization Eigen computes of diag(2, 1, 3), with the largest pivots first: rows 0 and 2 are swapped, then rows 1 and 2 *)
Definition o2 : 'I_3 := Ordinal (isT : (2 < 3)%N).
Definition d3 (a b c : R) : 'M[R]_3 := diag_mx (\row_i [:: a; b; c]`_i).
Definition pivoted : ldlt_state 3 := LdltState (d3 3%:R 2%:R 1) (fun _ => o2).
Lemma pivoted_L : matrixL pivoted = 1%:M.
Proof.
apply/matrixP => i j; rewrite !mxE /=; case: ifP => // h; have -> : (i == j) = false by apply/negP => /eqP e; rewrite e ltnn in h.
by rewrite mulr0n.
Qed.
Lemma enum3 : enum 'I_3 = [:: 0; 1; o2].
Proof. by apply: (inj_map val_inj); rewrite val_enum_ord. Qed.
Lemma pivoted_P : transpositions_mx pivoted = \matrix_(i, j) (val j == nth 0%N [:: 2; 0; 1]%N i)%:R.
Proof.
apply/matrixP => i j; rewrite /transpositions_mx /transpositions_mul enum3 /= !mxE.
by rewrite perm.tperm1 perm.perm1 !perm.permE; case: i => [[|[|[|//]]] hi]; case: j => [[|[|[|//]]] hj]; rewrite /= ?perm.permE.
Qed.
Lemma pivoted_D : vectorD pivoted = \col_i [:: 3%:R; 2%:R; 1]`_i.
Proof. by apply/matrixP => i j; rewrite !mxE eqxx. Qed.
Lemma pivoted_positive : positive_D pivoted.
Proof. by move=> i; rewrite pivoted_D mxE; case: i => [[|[|[|//]]] hi] /=; rewrite ?ltr0n ?ltr01. Qed.

Ltac entries := match goal with |- ?A = ?B => apply/matrixP => [[[|[|[|//]]] hi]] [[|[|[|//]]] hj] end;
  rewrite !mxE !big_ord_recl !big_ord0 ?mxE /= ?big_ord_recl ?big_ord0 ?mxE /=.
Lemma pivoted_PP : transpositions_mx pivoted *m transpositions_mx pivoted = \matrix_(i, j) (val j == nth 0%N [:: 1; 2; 0]%N i)%:R.
Proof. by rewrite pivoted_P; entries; rewrite ?mulr0 ?mul0r ?mulr1 ?addr0 ?add0r. Qed.
Lemma pivoted_factors : factors pivoted (d3 2%:R 1 3%:R).
Proof.
rewrite /factors pivoted_L mulmx1 trmx1 mulmx1 pivoted_P pivoted_D; entries;
by rewrite ?mulr1n ?mulr0n ?mulr0 ?mul0r ?mulr1 ?mul1r ?addr0 ?add0r.
Qed.
Example C60_draw_meets : factors pivoted (d3 2%:R 1 3%:R) /\ positive_D pivoted.
Proof. by split; [exact: pivoted_factors|exact: pivoted_positive]. Qed.
(* transpositionsP() is applied where its transpose is needed: no M with M M^T = A describes these draws *)
Theorem C60_draw_refuted : exists (f : ldlt_state 3) (A : 'M[R]_3), factors f A /\ positive_D f /\
  forall mean : 'cV[R]_3, ~ exists M : 'M[R]_3,
    (forall k (Z : 'M[R]_(3, k)), draw_mvn true f mean Z = Base.Ok (M *m Z + \matrix_(i, j) mean i 0)) /\ M *m M^T = A.
Proof.
exists pivoted, (d3 2%:R 1 3%:R); split; [exact: pivoted_factors|split; [exact: pivoted_positive|]] => mean.
move/(C60_draw_correct_when mean pivoted_factors pivoted_positive) => /matrixP /(_ 0 1).
rewrite pivoted_PP !mxE !big_ord_recl !big_ord0 !mxE /= ?mulr1n ?mulr0n ?mulr0 ?mul0r ?mulr1 ?mul1r ?addr0 ?add0r => e.
have : (1 : R) < 2%:R by rewrite ltr1n.
by rewrite -e ltxx.
Qed.
Print Assumptions C60_draw_refuted.

(* the samples come in pairs around the mean; there are 2 (num_samples / 2 + 1) of them *)
Theorem C60_antithetic n num (mean : 'cV[R]_n) success (f : ldlt_state n) (Z : 'M[R]_(n, k_generate num)) :
  (forall S, antithetic_sample mean success f Z = Base.Ok S <->
    exists V, draw_mvn success f mean Z = Base.Ok V /\
      forall j, col (lshift _ j) S = col j V /\ col (rshift _ j) S = 2%:R *: mean - col j V) /\
  (draw_mvn success f mean Z = Base.Abort -> antithetic_sample mean success f Z = Base.Abort) /\
  k_generate num = (num %/ 2).+1 /\ (num < k_generate num + k_generate num <= num + 2)%N.
Proof.
split => [S|].
  rewrite /antithetic_sample; case E : draw_mvn => [V| | |] /=; [|by split => [//|[V []]]..].
  split => [[<-]|[V' [[<-] h]]].
    exists V; split => // j; rewrite colKl; split; first by rewrite /col; apply/matrixP => i l; rewrite !mxE.
    by apply/matrixP => i l; rewrite (ord1 l) mxE row_mxEr !mxE addrC.
  congr Base.Ok; apply/matrixP => i l; rewrite !mxE; case: splitP => j e.
    by have -> : l = lshift _ j by [apply: val_inj]; have [/matrixP /(_ i 0)] := h j; rewrite !mxE.
  by have -> : l = rshift _ j by [apply: val_inj]; have [_ /matrixP /(_ i 0)] := h j; rewrite !mxE addrC.
split; first by rewrite /antithetic_sample => ->.
rewrite /k_generate addn1; split => //; have := divn_eq num 2; have := ltn_pmod num (isT : (0 < 2)%N).
move: (num %/ 2)%N (num %% 2)%N => q r /ssrnat.ltP hr e; apply/andP; split; [apply/ssrnat.ltP|apply/ssrnat.leP]; move: e; rewrite -!plusE -!multE; lia.
Qed.
Print Assumptions C60_antithetic.

Lemma added_variances n (C : 'M[R]_n) (v : 'cV[R]_n) : C + diag v = \matrix_(i, j) (C i j + (if i == j then v i 0 else 0)).
Proof. by apply/matrixP => i j; rewrite !mxE; case: eqP => [->|] /=; rewrite ?mulr1n ?mulr0n. Qed.

(* ---- the energy score ---- *)
Section Energy.
Variable compute_ldlt : forall n, 'M[R]_n -> ldlt_state n.
Variable info : forall n, 'M[R]_n -> bool.

(* for weights in [0, 1] the score is the mean over the samples a_j, b_j of
   (|a_j - y| + |b_j - y| - |a_j - b_j|) / 2, with norms weighted by w, by w and by w^2; it is not negative *)
Theorem C60_energy n num (prediction : joint R_fieldType n) (y w : 'cV[R]_n) (Za Zb : 'M[R]_(n, k_generate num)) a b :
  (1 < num)%N -> (forall i, 0 <= w i 0 <= 1) ->
  antithetic_sample (j_mean prediction) (info (j_cov prediction)) (compute_ldlt (j_cov prediction)) Za = Base.Ok a ->
  antithetic_sample (j_mean prediction) (info (j_cov prediction)) (compute_ldlt (j_cov prediction)) Zb = Base.Ok b ->
  let v := (\sum_j (weighted_norm w (col j a - y) + weighted_norm w (col j b - y) -
                    weighted_norm (\col_i w i 0 ^+ 2) (col j a - col j b)) / (2%:R * (k_generate num + k_generate num)%:R))%R in
  energy_score compute_ldlt info prediction y (Some (existT (fun m => 'cV[R]_m) n w)) Za Zb = Base.Ok (XFin v) /\ 0 <= v.
Proof.
move=> hn hw ha hb v.
have [hi Dp] : info (j_cov prediction) = true /\ positive_D (compute_ldlt (j_cov prediction)).
  case E : (info (j_cov prediction)); last by move: ha; rewrite E /antithetic_sample /draw_mvn.
  split => //; move: ha; rewrite E /antithetic_sample /draw_mvn /=; case: forallP => // Dp _; exact: Dp.
have ve : v = energy_terms compute_ldlt prediction w y Za Zb.
  by rewrite /v /energy_terms -mulr_suml; move: ha hb; rewrite hi !antithetic_value // => [[<-] [<-]].
by rewrite ve; split; [exact: energy_value|exact: energy_terms_ge0].
Qed.

(* no weights: every weight is 1 *)
Theorem C60_energy_unweighted n m num (prediction : joint R_fieldType n) (y : 'cV[R]_m) (Za Zb : 'M[R]_(n, k_generate num)) :
  energy_score compute_ldlt info prediction y None Za Zb =
  energy_score compute_ldlt info prediction y (Some (existT (fun m => 'cV[R]_m) m (const_mx 1))) Za Zb.
Proof. by []. Qed.

(* truths with uncertainty: the variances of the truth are added to the covariance *)
Theorem C60_energy_uncertain n num (prediction : joint R_fieldType n) (truth : marginal R_fieldType n) weights (Za Zb : 'M[R]_(n, k_generate num)) :
  energy_score_uncertain compute_ldlt info prediction truth weights Za Zb =
  energy_score compute_ldlt info
    (Joint (F := R_fieldType) (j_mean prediction) (\matrix_(i, j) (j_cov prediction i j + (if i == j then m_var truth i 0 else 0))))
    (m_mean truth) weights Za Zb.
Proof.
by rewrite /energy_score_uncertain added_variances.
Qed.

(* mismatched sizes, fewer than two samples and covariances that are not positive definite abort *)
Theorem C60_energy_aborts n m num (prediction : joint R_fieldType n) (y : 'cV[R]_m) weights (Za Zb : 'M[R]_(n, k_generate num)) :
  (num < 2)%N \/ n <> m \/ (exists k (w : 'cV[R]_k), weights = Some (existT (fun m => 'cV[R]_m) k w) /\ k <> m) \/
  ~ (info (j_cov prediction) = true /\ positive_D (compute_ldlt (j_cov prediction))) ->
  energy_score compute_ldlt info prediction y weights Za Zb = Base.Abort.
Proof.
rewrite /energy_score; case: (ltnP 1 num) => //= hn [|].
  by rewrite ltnNge hn.
move=> h; case: eqP => [e|//] /=; subst m; case: h => [//|[[k [w [-> hk]]]|h]] /=; first by case: eqP.
case: eqP => //= _; rewrite /antithetic_sample draw_abort //.
Qed.
End Energy.
Print Assumptions C60_energy.
Print Assumptions C60_energy_uncertain.
Print Assumptions C60_energy_aborts.

(* one dimension, mean 0, variance 1, truth 0, weight 4: the first term scales with the square root of the weight and the
   second with the weight, so that the assertion fails *)
Definition unit_ldlt n (A : 'M[R]_n) : ldlt_state n := LdltState 1%:M id.
Definition unit_joint : joint R_fieldType 1 := Joint (F := R_fieldType) 0 1%:M.
(* finding: the energy score of a weighted prediction can be negative, and then an assertion fails *)
Theorem C60_energy_weights_refuted : exists Za Zb : 'M[R]_(1, k_generate 2),
  factors (unit_ldlt (j_cov unit_joint)) (j_cov unit_joint) /\
  energy_score unit_ldlt (fun _ _ => true) unit_joint (0 : 'cV[R]_1) (Some (existT (fun m => 'cV[R]_m) 1%N (const_mx 4%:R))) Za Zb = Base.Abort.
Proof.
exists (const_mx 1), (const_mx (- 1)).
have P1 n (A : 'M[R]_n) : transpositions_mx (unit_ldlt A) = 1%:M.
  rewrite /transpositions_mx /transpositions_mul; elim: (enum _) => //= k s IH; rewrite /xrow perm.tperm1.
  by have -> : row_perm 1%g (1%:M : 'M[R]_n) = 1%:M by apply/matrixP => i j; rewrite !mxE perm.perm1.
have L1 n (A : 'M[R]_n) : matrixL (unit_ldlt A) = 1%:M.
  by apply/matrixP => i j; rewrite !mxE; case: ifP => // h; rewrite ?mxE.
have D1 n (A : 'M[R]_n) : vectorD (unit_ldlt A) = const_mx 1 by apply/matrixP => i j; rewrite !mxE eqxx.
have Dp : positive_D (unit_ldlt (j_cov unit_joint)) by move=> i; rewrite D1 mxE ltr01.
split.
  by rewrite /factors P1 L1 D1 trmx1 !mul1mx !mulmx1; apply/matrixP => i j; rewrite !mxE (ord1 i) (ord1 j).
rewrite energy_shape // => [|i]; last by rewrite mxE ler0n.
have -> : energy_terms (num := 2) unit_ldlt unit_joint (const_mx 4%:R) 0 (const_mx 1) (const_mx (-1)) = -2%:R.
  have M1 : draw_map (unit_ldlt (j_cov unit_joint)) = 1%:M.
    rewrite /draw_map P1 L1 D1 !mul1mx; apply/matrixP => i j; rewrite !mxE (ord1 i) (ord1 j) sqrt_1; by [].
  have s64 : R_sqrt.sqrt (Rmult (IZR 8) (IZR 8)) = IZR 8 by apply: R_sqrt.sqrt_square; lra.
  have s4 : R_sqrt.sqrt (Rmult (IZR 2) (IZR 2)) = IZR 2 by apply: R_sqrt.sqrt_square; lra.
  have E Z : samples unit_ldlt unit_joint (num := 2) Z = row_mx Z (- Z).
    rewrite /samples M1; congr row_mx; apply/matrixP => i j; rewrite !mxE /= ?big_ord_recl ?big_ord0 ?mxE (ord1 i) ?mul1r ?add0r ?addr0 //.
  rewrite /energy_terms !E.
  rewrite (eq_bigr (fun _ => Rminus (Rplus (IZR 2) (IZR 2)) (IZR 8))) => [|j _].
    have k4 : ((k_generate 2 + k_generate 2)%:R : R) = IZR 4 by rewrite (_ : (k_generate 2 + k_generate 2 = 4)%N) // RnatE INR_IZR_INZ.
    by rewrite sumr_const card_ord -[X in X / _]mulr_natr k4 two_R; Rfield.
  rewrite /weighted_norm !big_ord_recl !big_ord0 !mxE.
  have n4 : (4%:R : R) = IZR 4 by rewrite RnatE INR_IZR_INZ.
  case: splitP => k _; rewrite !mxE !n4.
    have -> : (IZR 4 * (1 - 0) ^+ 2 + 0 = IZR 2 * IZR 2)%R by rewrite expr2; Rring.
    have -> : (IZR 4 * (-1 - 0) ^+ 2 + 0 = IZR 2 * IZR 2)%R by rewrite expr2; Rring.
    have -> : (IZR 4 ^+ 2 * (1 - -1) ^+ 2 + 0 = IZR 8 * IZR 8)%R by rewrite !expr2; Rring.
    by rewrite !RmultE s4 s64.
  have -> : (IZR 4 * (-1 - 0) ^+ 2 + 0 = IZR 2 * IZR 2)%R by rewrite expr2; Rring.
  have -> : (IZR 4 * (- (-1) - 0) ^+ 2 + 0 = IZR 2 * IZR 2)%R by rewrite expr2; Rring.
  have -> : (IZR 4 ^+ 2 * (-1 - - (-1)) ^+ 2 + 0 = IZR 8 * IZR 8)%R by rewrite !expr2; Rring.
  by rewrite !RmultE s4 s64.
rewrite two_R /xgeb /xleb (proj2 (Rleb_false _ _)) //.
have h : Rlt (Rinv (Rpow_def.pow 10 12)) 1.
  have p : Rlt 1 (Rpow_def.pow 10 12) by apply: Rlt_pow_R1; [lra|apply/ssrnat.ltP].
  move: (Rpow_def.pow 10 12) p => x p; rewrite -[X in Rlt _ X]Rinv_1; apply: Rinv_lt_contravar; lra.
move: (Rinv (Rpow_def.pow 10 12)) h => x h; toR; lra.
Qed.
Print Assumptions C60_energy_weights_refuted.

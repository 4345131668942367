(* C70: leave one out metrics of models. *)
From Coq Require Import Reals Lra.
From Verif Require Import ExtRealModel DistanceModel RadialModel.
From Verif Require Base BaseProofs.
From mathcomp Require Import all_ssreflect all_algebra.
From Verif Require Import RealStruct GpModel GpSpec GpHistory GpProofs3 PsdProofs LdltModel LdltSpec LdltProofs LikelihoodModel LikelihoodProofs SparseGpSpec ScoreModel ScoreSpec ScoreProofs RealPsd SparseGpProofs2 LikelihoodProps MetricsModel MetricsSpec MetricsProofs MetricsProps ModelMetricsModel.
Set Implicit Arguments.
Unset Strict Implicit.
Unset Printing Implicit Defensive.
Import Order.TTheory GRing.Theory Num.Theory.
Local Open Scope ring_scope.

Lemma scores_sum_fin (I : Type) (s : seq I) (f : I -> R) : scores_sum [seq XFin (f i) | i <- s] = XFin (\sum_(i <- s) f i)%R.
Proof.
suff E a : foldl xadd (XFin a) [seq XFin (f i) | i <- s] = XFin (a + \sum_(i <- s) f i)%R by rewrite /scores_sum E add0r.
by elim: s a => [|i s IH] a /=; rewrite ?big_nil ?addr0 // IH big_cons addrA.
Qed.
Lemma mapM_fin (I : Type) (F : I -> Base.outcome xr) (f : I -> R) (s : seq I) : (forall i, List.In i s -> F i = Base.Ok (XFin (f i))) ->
  Base.mapM F s = Base.Ok [seq XFin (f i) | i <- s].
Proof. exact: (BaseProofs.mapM_map F (fun i => XFin (f i))). Qed.

Section Likelihood.
Variable tolerance : R.
Variable compute_ldlt : forall n, 'M[R]_n -> ldlt_state n.
Hypothesis hl : ldlt_contract compute_ldlt.
Hypothesis t0 : 0 <= tolerance.
Definition usable n (C : 'M[R]_n) : Prop := pd C /\ forall i, tolerance < vectorD (compute_ldlt C) i 0.

(* any model: the sum over the groups of the log densities of the group's targets under its held out prediction
   widened by the noise of the targets, and the log density of the parameters, with the sign changed *)
Theorem C70_likelihood n (t : marginal R_fieldType n) (predictions : forall k, ('I_k -> 'I_n) -> joint R_fieldType k) (prior_ : R) groups :
  (forall g, List.In g groups -> usable (j_cov (predictions _ (g_indices g)) + diag (rowsub (g_indices g) (m_var t)))) ->
  leave_one_group_out_likelihood tolerance compute_ldlt t predictions (XFin prior_) groups =
  Base.Ok (XFin (- (\sum_(g <- groups) gaussian_log_density (j_cov (predictions _ (g_indices g)) + diag (rowsub (g_indices g) (m_var t)))
                         (j_mean (predictions _ (g_indices g)) - rowsub (g_indices g) (m_mean t)) + prior_))%R).
Proof.
move=> h; rewrite /leave_one_group_out_likelihood.
rewrite (mapM_fin (f := fun g => - gaussian_log_density (j_cov (predictions _ (g_indices g)) + diag (rowsub (g_indices g) (m_var t)))
                         (j_mean (predictions _ (g_indices g)) - rowsub (g_indices g) (m_mean t)))); last first.
  move=> g gi; have [Cp big] := h g gi; rewrite (C69_nll_joint hl t0) //=.
rewrite /= scores_sum_fin /xsub /= sumrN; congr (Base.Ok (XFin _)); by rewrite opprD.
Qed.

Theorem C70_likelihood_marginal n (t : marginal R_fieldType n) (predictions : forall k, ('I_k -> 'I_n) -> marginal R_fieldType k) (prior_ : R) groups :
  (forall g, List.In g groups -> forall i, 0 < m_var (predictions _ (g_indices g)) i 0 + m_var t (g_indices g i) 0) ->
  leave_one_group_out_likelihood_marginal t predictions (XFin prior_) groups =
  Base.Ok (XFin (- (\sum_(g <- groups) gaussian_log_density (diag (m_var (predictions _ (g_indices g)) + rowsub (g_indices g) (m_var t)))
                         (m_mean (predictions _ (g_indices g)) - rowsub (g_indices g) (m_mean t)) + prior_))%R).
Proof.
move=> h; rewrite /leave_one_group_out_likelihood_marginal.
rewrite (mapM_fin (f := fun g => - gaussian_log_density (diag (m_var (predictions _ (g_indices g)) + rowsub (g_indices g) (m_var t)))
                         (m_mean (predictions _ (g_indices g)) - rowsub (g_indices g) (m_mean t)))); last first.
  by move=> g gi; rewrite (C69_nll_marginal hl t0) //= => i; rewrite mxE; exact: h.
by rewrite /= scores_sum_fin /xsub /= sumrN; congr (Base.Ok (XFin _)); rewrite opprD.
Qed.
(* groups of one: joint and marginal predictions score the same, whatever they are *)
Theorem C70_kinds n (t : marginal R_fieldType n) (predictions : forall k, ('I_k -> 'I_n) -> joint R_fieldType k) prior_ :
  leave_one_group_out_likelihood tolerance compute_ldlt t predictions prior_ (leave_one_out n) =
  leave_one_group_out_likelihood_marginal t (fun k f => joint_marginal (predictions k f)) prior_ (leave_one_out n).
Proof.
rewrite /leave_one_group_out_likelihood /leave_one_group_out_likelihood_marginal; congr (Base.bind _ _).
have E i : let g : group n := Group (fun _ : 'I_1 => i) in
    nll_joint tolerance compute_ldlt (predictions (g_size g) (g_indices g)) (marginal_subset (g_indices g) t) =
    nll_marginal (joint_marginal (predictions (g_size g) (g_indices g))) (marginal_subset (g_indices g) t).
  rewrite /= /nll_joint /nll_marginal !difference_value /Base.bind /nll_dense /nll_diagonal /Base.assert_then !eqxx !conform_mx_id.
  have -> : enum 'I_1 = [:: 0] by apply: (inj_map val_inj); rewrite val_enum_ord.
  congr Base.Ok; rewrite /= !mxE eqxx mulr1n; case: (nll_scalar _ _) => //= x; by rewrite Rplus_0_l.
rewrite /leave_one_out; elim: (enum 'I_n) => [//|i s IH].
by rewrite map_cons; have := E i; move: (Group _) IH => g IH e; rewrite /= IH e.
Qed.

(* Gaussian processes: the held out prediction is that of the noisy measurements already, so that the noise counts
   twice. [mean] and [S] are the conditional law of the group's measurements given all the others *)
Section Gp.
Variables (X : Type) (cov : feature X -> feature X -> R) (mu : feature X -> R).
Hypothesis cov_sym : forall x y, cov x y = cov y x.
Variable n : nat.
Variables (xs : 'I_n -> feature X) (t : marginal R_fieldType n).
Let ms := as_measurement (X:=X) \o xs.
Let K : 'M[R]_n := kmat (F := R_fieldType) cov xs t.
Definition measurement_law k m (f : 'I_k -> 'I_n) (g : 'I_m -> 'I_n) (mean : 'cV[R]_k) (S : 'M[R]_k) : Prop :=
  conditional (F := R_fieldType) (rowsub f (mean_v (F := R_fieldType) mu ms)) (rowsub g (mean_v (F := R_fieldType) mu ms)) (mxsub f f K) (mxsub f g K) (mxsub g g K)
    (rowsub g (m_mean t)) mean S.
Definition gp_predictions k (f : 'I_k -> 'I_n) : joint R_fieldType k := gp_cross_validated cov mu (@held_out_joint R_fieldType) xs t f.
Lemma held_out_law k m (f : 'I_k -> 'I_n) (g : 'I_m -> 'I_n) : complementary f g -> K \in unitmx -> mxsub g g K \in unitmx ->
  measurement_law f g (j_mean (gp_predictions f)) (j_cov (gp_predictions f)).
Proof.
move=> fg Ku Gu; rewrite /measurement_law.
have -> : mxsub f g K = mxsub f g (cov_mx (F := R_fieldType) cov ms ms).
  have E : mxsub f g (diag (m_var t) : 'M[R]_n) = 0.
    by apply/matrixP => a b; rewrite !mxE; case: eqP => [e|//]; case: fg => _ [_ [/(_ a b)]].
  by rewrite /K /kmat; apply/matrixP => a b; move/matrixP/(_ a b): E; rewrite !mxE => ->; rewrite addr0.
apply: (@held_out_conditional R_fieldType n k m f g (Joint (mean_v mu ms) (cov_mx cov ms ms)) t) => //.
by apply/matrixP => i j; rewrite !mxE cov_sym.
Qed.
Theorem C70_gp_group (g : group n) m (others : 'I_m -> 'I_n) (prior_ : R) :
  complementary (g_indices g) others -> pd K ->
  let p := gp_predictions (g_indices g) in
  measurement_law (g_indices g) others (j_mean p) (j_cov p) /\
  (usable (j_cov p + diag (rowsub (g_indices g) (m_var t))) ->
   leave_one_group_out_likelihood tolerance compute_ldlt t gp_predictions (XFin prior_) [:: g] =
   Base.Ok (XFin (- (gaussian_log_density (j_cov p + diag (rowsub (g_indices g) (m_var t))) (j_mean p - rowsub (g_indices g) (m_mean t)) + prior_))%R)).
Proof.
move=> fg Kp p; split.
  apply: held_out_law => //; first exact: pd_unit.
  by apply: pd_unit; apply: pd_mxsub Kp; case: fg => _ [].
by move=> u; rewrite C70_likelihood => [|h [<-|//]] //; rewrite big_seq1.
Qed.
(* targets without noise (all the noise in the covariance function): the pseudo likelihood of leave one out *)
Theorem C70_noise_free (groups : seq (group n)) (prior_ : R) : m_var t = 0 ->
  (forall g, List.In g groups -> usable (j_cov (gp_predictions (g_indices g)))) ->
  leave_one_group_out_likelihood tolerance compute_ldlt t gp_predictions (XFin prior_) groups =
  Base.Ok (XFin (- (\sum_(g <- groups) gaussian_log_density (j_cov (gp_predictions (g_indices g)))
                         (j_mean (gp_predictions (g_indices g)) - rowsub (g_indices g) (m_mean t)) + prior_))%R).
Proof.
move=> v0 h; have E g : j_cov (gp_predictions (g_indices g)) + diag (rowsub (g_indices g) (m_var t)) = j_cov (gp_predictions (g_indices g)).
  by rewrite v0; apply/matrixP => i j; rewrite !mxE mul0rn addr0.
rewrite C70_likelihood => [|g gi]; last by rewrite E; exact: h.
by under eq_bigr do rewrite E.
Qed.
End Gp.
End Likelihood.
Print Assumptions C70_likelihood.
Print Assumptions C70_likelihood_marginal.
Print Assumptions C70_kinds.
Print Assumptions C70_gp_group.
Print Assumptions C70_noise_free.

Definition place (x : feature 'I_2) : 'I_2 := match x with Bare v | Measured v => v end.
Definition same (x y : feature 'I_2) : R := if place x == place y then 1 else 0.
Definition zero_mean (x : feature 'I_2) : R := 0.
Definition two_x : 'I_2 -> feature 'I_2 := @Bare _.
Definition two_t : marginal R_fieldType 2 := Marginal (0 : 'cV[R]_2) (const_mx 1).
Definition first_group : group 2 := @Group 2 1 (fun _ => 0).
Definition second : 'I_1 -> 'I_2 := fun _ => 1.
Lemma two_K : kmat (F := R_fieldType) same two_x two_t = 2%:R%:M.
Proof.
apply/matrixP => i j; rewrite !mxE /same /=; case: (i == j); last by rewrite !mulr0n addr0.
by rewrite /= !mulr1n -[2%:R]/(1 + 1).
Qed.
Lemma two_complementary : complementary (g_indices first_group) second.
Proof.
split; first by move=> a b _; rewrite (ord1 a) (ord1 b).
split; first by move=> a b _; rewrite (ord1 a) (ord1 b).
split=> [a b //|i]; case: i => [[|[|//]] h]; [left|right]; exists 0; exact: val_inj.
Qed.
Example C70_gp_group_meets : (forall x y, same x y = same y x) /\ complementary (g_indices first_group) second /\ pd (kmat (F := R_fieldType) same two_x two_t).
Proof.
split; first by move=> x y; rewrite /same eq_sym.
by split; [exact: two_complementary|rewrite two_K; apply: pd_scalar_mx; rewrite ltr0n].
Qed.
Lemma two_law : let p := gp_predictions same zero_mean two_x two_t (g_indices first_group) in j_mean p = 0 /\ j_cov p = 2%:R%:M.
Proof.
move=> p; have [s [fg Kp]] := C70_gp_group_meets.
have [W [h [e1 e2]]] := held_out_law zero_mean s fg (pd_unit Kp) (pd_unit (pd_mxsub (proj1 (proj2 fg)) Kp)).
have Eg : mxsub second second (2%:R%:M : 'M[R]_2) = 2%:R%:M by apply/matrixP => i j; rewrite !mxE (ord1 i) (ord1 j).
have Ef : mxsub (g_indices first_group) second (2%:R%:M : 'M[R]_2) = 0 by apply/matrixP => i j; rewrite !mxE.
have Eff : mxsub (g_indices first_group) (g_indices first_group) (2%:R%:M : 'M[R]_2) = 2%:R%:M by apply/matrixP => i j; rewrite !mxE (ord1 i) (ord1 j).
have W0 : W = 0.
  move/eqP: h; rewrite two_K Eg Ef sub0r oppr_eq0 mul_mx_scalar scaler_eq0 pnatr_eq0 /=.
  by move/eqP.
split; last by rewrite e2 W0 two_K Ef Eff !mul0mx !subr0 addr0.
by rewrite e1 W0 mul0mx addr0; apply/matrixP => i j; rewrite !mxE.
Qed.
(* two independent data points with unit noise: the score uses the variance 3 in place of 2 *)
Theorem C70_noise_counted_twice_refuted (compute_ldlt : forall n, 'M[R]_n -> ldlt_state n) (prior_ : R) : ldlt_contract compute_ldlt ->
  let p := gp_predictions same zero_mean two_x two_t (g_indices first_group) in
  measurement_law same zero_mean two_x two_t (g_indices first_group) second (j_mean p) (j_cov p) /\
  leave_one_group_out_likelihood 0 compute_ldlt two_t (gp_predictions same zero_mean two_x two_t) (XFin prior_) [:: first_group] <>
  Base.Ok (XFin (- (gaussian_log_density (j_cov p) (j_mean p - rowsub (g_indices first_group) (m_mean two_t)) + prior_))%R).
Proof.
move=> hl p; have [s [fg Kp]] := C70_gp_group_meets.
have [l v] := C70_gp_group hl (lexx 0) zero_mean s prior_ fg Kp; split => //.
have [m0 c2] := two_law; rewrite -/p in l v m0 c2.
have E3 : j_cov p + diag (rowsub (g_indices first_group) (m_var two_t)) = 3%:R%:M :> 'M[R]_1.
  by rewrite c2; apply/matrixP => i j; rewrite !mxE (ord1 i) (ord1 j) /= !mulr1n; exact: esym (natrD _ 2 1).
have P3 : pd (3%:R%:M : 'M[R]_1) by apply: pd_scalar_mx; rewrite ltr0n.
have y0 : rowsub (g_indices first_group) (m_mean two_t) = 0 :> 'cV[R]_1 by apply/matrixP => i j; rewrite !mxE.
rewrite v; last by rewrite E3; split => // i; exact: (factors_pd (hl _ _ P3) P3).
rewrite E3 c2 m0 y0 subrr => -[] /oppr_inj /addIr.
rewrite /gaussian_log_density !mulmx0 !det_scalar !expr1.
have nz : - (2%:R : R)^-1 != 0 by rewrite oppr_eq0 invr_eq0 pnatr_eq0.
move/(mulfI nz)/addIr/addIr => /ln_inv e.
have : (3%:R : R) = 2%:R by apply: e; apply/RltP; rewrite ltr0n.
by move/eqP; rewrite eqr_nat.
Qed.
Print Assumptions C70_noise_counted_twice_refuted.

(* ---- root mean square error ---- *)
(* the average of the root mean square errors of single points is the mean absolute error *)
Theorem C70_rmse n (t : marginal R_fieldType n) (predictions : forall k, ('I_k -> 'I_n) -> 'cV[R]_k) :
  let error i := predictions 1%N (fun _ => i) 0 0 - m_mean t i 0 in
  leave_one_out_rmse t predictions = Base.Ok (if (n == 0)%N then XNaN else XFin ((\sum_i `|error i|) / n%:R)%R).
Proof.
move=> error; rewrite /leave_one_out_rmse.
rewrite (mapM_fin (f := fun g => R_sqrt.sqrt (mean_square (predictions _ (g_indices g) - rowsub (g_indices g) (m_mean t))))); last first.
  by move=> g /List.in_map_iff [i [<- _]]; rewrite rmse_value.
rewrite /= /scores_mean scores_sum_fin size_map /leave_one_out size_map size_enum_ord big_map.
have -> : \sum_(j <- enum 'I_n) R_sqrt.sqrt (mean_square (predictions 1%N (fun _ => j) - rowsub (fun _ => j) (m_mean t))) = \sum_i `|error i|.
  rewrite -(sum_enum (fun i => `|error i|)); apply: eq_bigr => i _.
  rewrite /mean_square big_ord1 divr1 !mxE expr2; exact: (sqrt_Rsqr_abs (error i)).
case: n t predictions error => [|n] t predictions error; last by rewrite xdiv_fin ?n_neq0.
by rewrite big_ord0 /xdiv !(proj2 (DistanceProofs.Reqb_true _ _)).
Qed.
Print Assumptions C70_rmse.
(* so it is at most the root mean square error of all the predictions, and need not be equal *)
Theorem C70_rmse_bound n (t : marginal R_fieldType n) (predictions : forall k, ('I_k -> 'I_n) -> 'cV[R]_k) (loo all : R) :
  leave_one_out_rmse t predictions = Base.Ok (XFin loo) ->
  root_mean_square_error (\col_i predictions 1%N (fun _ => i) 0 0) (m_mean t) = Base.Ok (XFin all) -> loo <= all.
Proof.
rewrite C70_rmse C69_rmse; case: n t predictions => [//|n] t predictions; set m := n.+1 => -[<-] [<-].
pose e (i : 'I_m) : R := predictions 1%N (fun=> i) 0 0 - m_mean t i 0; pose x : 'cV[R]_m := \col_i `|e i|.
have -> : mean_square (\col_i predictions 1%N (fun _ => i) 0 0 - m_mean t) = mean_square (x - 0).
  by rewrite subr0; congr (_ / _); apply: eq_bigr => i _; rewrite !mxE real_normK ?num_real.
have rx : root_mean_square_error x (0 : 'cV[R]_m) = Base.Ok (XFin (R_sqrt.sqrt (mean_square (x - 0)))) by rewrite rmse_value.
have b i : `|x i 0 - (0 : 'cV[R]_m) i 0| <= \sum_j x j 0.
  have -> : (0 : 'cV[R]_m) i 0 = 0 by rewrite mxE.
  rewrite subr0 (bigD1 i) //= mxE normr_id ler_addl sumr_ge0 // => j _; by rewrite mxE normr_ge0.
have [h _] := C69_rmse_bounds rx b.
apply: le_trans h; rewrite subr0 /average; have -> : \sum_i x i 0 = \sum_i `|e i| by apply: eq_bigr => i _; rewrite mxE.
by rewrite ger0_norm // divr_ge0 ?ler0n // sumr_ge0 // => i _; exact: normr_ge0.
Qed.
Print Assumptions C70_rmse_bound.
(* finding: the leave one out root mean square error is not the root mean square of the leave one out errors *)
Theorem C70_rmse_refuted : exists (t : marginal R_fieldType 2) (predictions : forall k, ('I_k -> 'I_2) -> 'cV[R]_k) (loo all : R),
  leave_one_out_rmse t predictions = Base.Ok (XFin loo) /\
  root_mean_square_error (\col_i predictions 1%N (fun _ => i) 0 0) (m_mean t) = Base.Ok (XFin all) /\ loo <> all.
Proof.
exists (Marginal (F := R_fieldType) (\col_i (i == 0)%:R) 0), (fun k _ => 0).
do 2!eexists; split; first by rewrite C70_rmse.
split; first by rewrite C69_rmse.
rewrite /mean_square !big_ord_recl !big_ord0 !mxE /= !subr0 !sub0r !normrN !normr1 normr0 !addr0 sqrrN expr1n expr0n /= addr0 => h.
have q : R_sqrt.sqrt (1 / 2%:R)%R ^+ 2 = (1 / 2%:R)%R by rewrite expr2; apply: sqrt_sqrt; apply/RleP; rewrite divr_ge0 ?ler01 ?ler0n.
have := congr1 (fun x => x ^+ 2) h; rewrite q.
by rewrite !div1r exprVn => /invr_inj /eqP; rewrite -natrX eqr_nat.
Qed.
Print Assumptions C70_rmse_refuted.

(* Histories of updates, the log likelihood and rebased fits. *)
From Coq Require Import Reals.
From mathcomp Require Import all_ssreflect all_algebra all_fingroup.
From Verif Require Import RealStruct GpModel GpSpec GpProofs PsdProofs LdltModel LdltSpec LdltProofs SparseGpModel SparseGpSpec SparseGpProofs SparseGpProofs2 SparseGpProofs3 MxTac.
Set Implicit Arguments.
Unset Strict Implicit.
Unset Printing Implicit Defensive.
Import Order.TTheory GRing.Theory Num.Theory.
Local Open Scope ring_scope.

Section Groups.
Variables n m : nat.
Variables (gs : seq (seq 'I_n)) (gs' : seq (seq 'I_m)).
Local Notation join := ([seq [seq lshift m i | i <- g] | g <- gs] ++ [seq [seq rshift n i | i <- g] | g <- gs']).
Lemma lshift_in (a : 'I_n) (g : seq 'I_n) : (lshift m a \in [seq lshift m i | i <- g]) = (a \in g).
Proof. exact: mem_map (@lshift_inj _ _) _ _. Qed.
Lemma rshift_in (a : 'I_m) (g : seq 'I_m) : (rshift n a \in [seq rshift n i | i <- g]) = (a \in g).
Proof. exact: mem_map (@rshift_inj _ _) _ _. Qed.
Lemma lshift_nin (a : 'I_n) (g : seq 'I_m) : (lshift m a \in [seq rshift n i | i <- g]) = false.
Proof. by apply/mapP => -[b _ /eqP]; rewrite eq_lrshift. Qed.
Lemma rshift_nin (a : 'I_m) (g : seq 'I_n) : (rshift n a \in [seq lshift m i | i <- g]) = false.
Proof. by apply/mapP => -[b _ /eqP]; rewrite eq_rlshift. Qed.
Lemma same_ll a b : same_group join (lshift m a) (lshift m b) = same_group gs a b.
Proof.
rewrite /same_group has_cat !has_map [X in _ || X](_ : _ = false) ?orbF.
  by apply: eq_has => g /=; rewrite !lshift_in.
by apply/hasP => -[g _ /=]; rewrite lshift_nin.
Qed.
Lemma same_rr a b : same_group join (rshift n a) (rshift n b) = same_group gs' a b.
Proof.
rewrite /same_group has_cat !has_map [X in X || _](_ : _ = false) ?orFb.
  by apply: eq_has => g /=; rewrite !rshift_in.
by apply/hasP => -[g _ /=]; rewrite rshift_nin.
Qed.
Lemma same_lr a b : same_group join (lshift m a) (rshift n b) = false.
Proof.
rewrite /same_group has_cat !has_map; apply/norP; split; apply/hasP => -[g _ /=].
  by rewrite rshift_nin andbF.
by rewrite lshift_nin.
Qed.
Lemma same_rl a b : same_group join (rshift n b) (lshift m a) = false.
Proof. by rewrite same_sym same_lr. Qed.
Lemma partition_join : groups_partition gs -> groups_partition gs' -> groups_partition join.
Proof.
rewrite /groups_partition flatten_cat -!map_flatten => h1 h2.
apply: (perm_trans (perm_cat (perm_map _ h1) (perm_map _ h2))); apply: uniq_perm; last 2 first.
- exact: enum_uniq.
- move=> i; rewrite mem_enum mem_cat inE; case: (split_ordP i) => a ->.
    by rewrite lshift_in mem_enum.
  by rewrite rshift_in mem_enum orbT.
rewrite cat_uniq (map_inj_uniq (@lshift_inj _ _)) (map_inj_uniq (@rshift_inj _ _)) !enum_uniq.
rewrite andbT andTb; apply/hasPn => i /mapP [b _ ->]; by rewrite /= rshift_nin.
Qed.
End Groups.

Section Fit.
Variable X : Type.
Variable cov : feature X -> feature X -> R.
Variable mean_function : feature X -> R.
Variable compute_ldlt : forall n, 'M[R]_n -> ldlt_state n.
Variable compute_qr : forall m n, 'M[R]_(m, n) -> qr_result m n.
Variables tolerance measurement_nugget inducing_nugget sparse_R_nugget default_nugget : R.
Hypothesis hldlt : ldlt_contract compute_ldlt.
Hypothesis hqr : qr_contract compute_qr.
Hypothesis hk : psd_kernel cov.
Hypothesis hnu : 0 < inducing_nugget.
Variables (k : nat) (u : 'I_k -> feature X).
Local Notation M := (K_uu cov inducing_nugget u).
Local Notation Mp := (M_pd hk hnu u).
Local Notation meas xs := (as_measurement (X := X) \o xs).
Local Notation D gs xs v := (cond_cov cov measurement_nugget inducing_nugget u (same_group gs) (meas xs) v).
Local Notation gain := (gain cov measurement_nugget inducing_nugget u).
Local Notation push := (push cov measurement_nugget inducing_nugget u).
Local Notation stores := (stores cov inducing_nugget u).
Local Notation fit_ := (sparse_fit_impl cov compute_ldlt compute_qr measurement_nugget inducing_nugget).
Local Notation pitc_ := (pitc cov inducing_nugget measurement_nugget u).
Local Notation history_ := (history cov compute_ldlt compute_qr measurement_nugget inducing_nugget sparse_R_nugget u).

Lemma D_join n m (xs : 'I_n -> feature X) (ys : 'I_m -> feature X) v w gs gs' :
  D ([seq [seq lshift m i | i <- g] | g <- gs] ++ [seq [seq rshift n i | i <- g] | g <- gs']) (concat_f xs ys) (col_mx v w) =
  block_mx (D gs xs v) 0 0 (D gs' ys w).
Proof.
have DE : forall n (same : 'I_n -> 'I_n -> bool) (zs : 'I_n -> feature X) (v : 'cV[R]_n) i j,
    cond_cov cov measurement_nugget inducing_nugget u same zs v i j =
    if same i j then cov (zs i) (zs j) + (if i == j then v i 0 + measurement_nugget else 0)
      - \sum_c (\sum_d cov (zs i) (u d) * invmx M d c) * cov (u c) (zs j) else 0.
  move=> {n m xs ys v w gs gs'} n same zs v i j; rewrite /cond_cov [LHS]mxE [X in X + _]mxE [X in _ + X]mxE.
  case: ifP => _; last by rewrite subrr.
  congr (_ - _); rewrite throughE !mxE; apply: eq_bigr => c _; rewrite !mxE; congr (_ * _).
  by apply: eq_bigr => d _; rewrite !mxE.
apply/matrixP => i j; rewrite DE.
case: (split_ordP i) => a ->; case: (split_ordP j) => b ->;
  rewrite ?same_ll ?same_lr ?same_rl ?same_rr ?block_mxEul ?block_mxEur ?block_mxEdl ?block_mxEdr ?DE.
- by rewrite (inj_eq (@lshift_inj _ _)) col_mxEu /= /concat_f !split_lshift.
- by rewrite mxE.
- by rewrite mxE.
- by rewrite (inj_eq (@rshift_inj _ _)) col_mxEd /= /concat_f !split_rshift.
Qed.

Lemma gain_join n m (xs : 'I_n -> feature X) (ys : 'I_m -> feature X) t s gs gs' :
  groups_partition gs -> (forall i, 0 < m_var t i 0 + measurement_nugget) ->
  groups_partition gs' -> (forall i, 0 < m_var s i 0 + measurement_nugget) ->
  let gg := [seq [seq lshift m i | i <- g] | g <- gs] ++ [seq [seq rshift n i | i <- g] | g <- gs'] in
  gain (concat_f xs ys) (concat_t t s) gg = gain xs t gs + gain ys s gs' /\
  push (concat_f xs ys) (concat_t t s) gg = push xs t gs + push ys s gs'.
Proof.
move=> h1 h2 h3 h4 gg; rewrite /SparseGpProofs3.gain /SparseGpProofs3.push.
have -> : D gg (concat_f xs ys) (m_var (concat_t t s)) = block_mx (D gs xs (m_var t)) 0 0 (D gs' ys (m_var s)) := D_join _ _ _ _ _ _.
have u1 := D0_unit hldlt hk hnu u xs h1 h2; have u2 := D0_unit hldlt hk hnu u ys h3 h4.
have [_ ->] := block_diag_inv u1 u2.
have -> : cov_mx cov (meas (concat_f xs ys)) u = col_mx (cov_mx cov (meas xs) u) (cov_mx cov (meas ys) u).
  apply/matrixP => i j; case: (split_ordP i) => a ->; rewrite ?col_mxEu ?col_mxEd !mxE /= /concat_f.
    by rewrite split_lshift.
  by rewrite split_rshift.
by rewrite tr_col_mx mul_row_block !mulmx0 addr0 add0r !mul_row_col.
Qed.

Lemma history_stores n (xs : 'I_n -> feature X) t gs f : history_ xs t gs f ->
  groups_partition gs /\ (forall i, 0 < m_var t i 0 + measurement_nugget) /\ stores f (M + gain xs t gs) (push xs t gs).
Proof.
elim=> {n xs t gs f} [n xs t gs hp hv|n m xs t gs ys s gs' f _ [hp [hv hs]] hp' hv'].
  by split=> //; split=> //; exact: fit_stores.
split; first exact: partition_join.
split; first by move=> i /=; case: (split_ordP i) => a ->; rewrite ?col_mxEu ?col_mxEd.
have [-> ->] := gain_join xs ys hp hv hp' hv'; rewrite addrA.
exact: update_stores.
Qed.

Lemma same_stores n (xs : 'I_n -> feature X) t gs gs' : (forall i j, same_group gs i j = same_group gs' i j) ->
  gain xs t gs = gain xs t gs' /\ push xs t gs = push xs t gs'.
Proof.
move=> hs; rewrite /SparseGpProofs3.gain /SparseGpProofs3.push.
have -> // : D gs xs (m_var t) = D gs' xs (m_var t).
by rewrite /cond_cov; congr (_ - _); apply/matrixP => i j; rewrite [LHS]mxE [RHS]mxE hs.
Qed.

Lemma stores_information f f' G b : stores f G b -> stores f' G b -> sf_information f = sf_information f'.
Proof.
case=> _ [_ [[Gp _] e]] [_ [_ [_ e']]]; have Gu := pd_unit Gp.
by rewrite -(mulKmx Gu (sf_information f)) e -e' mulKmx.
Qed.

(* the posterior of any history *)
Lemma T_pd n (xs : 'I_n -> feature X) t gs : groups_partition gs -> (forall i, 0 < m_var t i 0 + measurement_nugget) ->
  pd (D gs xs (m_var t)) /\ pd (pitc_ (same_group gs) (meas xs) (m_var t)).
Proof.
move=> hp hv; have Du := D0_unit hldlt hk hnu u xs hp hv.
have Dp : pd (D gs xs (m_var t)).
  rewrite -[D gs xs _]invmxK; apply: pd_inv.
  have := bdl_gram hldlt hk hnu u xs hp hv (1%:M : 'M[R]_n) (1%:M : 'M[R]_n); rewrite trmx1 mul1mx mulmx1.
  set S := bdl_sqrt_solve _ _ => E; rewrite -E.
  have -> : S^T *m S = S^T *m 1%:M *m S by rewrite mulmx1.
  apply: (@pd_congr _ _ _ _ _ (D gs xs (m_var t) *m S^T)); last by apply: pd_scalar_mx; exact: ltr01.
  by rewrite -mulmxA E mulmxV.
split=> //; rewrite T_eq //; apply: pdD => //.
have -> : cov_mx cov (meas xs) u *m invmx M *m (cov_mx cov (meas xs) u)^T =
   ((cov_mx cov (meas xs) u)^T)^T *m invmx M *m (cov_mx cov (meas xs) u)^T by rewrite trmxK.
by apply: psd_congr; apply: pd_psd; apply: pd_inv; exact: Mp.
Qed.

Lemma history_posterior n (xs : 'I_n -> feature X) t gs f p (zs : 'I_p -> feature X) : history_ xs t gs f ->
  let joint := sparse_predict_joint cov mean_function f zs in
  conditional (mean_v mean_function zs) 0 (cov_mx cov zs zs) (through cov inducing_nugget u zs (meas xs))
    (pitc_ (same_group gs) (meas xs) (m_var t)) (m_mean t) (j_mean joint) (j_cov joint) /\
  pd (pitc_ (same_group gs) (meas xs) (m_var t)) /\ psd (j_cov joint).
Proof.
move=> /history_stores [hp [hv hs]] joint.
split; last by split; [exact: (T_pd xs hp hv).2 | exact: (stored_psd mean_function hk hnu hs)].
rewrite /joint (stored_joint mean_function hs).
have Du := D0_unit hldlt hk hnu u xs hp hv.
have Gu : M + gain xs t gs \in unitmx by apply: pd_unit; case: hs => _ [_ [[]]].
exact: (posterior_conditional hk hnu Du Gu).
Qed.

Lemma history_batch n (xs : 'I_n -> feature X) t gs f gs' : history_ xs t gs f ->
  groups_partition gs' -> (forall i j, same_group gs' i j = same_group gs i j) ->
  let batch := fit_ gs' u xs t in
  sf_features f = sf_features batch /\ sf_information f = sf_information batch /\
  forall p (zs : 'I_p -> feature X),
    sparse_predict_joint cov mean_function f zs = sparse_predict_joint cov mean_function batch zs.
Proof.
move=> /history_stores [hp [hv hs]] hp' hsame batch.
have hb : stores batch (M + gain xs t gs) (push xs t gs).
  by have [<- <-] := same_stores xs t hsame; exact: fit_stores.
split; first by case: hs => -> _; case: hb => -> _.
split; first exact: stores_information hs hb.
by move=> p zs; rewrite (stored_joint _ hs) (stored_joint _ hb).
Qed.

(* ---- the log likelihood ---- *)
Lemma det_T n (xs : 'I_n -> feature X) t gs : groups_partition gs -> (forall i, 0 < m_var t i 0 + measurement_nugget) ->
  \det M * \det (pitc_ (same_group gs) (meas xs) (m_var t)) = \det (D gs xs (m_var t)) * \det (M + gain xs t gs).
Proof.
move=> hp hv; have Du := D0_unit hldlt hk hnu u xs hp hv; have Mu := M_unit hk hnu u.
rewrite T_eq // /SparseGpProofs3.gain; set DD := D gs xs _; rewrite -/DD in Du; set U := cov_mx _ _ _.
have E1 : block_mx 1%:M 0 (- (U *m invmx M)) 1%:M *m block_mx M U^T 0 (DD + U *m invmx M *m U^T) = block_mx M U^T (- U) DD.
  by rewrite mulmx_block !mul1mx !mul0mx !addr0 mulNmx mulmxKV // mulNmx [- _ + (_ + _)]addrC addrK.
have E2 : block_mx 1%:M (U^T *m invmx DD) 0 1%:M *m block_mx (M + U^T *m invmx DD *m U) 0 (- U) DD = block_mx M U^T (- U) DD.
  by rewrite mulmx_block !mul1mx !mul0mx !add0r mulmxN addrK mulmxKV // add0r.
have := congr1 determinant (etrans E1 (esym E2)).
by rewrite !det_mulmx det_lblock !det_ublock det_lblock !det1 !mul1r => ->; rewrite mulrC.
Qed.
Lemma inv_T n (xs : 'I_n -> feature X) t gs : groups_partition gs -> (forall i, 0 < m_var t i 0 + measurement_nugget) ->
  let U := cov_mx cov (meas xs) u in let Di := invmx (D gs xs (m_var t)) in
  invmx (pitc_ (same_group gs) (meas xs) (m_var t)) = Di - Di *m U *m invmx (M + gain xs t gs) *m (U^T *m Di).
Proof.
move=> hp hv U Di; have Du := D0_unit hldlt hk hnu u xs hp hv.
have Gu := pd_unit (precision_pd hldlt hk hnu u xs hp hv).
have Tu := pd_unit (T_pd xs hp hv).2.
set T := pitc_ _ _ _ in Tu *; set G := M + _ in Gu *.
suff E : (Di - Di *m U *m invmx G *m (U^T *m Di)) *m T = 1%:M by rewrite -[RHS](mulmxK Tu) E mul1mx.
have PW : invmx G *m (U^T *m Di) *m T = invmx M *m U^T by exact: posterior_W.
have TE : T = D gs xs (m_var t) + U *m invmx M *m U^T by exact: T_eq.
rewrite mulmxBl -[Di *m U *m _ *m _]mulmxA -[Di *m U *m _ *m T]mulmxA PW {1}TE mulmxDr mulVmx //.
by rewrite !mulmxA addrK.
Qed.

Lemma log_likelihood_correct n (xs : 'I_n -> feature X) t gs prior : groups_partition gs ->
  (forall i, 0 < m_var t i 0 + measurement_nugget) -> 0 <= tolerance ->
  above_tolerance tolerance (c_A_ldlt (compute_internal_components cov compute_ldlt measurement_nugget inducing_nugget gs u xs t)) ->
  sparse_log_likelihood cov compute_ldlt compute_qr tolerance measurement_nugget inducing_nugget gs u xs t prior =
  Some (gaussian_log_density (pitc_ (same_group gs) (meas xs) (m_var t)) (m_mean t) + prior).
Proof.
move=> hp hv t0 ht; rewrite /sparse_log_likelihood.
set c := compute_internal_components _ _ _ _ _ _ _ _ in ht *.
have E : (sigma_B c)^T *m sigma_B c = M + gain xs t gs := sigma_gram hldlt hk hnu u xs hp hv.
have Gp := precision_pd hldlt hk hnu u xs hp hv.
have Bu : (sigma_B c)^T *m sigma_B c \in unitmx by rewrite E; apply: pd_unit.
have Q := hqr Bu.
have [d1 l1] := det_D0 hldlt hk hnu u xs hp hv.
have [h1 h2] := comp_uu measurement_nugget hldlt hk hnu u xs t gs.
have [d2 l2] := log_determinant_correct h1 h2.
have [Dp Tp] := T_pd xs hp hv.
have posdet : forall q (Z : 'M[R]_q), pd Z -> 0 < \det Z.
  by move=> q Z Zp; have [a b] := ldlt_pd hldlt Zp; have [] := log_determinant_correct a b.
have dG := posdet _ _ Gp; have dT := posdet _ _ Tp.
have [n0 lR] : (forall i, qr_R (compute_sigma_qr compute_qr c) i i != 0) /\
    2%:R * (\sum_i Rpower.ln `|qr_R (compute_sigma_qr compute_qr c) i i|) = Rpower.ln (\det (M + gain xs t gs)).
  by have := qr_log_det Q Bu; rewrite E => /(_ dG).
have -> : [forall i, qr_R (compute_sigma_qr compute_qr c) i i != 0] by apply/forallP.
rewrite l1 l2 lR.
have quadE : ((c_y c)^T *m bdl_solve tolerance (c_A_ldlt c) (c_y c)) 0 0 -
  ((qr_sqrt_solve (qr_R (compute_sigma_qr compute_qr c)) (qr_P (compute_sigma_qr compute_qr c)) ((c_K_fu c)^T *m bdl_solve tolerance (c_A_ldlt c) (c_y c)))^T *m
   qr_sqrt_solve (qr_R (compute_sigma_qr compute_qr c)) (qr_P (compute_sigma_qr compute_qr c)) ((c_K_fu c)^T *m bdl_solve tolerance (c_A_ldlt c) (c_y c))) 0 0
  = ((m_mean t)^T *m invmx (pitc_ (same_group gs) (meas xs) (m_var t)) *m m_mean t) 0 0.
  have [A [cA [Ap EA]]] := comp_A hldlt hk hnu u xs hp hv.
  have sol : forall q r (a : 'M[R]_(n, q)) (b : 'M[R]_(n, r)),
      (rowsub (@reordered n gs) a)^T *m bdl_solve tolerance (c_A_ldlt c) (rowsub (@reordered n gs) b) =
      a^T *m invmx (D gs xs (m_var t)) *m b.
    move=> q r a b; rewrite -(bdl_gram hldlt hk hnu u xs hp hv) -/c; rewrite -/c in cA.
    rewrite cA (bdl_solveE hldlt Ap t0) -?cA // !bdl_sqrt_solveE cA.
    by have [_ ->] := dense_inv hldlt Ap; rewrite trmx_mul !mulmxA.
  have -> : c_y c = rowsub (@reordered n gs) (m_mean t) by [].
  have -> : c_K_fu c = rowsub (@reordered n gs) (cov_mx cov (meas xs) u) by apply/matrixP => i j; rewrite !mxE.
  rewrite !sol (qr_sqrt_gram Q Bu) E inv_T //.
  rewrite mulmxBr mulmxBl [RHS]mxE [X in _ = _ + X]mxE; congr (_ - _).
  have [Ds _] := pd_inv Dp.
  by rewrite !trmx_mul trmxK Ds !mulmxA.
have LD : Rpower.ln (\det (D gs xs (m_var t))) + Rpower.ln (\det (M + gain xs t gs)) - Rpower.ln (\det M) =
    Rpower.ln (\det (pitc_ (same_group gs) (meas xs) (m_var t))).
  have LM : forall a b : R, 0 < a -> 0 < b -> Rpower.ln (a * b) = Rpower.ln a + Rpower.ln b.
    by move=> a b a0 b0; apply: Rpower.ln_mult; apply/RltP.
  have dM := posdet _ _ Mp.
  by have := congr1 Rpower.ln (det_T xs hp hv); rewrite (LM _ _ dM dT) (LM _ _ d1 dG) => <-; rewrite addrC addKr.
by rewrite quadE LD /gaussian_log_density; rewrite /sizes (sumn_sizes hp).
Qed.

(* ---- rebasing ---- *)
Section Rebase.
Variables (l : nat) (z : 'I_l -> feature X).
Hypothesis Kz : pd (cov_mx cov z z).
Hypothesis hd : 0 < default_nugget.
Hypothesis ht0 : 0 <= tolerance.
Hypothesis htol : forall i, tolerance < vectorD (compute_ldlt (cov_mx cov z z)) i 0.

Lemma from_prediction (d : joint R_fieldType l) p (xs : 'I_p -> feature X) : psd (j_cov d) ->
  let f := sparse_fit_from_prediction cov compute_ldlt compute_qr tolerance default_nugget z d in
  let W := cov_mx cov xs z *m invmx (cov_mx cov z z) in
  j_mean (sparse_predict_joint cov mean_function f xs) = W *m j_mean d + mean_v mean_function xs /\
  j_cov (sparse_predict_joint cov mean_function f xs) =
    cov_mx cov xs xs - W *m cov_mx cov z xs + W *m (j_cov d + default_nugget%:M) *m W^T.
Proof.
move=> dp f W; have Ku := pd_unit Kz.
have [h1 h2] := ldlt_pd hldlt Kz; have [Ks _] := Kz; have [Kis _] := pd_inv Kz.
have tolE : forall q (b : 'M[R]_(l, q)), ldlt_solve (compute_ldlt (cov_mx cov z z)) tolerance b = invmx (cov_mx cov z z) *m b.
  by move=> q b; apply: (proj2 (ldlt_solveE b h1 _ ht0)) => i; apply: (lt_le_trans (htol i)); exact: ler_norm.
have Cp : pd (j_cov d + default_nugget%:M) by rewrite addrC; apply: pdD => //; apply: pd_scalar_mx.
set C := j_cov d + _ in Cp.
have Cu := pd_unit Cp; have [c1 c2] := ldlt_pd hldlt Cp; have [_ Ci] := A_inv c1 c2.
pose B := sqrt_solve (compute_ldlt C) (cov_mx cov z z).
have BB : B^T *m B = cov_mx cov z z *m invmx C *m cov_mx cov z z.
  by rewrite /B sqrt_solveE trmx_mul Ci Ks !mulmxA.
have Bu : B^T *m B \in unitmx by rewrite BB !unitmx_mul unitmx_inv Ku Cu.
have [_ Bi] : B^T *m B \in unitmx /\ invmx (B^T *m B) = invmx (cov_mx cov z z) *m C *m invmx (cov_mx cov z z).
  apply: unit_of_right; rewrite BB !mulmxA mulmxK // mulmxKV // mulmxV //.
have Q := hqr Bu.
split.
  by rewrite /= tolE mulmxA (cov_tr hk).
have -> : j_cov (sparse_predict_joint cov mean_function f xs) = cov_mx cov xs xs
   - (sqrt_solve (compute_ldlt (cov_mx cov z z)) (cov_mx cov z xs))^T *m sqrt_solve (compute_ldlt (cov_mx cov z z)) (cov_mx cov z xs)
   + (qr_sqrt_solve (qr_R (compute_qr B)) (qr_P (compute_qr B)) (cov_mx cov z xs))^T *m
      qr_sqrt_solve (qr_R (compute_qr B)) (qr_P (compute_qr B)) (cov_mx cov z xs) by [].
rewrite (qr_sqrt_gram Q Bu) Bi; have [_ Ai] := A_inv h1 h2.
rewrite !sqrt_solveE trmx_mul -[X in _ - X]mulmxA [X in _ - _ *m X]mulmxA -Ai.
rewrite /W !trmx_mul Kis !(cov_tr hk) !mulmxA; congr (_ + _).
Qed.

Lemma from_prediction_at_points (d : joint R_fieldType l) : psd (j_cov d) ->
  let f := sparse_fit_from_prediction cov compute_ldlt compute_qr tolerance default_nugget z d in
  sparse_predict_joint cov mean_function f z =
  Joint (F := R_fieldType) (j_mean d + mean_v mean_function z) (j_cov d + default_nugget%:M).
Proof.
move=> dp f; have Ku := pd_unit Kz.
have [e1 e2] := from_prediction z dp.
have E : forall a b : joint R_fieldType l, j_mean a = j_mean b -> j_cov a = j_cov b -> a = b.
  by move=> [a1 a2] [b1 b2] /= -> ->.
apply: E; rewrite ?e1 ?e2 /= mulmxV // !mul1mx // trmx1 mulmx1.
by rewrite subrr add0r.
Qed.
End Rebase.
End Fit.

(* C62: arithmetic, subsets, transformations, comparison and concatenation of distributions. *)
From Coq Require Import Reals List Lra Lia.
From Verif Require Base.
From mathcomp Require Import all_ssreflect all_algebra.
From Verif Require Import RealStruct GpModel GpSpec PsdProofs LdltModel LdltSpec LdltProofs RealPsd SparseGpProofs2 LikelihoodProofs DistributionModel.
Set Implicit Arguments.
Unset Strict Implicit.
Unset Printing Implicit Defensive.
Import Order.TTheory GRing.Theory Num.Theory.
Local Open Scope ring_scope.

Lemma jdP n (a b : jd n) : j_mean a = j_mean b -> j_cov a = j_cov b -> a = b.
Proof. by case: a; case: b => /= ? ? ? ? -> ->. Qed.
Lemma mdP n (a b : md n) : m_mean a = m_mean b -> m_var a = m_var b -> a = b.
Proof. by case: a; case: b => /= ? ? ? ? -> ->. Qed.

(* ---- moments, entry by entry ---- *)
Theorem C62_moments n (a b : jd n) (c d : md n) (s : R) (i j : 'I_n) :
  (j_mean (joint_add a b) i 0 = j_mean a i 0 + j_mean b i 0 /\ j_cov (joint_add a b) i j = j_cov a i j + j_cov b i j) /\
  (j_mean (joint_sub a b) i 0 = j_mean a i 0 - j_mean b i 0 /\ j_cov (joint_sub a b) i j = j_cov a i j + j_cov b i j) /\
  (j_mean (joint_add_marginal a c) i 0 = j_mean a i 0 + m_mean c i 0 /\
   j_cov (joint_add_marginal a c) i j = j_cov a i j + (if i == j then m_var c i 0 else 0)) /\
  (j_mean (joint_sub_marginal a c) i 0 = j_mean a i 0 - m_mean c i 0 /\
   j_cov (joint_sub_marginal a c) i j = j_cov a i j + (if i == j then m_var c i 0 else 0)) /\
  (m_mean (marginal_add c d) i 0 = m_mean c i 0 + m_mean d i 0 /\ m_var (marginal_add c d) i 0 = m_var c i 0 + m_var d i 0) /\
  (m_mean (marginal_sub c d) i 0 = m_mean c i 0 - m_mean d i 0 /\ m_var (marginal_sub c d) i 0 = m_var c i 0 + m_var d i 0) /\
  (j_mean (joint_scale a s) i 0 = s * j_mean a i 0 /\ j_cov (joint_scale a s) i j = s ^+ 2 * j_cov a i j) /\
  (m_mean (marginal_scale c s) i 0 = s * m_mean c i 0 /\ m_var (marginal_scale c s) i 0 = s ^+ 2 * m_var c i 0).
Proof.
rewrite /= !mxE !expr2; have E : (m_var c i 0 *+ (i == j)) = if i == j then m_var c i 0 else 0 by case: (i == j).
by rewrite E; repeat split.
Qed.
Print Assumptions C62_moments.

(* ---- taking marginals commutes with everything ---- *)
Theorem C62_marginal n (a b : jd n) (c : md n) (s : R) :
  joint_marginal (joint_add a b) = marginal_add (joint_marginal a) (joint_marginal b) /\
  joint_marginal (joint_sub a b) = marginal_sub (joint_marginal a) (joint_marginal b) /\
  joint_marginal (joint_add_marginal a c) = marginal_add (joint_marginal a) c /\
  joint_marginal (joint_sub_marginal a c) = marginal_sub (joint_marginal a) c /\
  joint_marginal (joint_scale a s) = marginal_scale (joint_marginal a) s /\
  forall k (idx : 'I_k -> 'I_n), joint_marginal (joint_subset idx a) = marginal_subset idx (joint_marginal a).
Proof.
do 5!(split; [by apply: mdP => //=; apply/colP => i; rewrite !mxE ?eqxx|]).
by move=> k idx; apply: mdP => //=; apply/colP => i; rewrite !mxE.
Qed.
Print Assumptions C62_marginal.

(* ---- subsets commute with arithmetic and compose ---- *)
Theorem C62_subset n k (idx : 'I_k -> 'I_n) (a b : jd n) (c d : md n) (s : R) :
  joint_subset idx (joint_add a b) = joint_add (joint_subset idx a) (joint_subset idx b) /\
  joint_subset idx (joint_sub a b) = joint_sub (joint_subset idx a) (joint_subset idx b) /\
  joint_subset idx (joint_scale a s) = joint_scale (joint_subset idx a) s /\
  marginal_subset idx (marginal_add c d) = marginal_add (marginal_subset idx c) (marginal_subset idx d) /\
  marginal_subset idx (marginal_sub c d) = marginal_sub (marginal_subset idx c) (marginal_subset idx d) /\
  marginal_subset idx (marginal_scale c s) = marginal_scale (marginal_subset idx c) s /\
  (injective idx -> joint_subset idx (joint_add_marginal a c) = joint_add_marginal (joint_subset idx a) (marginal_subset idx c)) /\
  (forall l (idx' : 'I_l -> 'I_k), joint_subset idx' (joint_subset idx a) = joint_subset (idx \o idx') a) /\
  (forall l (idx' : 'I_l -> 'I_k), marginal_subset idx' (marginal_subset idx c) = marginal_subset (idx \o idx') c).
Proof.
do 3!(split; [by apply: jdP; apply/matrixP => i j; rewrite !mxE|]).
do 3!(split; [by apply: mdP; apply/matrixP => i j; rewrite !mxE|]).
split; [|split].
- by move=> inj; apply: jdP; apply/matrixP => i j; rewrite !mxE // (inj_eq inj).
- by move=> l idx'; apply: jdP; apply/matrixP => i j; rewrite !mxE.
- by move=> l idx'; apply: mdP; apply/matrixP => i j; rewrite !mxE.
Qed.
Print Assumptions C62_subset.
(* an index taken twice does not commute with added marginal noise: the copies share their noise before, not after *)
Theorem C62_subset_duplicates_refuted : exists (idx : 'I_2 -> 'I_1) (a : jd 1) (c : md 1),
  joint_subset idx (joint_add_marginal a c) <> joint_add_marginal (joint_subset idx a) (marginal_subset idx c).
Proof.
exists (fun _ => 0), (JD 0 0), (MD 0 (const_mx 1)) => /(congr1 (fun d => j_cov d 0 1)); rewrite !mxE /= !add0r.
by move/eqP; rewrite oner_eq0.
Qed.
Print Assumptions C62_subset_duplicates_refuted.

(* ---- laws ---- *)
Theorem C62_laws n (a b c : jd n) (s t : R) :
  joint_add a b = joint_add b a /\
  joint_add a (joint_add b c) = joint_add (joint_add a b) c /\
  joint_sub a b = joint_add a (joint_scale b (-1)) /\
  joint_scale (joint_scale a s) t = joint_scale a (s * t) /\
  joint_scale (joint_add a b) s = joint_add (joint_scale a s) (joint_scale b s) /\
  joint_scale (joint_sub a b) s = joint_sub (joint_scale a s) (joint_scale b s) /\
  joint_scale a 1 = a.
Proof.
split; first by apply: jdP; rewrite /= addrC.
split; first by apply: jdP; rewrite /= addrA.
split; first by apply: jdP; rewrite /= ?scaleN1r // mulrNN mulr1 scale1r.
split; first by apply: jdP; rewrite /= scalerA ?[t * s]mulrC // mulrACA [t * s]mulrC.
split; first by apply: jdP; rewrite /= scalerDr.
split; first by apply: jdP; rewrite /= ?scalerDr ?scalerN.
by apply: jdP; rewrite /= ?mulr1 scale1r.
Qed.
Print Assumptions C62_laws.
(* operands are independent: a + a is not 2 a and a - a is not 0 *)
Theorem C62_independent n (a : jd n) :
  j_cov (joint_add a a) = 2%:R *: j_cov a /\ j_cov (joint_scale a 2%:R) = 4%:R *: j_cov a /\ j_cov (joint_sub a a) = 2%:R *: j_cov a.
Proof. by rewrite /= -natrM scaler_nat mulr2n. Qed.
Print Assumptions C62_independent.

(* covariances stay positive semidefinite *)
Theorem C62_psd n (a b : jd n) (c : md n) (s : R) : psd (j_cov a) -> psd (j_cov b) -> (forall i, 0 <= m_var c i 0) ->
  psd (j_cov (joint_add a b)) /\ psd (j_cov (joint_sub a b)) /\ psd (j_cov (joint_add_marginal a c)) /\
  psd (j_cov (joint_sub_marginal a c)) /\ psd (j_cov (joint_scale a s)) /\
  forall k (idx : 'I_k -> 'I_n), psd (j_cov (joint_subset idx a)).
Proof.
move=> pa pb v0; have pc : psd (diag (m_var c) : 'M[R]_n) by exact: psd_diag.
do 4!(split; first exact: psdD); split; first by apply: psdZ => //; rewrite -expr2 sqr_ge0.
by move=> k idx; exact: psd_mxsub.
Qed.
Print Assumptions C62_psd.

(* ---- matrix * distribution ---- *)
Lemma row_squaresE m n (p : 'M[R]_(m, n)) : row_squares p = \col_i (p *m p^T) i i.
Proof. by apply/colP => i; rewrite !mxE; apply: eq_bigr => j _; rewrite mxE expr2. Qed.
Lemma product_diagonal m n (M : 'M[R]_(m, n)) (v : 'cV[R]_n) : (forall i, 0 <= v i 0) ->
  exists p, product_sqrt_diagonal M v = Some p /\ p *m p^T = M *m diag v *m M^T.
Proof.
move=> v0; rewrite /product_sqrt_diagonal; have -> : [forall i, 0 <= v i 0] by apply/forallP.
eexists; split; first by [].
rewrite trmx_mul /diag tr_diag_mx !mulmxA -(mulmxA M); congr (_ *m _ *m _).
rewrite mulmx_diag; congr diag_mx; apply/rowP => i; rewrite !mxE; apply: R_sqrt.sqrt_sqrt; exact/RleP.
Qed.
(* M d has mean M mu and covariance M C M^T, and its marginal is that of the joint result *)
Theorem C62_transform_joint m n (f : ldlt_state n) (M : 'M[R]_(m, n)) (d : jd n) : factors f (j_cov d) -> psd (j_cov d) ->
  transform_joint_joint f M d = JD (M *m j_mean d) (M *m j_cov d *m M^T) /\
  transform_joint_marginal f M d = joint_marginal (JD (M *m j_mean d) (M *m j_cov d *m M^T)) /\
  psd (j_cov (transform_joint_joint f M d)).
Proof.
move=> fA pA; have D0 := factors_psd fA pA.
have E : product_sqrt_dense M f *m (product_sqrt_dense M f)^T = M *m j_cov d *m M^T.
  by rewrite /product_sqrt_dense sqrt_transposeE trmxK trmx_mul mulmxA -(mulmxA M) (S_sq fA D0).
split; first by apply: jdP => //=; rewrite E.
split; first by apply: mdP => //=; rewrite row_squaresE E.
by rewrite /= E -{1}[M]trmxK; exact: psd_congr.
Qed.
Print Assumptions C62_transform_joint.
Theorem C62_transform_marginal m n (M : 'M[R]_(m, n)) (d : md n) :
  ((forall i, 0 <= m_var d i 0) ->
   transform_marginal_joint M d = Some (JD (M *m m_mean d) (M *m diag (m_var d) *m M^T)) /\
   transform_marginal_marginal M d = Some (joint_marginal (JD (M *m m_mean d) (M *m diag (m_var d) *m M^T)))) /\
  ((exists i, m_var d i 0 < 0) -> transform_marginal_joint M d = None /\ transform_marginal_marginal M d = None).
Proof.
split => [v0|[i vi]].
  rewrite /transform_marginal_joint /transform_marginal_marginal; have [p [-> e]] := product_diagonal M v0.
  by split; congr Some; [apply: jdP|apply: mdP; rewrite /= ?row_squaresE]; rewrite /= ?e.
rewrite /transform_marginal_joint /transform_marginal_marginal /product_sqrt_diagonal.
by have -> : [forall i, 0 <= m_var d i 0] = false by apply/forallP => /(_ i); rewrite leNgt vi.
Qed.
Print Assumptions C62_transform_marginal.
(* a covariance that is not positive semidefinite is changed without notice *)
Theorem C62_transform_indefinite_refuted : exists (f : ldlt_state 1) (d : jd 1), factors f (j_cov d) /\
  transform_joint_joint f 1%:M d = JD 0 0 /\ d = JD 0 (-1)%:M.
Proof.
pose f := LdltState ((-1)%:M : 'M[R]_1) id.
have P1 : transpositions_mx f = 1%:M.
  rewrite /transpositions_mx /transpositions_mul; have -> : enum 'I_1 = [:: 0] by apply: (inj_map val_inj); rewrite val_enum_ord.
  by apply/matrixP => i j; rewrite /= !mxE (ord1 (perm.PermDef.fun_of_perm _ i)) (ord1 i).
have L1 : matrixL f = 1%:M by apply/matrixP => i j; rewrite !mxE (ord1 i) (ord1 j).
exists f, (JD 0 (-1)%:M); split; [|split => //].
  rewrite /factors P1 L1 trmx1 !mul1mx !mulmx1; apply/matrixP => i j; by rewrite !mxE (ord1 i) (ord1 j).
have S0 : S_mx f = 0.
  rewrite /S_mx P1 L1 trmx1 !mul1mx; apply/matrixP => i j; rewrite !mxE (ord1 i) (ord1 j) /= !mulr1n.
  by rewrite ltNge lerN10.
by apply: jdP; rewrite /transform_joint_joint /product_sqrt_dense /= ?sqrt_transposeE ?trmxK ?S0 ?mul1mx ?mul0mx.
Qed.
Print Assumptions C62_transform_indefinite_refuted.
Definition unit1 : ldlt_state 1 := LdltState (1%:M : 'M[R]_1) id.
Example C62_transform_joint_meets : factors unit1 (1%:M : 'M[R]_1) /\ psd (1%:M : 'M[R]_1).
Proof.
split; last by apply: pd_psd; apply: pd_scalar_mx; exact: ltr01.
have P1 : transpositions_mx unit1 = 1%:M.
  rewrite /transpositions_mx /transpositions_mul; have -> : enum 'I_1 = [:: 0] by apply: (inj_map val_inj); rewrite val_enum_ord.
  by apply/matrixP => i j; rewrite /= !mxE (ord1 (perm.PermDef.fun_of_perm _ i)) (ord1 i).
by rewrite /factors P1; apply/matrixP => i j; rewrite (ord1 i) (ord1 j) trmx1 mulmx1 mul1mx !mxE !big_ord_recl !big_ord0 !mxE /= !big_ord_recl !big_ord0 !mxE !mulr1n !mulr1 !addr0.
Qed.

(* ---- comparison ---- *)
Lemma norm_ge0 m n (x : 'M[R]_(m, n)) : 0 <= squared_norm x.
Proof. by apply: sumr_ge0 => i _; apply: sumr_ge0 => j _; exact: sqr_ge0. Qed.
Lemma norm_eq0 m n (x : 'M[R]_(m, n)) : squared_norm x <= 0 -> x = 0.
Proof.
move=> h; have : squared_norm x = 0 by apply/eqP; rewrite eq_le h norm_ge0.
move/eqP; rewrite psumr_eq0 => [/allP z|i _]; last by apply: sumr_ge0 => j _; exact: sqr_ge0.
apply/matrixP => i j; have := z i (mem_index_enum _); rewrite psumr_eq0 => [/allP /(_ j (mem_index_enum _))|k _]; last exact: sqr_ge0.
by rewrite /= sqrf_eq0 mxE => /eqP.
Qed.
Lemma norm0 m n : squared_norm (0 : 'M[R]_(m, n)) = 0.
Proof. by rewrite /squared_norm big1 // => i _; rewrite big1 // => j _; rewrite mxE expr0n. Qed.
Lemma normN m n (x : 'M[R]_(m, n)) : squared_norm (- x) = squared_norm x.
Proof. by apply: eq_bigr => i _; apply: eq_bigr => j _; rewrite mxE sqrrN. Qed.
Lemma min_pos m n (x y : 'M[R]_(m, n)) : 0 <= (if squared_norm y < squared_norm x then squared_norm y else squared_norm x).
Proof. by case: ifP => _; exact: norm_ge0. Qed.
Lemma approx_refl m n (x : 'M[R]_(m, n)) e : is_approx x x e.
Proof. by rewrite /is_approx subrr norm0 mulr_ge0 // ?sqr_ge0 ?min_pos. Qed.
Lemma approx_sym m n (x y : 'M[R]_(m, n)) e : is_approx x y e = is_approx y x e.
Proof. by rewrite /is_approx -normN opprB; congr (_ <= _ * _); case: ltgtP. Qed.
Lemma approx_mono m n (x y : 'M[R]_(m, n)) e e' : 0 <= e <= e' -> is_approx x y e -> is_approx x y e'.
Proof.
case/andP=> e0 h; rewrite /is_approx => k; apply: le_trans k _; apply: ler_wpmul2r; first exact: min_pos.
by rewrite ler_sqr // nnegrE // (le_trans e0).
Qed.
Lemma approx_exact m n (x y : 'M[R]_(m, n)) : is_approx x y 0 -> x = y.
Proof. by rewrite /is_approx expr0n mul0r => /norm_eq0 /eqP; rewrite subr_eq0 => /eqP. Qed.
Lemma approx_zero m n (y : 'M[R]_(m, n)) e : is_approx 0 y e -> y = 0.
Proof.
rewrite /is_approx sub0r normN norm0; have -> : (squared_norm y < 0) = false by apply/negbTE; rewrite -leNgt norm_ge0.
by rewrite mulr0 => /norm_eq0.
Qed.
(* reflexive, symmetric, monotone in epsilon, and exact for epsilon = 0 *)
Theorem C62_approximately_equal n (a b : jd n) (c d : md n) e e' :
  (joint_approximately_equal a a e /\ joint_approximately_equal a b e = joint_approximately_equal b a e /\
   (0 <= e <= e' -> joint_approximately_equal a b e -> joint_approximately_equal a b e') /\
   (joint_approximately_equal a b 0 -> a = b)) /\
  (marginal_approximately_equal c c e /\ marginal_approximately_equal c d e = marginal_approximately_equal d c e /\
   (0 <= e <= e' -> marginal_approximately_equal c d e -> marginal_approximately_equal c d e') /\
   (marginal_approximately_equal c d 0 -> c = d)).
Proof.
rewrite /joint_approximately_equal /marginal_approximately_equal !approx_refl.
have S := approx_sym.
split; split => //; split; try by congr (_ && _); exact: S.
all: split.
- by move=> h /andP[/(approx_mono h) -> /(approx_mono h) ->].
- by case/andP=> /approx_exact h /approx_exact h'; apply: jdP.
- by move=> h /andP[/(approx_mono h) -> /(approx_mono h) ->].
- by case/andP=> /approx_exact h /approx_exact h'; apply: mdP.
Qed.
Print Assumptions C62_approximately_equal.
(* the comparison is relative: nothing but zero is close to zero, whatever epsilon is *)
Theorem C62_approximately_zero n (a b : jd n) e : j_mean a = 0 -> joint_approximately_equal a b e -> j_mean b = 0.
Proof. by rewrite /joint_approximately_equal => -> /andP[/approx_zero]. Qed.
Print Assumptions C62_approximately_zero.

(* ---- concatenation ---- *)
Section Concatenate.
Variable T : Type.
Variable uninitialized : T.
Definition valid (d : lists T) : Prop := length (l_mean d) = length (l_var d).
Lemma assign_value (p r block : list T) u : length block = u ->
  middle_rows_assign (List.app p (List.app (List.repeat uninitialized u) r)) (length p) u block = Base.Ok (List.app p (List.app block r)).
Proof.
move=> e; rewrite /middle_rows_assign -!plusE !List.app_length List.repeat_length.
have -> : Nat.leb (Nat.add (length p) u) (Nat.add (length p) (Nat.add u (length r))) = true by apply/Nat.leb_le; lia.
rewrite e Nat.eqb_refl; congr (Base.Ok _).
rewrite List.firstn_app Nat.sub_diag /= List.app_nil_r List.firstn_all; congr (List.app _ (List.app _ _)).
rewrite List.skipn_app List.skipn_all2 /=; last by lia.
have -> : Nat.sub (Nat.add (length p) u) (length p) = u by lia.
rewrite List.skipn_app List.repeat_length Nat.sub_diag List.skipn_all2 ?List.repeat_length //.
Qed.
Lemma loop_value (dists : list (lists T)) (pm pv : list T) : length pm = length pv -> List.Forall valid dists ->
  let size := List.fold_right (fun d s => Nat.add (length (l_mean d)) s) 0%N dists in
  concatenate_loop dists (length pm) (List.app pm (List.repeat uninitialized size)) (List.app pv (List.repeat uninitialized size)) =
  Base.Ok (List.app pm (List.concat (List.map (@l_mean T) dists)), List.app pv (List.concat (List.map (@l_var T) dists))).
Proof.
elim: dists pm pv => [|d dists IH] pm pv e H /=; first by [].
inversion_clear H as [|? ? Vd Vr]; rewrite List.repeat_app assign_value //= e assign_value //=.
rewrite !List.app_assoc; have := IH (List.app pm (l_mean d)) (List.app pv (l_var d)).
by rewrite !List.app_length e -plusE => -> //; rewrite Vd.
Qed.
Lemma sizes (dists : list (lists T)) : List.fold_left (fun size dist => size + length (l_mean dist))%N dists 0%N =
  List.fold_right (fun d s => Nat.add (length (l_mean d)) s) 0%N dists.
Proof.
suff E a : List.fold_left (fun size dist => size + length (l_mean dist))%N dists a =
  (a + List.fold_right (fun d s => Nat.add (length (l_mean d)) s) 0%N dists)%coq_nat by rewrite E.
elim: dists a => [|d dists IH] a /=; first by lia.
by rewrite IH -plusE; lia.
Qed.
(* the result lists the means and the variances in order, and every entry was written *)
Theorem C62_concatenate (dists : list (lists T)) : List.Forall valid dists ->
  concatenate_all uninitialized dists = Base.Ok (Lists (List.concat (List.map (@l_mean T) dists)) (List.concat (List.map (@l_var T) dists))).
Proof.
move=> H; case: dists H => [//|d dists] H; rewrite /concatenate_all sizes.
by have := @loop_value (d :: dists) nil nil erefl H; rewrite /= => ->.
Qed.
Lemma loop_abort (dists : list (lists T)) (pm pv : list T) : length pm = length pv -> ~ List.Forall valid dists ->
  let size := List.fold_right (fun d s => Nat.add (length (l_mean d)) s) 0%N dists in
  concatenate_loop dists (length pm) (List.app pm (List.repeat uninitialized size)) (List.app pv (List.repeat uninitialized size)) = Base.Abort.
Proof.
elim: dists pm pv => [|d dists IH] pm pv e H /=; first by case: H; constructor.
rewrite List.repeat_app assign_value //=.
case: (Nat.eq_dec (length (l_mean d)) (length (l_var d))) => Vd.
  rewrite e assign_value //=; rewrite !List.app_assoc; have := IH (List.app pm (l_mean d)) (List.app pv (l_var d)).
  rewrite !List.app_length e -plusE => -> //; first by rewrite Vd.
  by move=> V; apply: H; constructor.
rewrite {1}/middle_rows_assign; case: ifP => // _; by move/Nat.eqb_neq: Vd => ->.
Qed.
(* and a distribution with another number of variances than means is an assertion *)
Theorem C62_concatenate_sizes (dists : list (lists T)) : ~ List.Forall valid dists -> concatenate_all uninitialized dists = Base.Abort.
Proof.
move=> H; case: dists H => [|d dists] H; first by case: H; constructor.
by rewrite /concatenate_all sizes; have := @loop_abort (d :: dists) nil nil erefl H; rewrite /= => ->.
Qed.
(* the two-argument form is the same, and operator[] finds the elements of either part *)
Theorem C62_concatenate_two (x y : lists T) : valid x -> valid y ->
  concatenate_all uninitialized [:: x; y] = Base.Ok (concatenate_two x y) /\
  (forall k, (k < length (l_mean x))%coq_nat -> element (concatenate_two x y) k = element x k) /\
  (forall k, element (concatenate_two x y) (length (l_mean x) + k) = element y k).
Proof.
move=> vx vy; split; first by rewrite C62_concatenate ?List.app_nil_r /= ?List.app_nil_r //; do ![constructor].
split => k.
  by move=> h; rewrite /element /= !List.nth_error_app1 // -vx.
rewrite /element /= -!plusE !List.nth_error_app2 -?vx; try lia.
by have -> : Nat.sub (Nat.add (length (l_mean x)) k) (length (l_mean x)) = k by lia.
Qed.
(* operator[] *)
Theorem C62_element (d : lists T) k : valid d ->
  (forall m v, element d k = Base.Ok (m, v) <-> List.nth_error (l_mean d) k = Some m /\ List.nth_error (l_var d) k = Some v) /\
  ((length (l_mean d) <= k)%coq_nat <-> element d k = Base.Abort).
Proof.
move=> h; rewrite /element; case E : List.nth_error => [m|]; case E' : List.nth_error => [v|]; split.
- by move=> m' v'; split=> [[<- <-]|[[->] [->]]].
- split => //; move/List.nth_error_None; by rewrite E.
- by move=> m' v'; split=> [|[]].
- by split => //; move/List.nth_error_None: E' => h'; rewrite h.
- by move=> m' v'; split=> [|[]].
- by split => // _; apply/List.nth_error_None.
- by move=> m' v'; split=> [|[]].
- by split => // _; apply/List.nth_error_None.
Qed.
End Concatenate.
Print Assumptions C62_concatenate.
Print Assumptions C62_concatenate_sizes.
Print Assumptions C62_concatenate_two.
Print Assumptions C62_element.
Example C62_concatenate_meets : List.Forall (@valid nat) [:: Lists [:: 1; 2]%N [:: 3; 4]%N; Lists nil nil].
Proof. by do ![constructor]. Qed.

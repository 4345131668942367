(* Proofs for C93. *)
From Coq Require Import Reals Lra Lia.
From Coquelicot Require Import Coquelicot.
From Verif Require Import Base BaseProofs ExtRealModel ExtRealProofs CsvModel SamplersModel SamplersSpec SamplersProofs InvarianceSpec InvarianceAnalysis.
Local Open Scope R_scope.

Lemma is_RInt_const1 (x y v : R) : is_RInt (fun _ => v) x y ((y - x) * v).
Proof. apply (is_RInt_const (V := R_NormedModule)). Qed.

Lemma is_RInt_cut (P : R -> Prop) (dec : forall u, {P u} + {~ P u}) (T A D : R) : 0 <= T <= 1 ->
  (forall u, 0 < u < T -> P u) -> (forall u, T < u < 1 -> ~ P u) ->
  is_RInt (fun u => if dec u then A else D) 0 1 (T * A + (1 - T) * D).
Proof.
  intros HT H1 H2.
  apply (is_RInt_Chasles (V := R_NormedModule) _ 0 T 1 (T * A) ((1 - T) * D)).
  - replace T with (T - 0) at 2 by ring. apply (is_RInt_ext (fun _ => A)); [|apply is_RInt_const1].
    intros u. rewrite Rmin_left, Rmax_right by lra. intros Hu. destruct (dec u) as [|N]; [reflexivity|]. destruct (N (H1 u Hu)).
  - apply (is_RInt_ext (fun _ => D)); [|apply is_RInt_const1].
    intros u. rewrite Rmin_left, Rmax_right by lra. intros Hu. destruct (dec u) as [Y|]; [|reflexivity]. destruct (H2 u Hu Y).
Qed.

(* the acceptance probability *)
Definition accept_prob (c t : R) : R := if Rlt_dec 0 c then Rmin 1 (t / c) else if Rlt_dec 0 t then 1 else 0.
Lemma accept_range c t : 0 <= t -> 0 <= accept_prob c t <= 1.
Proof.
  intros Ht. unfold accept_prob. destruct (Rlt_dec 0 c) as [Hc|Hc]; [|destruct (Rlt_dec 0 t); lra].
  split; [|apply Rmin_l]. apply Rmin_glb; [lra|]. apply Rdiv_le_0_compat; lra.
Qed.
Lemma is_RInt_u c t A D : 0 <= c -> 0 <= t ->
  is_RInt (fun u => if Rlt_dec (u * c) t then A else D) 0 1 (accept_prob c t * A + (1 - accept_prob c t) * D).
Proof.
  intros Hc Ht. apply (is_RInt_cut (fun u => u * c < t)); [apply accept_range, Ht| |]; unfold accept_prob.
  - intros u Hu. destruct (Rlt_dec 0 c) as [H|H].
    + assert (u < t / c) as Hlt by (eapply Rlt_le_trans; [apply Hu|apply Rmin_r]).
      apply (Rmult_lt_compat_r c) in Hlt; [|exact H]. unfold Rdiv in Hlt. rewrite Rmult_assoc, Rinv_l in Hlt by lra. lra.
    + destruct (Rlt_dec 0 t); [|lra]. assert (c = 0) by lra. subst c. lra.
  - intros u Hu. destruct (Rlt_dec 0 c) as [H|H].
    + apply Rle_not_lt. destruct Hu as [Hu Hu1]. assert (t / c <= u) as Hle.
      { unfold Rmin in Hu. destruct (Rle_dec 1 (t / c)); lra. }
      apply (Rmult_le_compat_r c) in Hle; [|exact Hc]. unfold Rdiv in Hle. rewrite Rmult_assoc, Rinv_l in Hle by lra. lra.
    + destruct (Rlt_dec 0 t); [lra|]. assert (c = 0) by lra. subst c. lra.
Qed.

Theorem acceptance n f z r : 0 < z -> z * r <> r -> 0 < f r -> 0 <= f (z * r) ->
  RInt (fun u => if Req_EM_T (next n f z u r) (z * r) then 1 else 0) 0 1 = Rmin 1 (z ^ (n - 1) * f (z * r) / f r).
Proof.
  intros Hz Hne Hr Hzr. assert (0 <= z ^ (n - 1) * f (z * r)) as Ht by (apply Rmult_le_pos; [apply pow_le; lra|exact Hzr]).
  pose proof (is_RInt_u (f r) (z ^ (n - 1) * f (z * r)) 1 0 ltac:(lra) Ht) as E.
  unfold accept_prob in E. destruct (Rlt_dec 0 (f r)); [|lra]. rewrite Rmult_1_r, Rmult_0_r, Rplus_0_r in E.
  rewrite <- (is_RInt_unique _ _ _ _ E). apply RInt_ext. intros u _. unfold next.
  destruct (Rlt_dec _ _); destruct (Req_EM_T _ _); try reflexivity; [destruct n0; reflexivity|].
  destruct Hne; symmetry; assumption.
Qed.

Section Line.
Variable n : nat.
Variable f : R -> R.
Hypothesis Hf : forall x, continuous f x.
Hypothesis Hf0 : forall x, 0 <= f x.

Lemma weight_cont x : continuous (weight n f) x.
Proof.
  unfold weight. apply (continuous_mult (fun r => Rabs r ^ (n - 1)) f); [|apply Hf].
  induction (n - 1)%nat as [|k IH]; cbn; [apply continuous_const|].
  apply (continuous_mult Rabs (fun r => Rabs r ^ k)); [apply continuous_Rabs|exact IH].
Qed.
Lemma weight_pos x : 0 <= weight n f x.
Proof. apply Rmult_le_pos; [apply pow_le, Rabs_pos|apply Hf0]. Qed.

Section Move.
Variable psi : R -> R.
Hypothesis Hpsi : forall x, continuous psi x.

Lemma is_next z r : 0 < z -> is_RInt (fun u => psi (next n f z u r)) 0 1
  (accept_prob (f r) (z ^ (n - 1) * f (z * r)) * psi (z * r) + (1 - accept_prob (f r) (z ^ (n - 1) * f (z * r))) * psi r).
Proof.
  intros Hz. eapply is_RInt_ext; [|apply is_RInt_u; [apply Hf0|apply Rmult_le_pos; [apply pow_le; lra|apply Hf0]]].
  intros u _. cbn. unfold next. destruct (Rlt_dec _ _); reflexivity.
Qed.

Lemma weighted z r : 0 < z -> weight n f r * accept_prob (f r) (z ^ (n - 1) * f (z * r)) = m2 (weight n f) z r.
Proof.
  intros Hz. unfold m2, weight, accept_prob. rewrite Rabs_mult, Rpow_mult_distr, (Rabs_pos_eq z) by lra.
  pose proof (pow_le _ (n - 1) (Rabs_pos r)) as Hr. pose proof (Hf0 r) as H0. pose proof (Hf0 (z * r)) as H1. pose proof (pow_lt z (n - 1) Hz) as H2.
  set (q := Rabs r ^ (n - 1)) in *. set (e := z ^ (n - 1)) in *.
  destruct (Rlt_dec 0 (f r)) as [H|H].
  - rewrite Rmult_comm. rewrite <- (Rmult_1_l (q * f r)) at 2.
    replace (e * q * f (z * r)) with (e * f (z * r) / f r * (q * f r)) by (field; lra).
    rewrite Rmult_comm. assert (0 <= q * f r) as Hq by (apply Rmult_le_pos; lra).
    unfold Rmin. destruct (Rle_dec 1 _) as [Hx|Hx]; destruct (Rle_dec (1 * (q * f r)) _) as [Hy|Hy]; try ring; nra.
  - assert (f r = 0) as E by lra. rewrite E, Rmult_0_r, Rmult_0_l. symmetry. apply Rmin_left. apply Rmult_le_pos; [apply Rmult_le_pos; lra|lra].
Qed.

Variable a : R.
Hypothesis Ha : 1 < a.
Notation w := (weight n f).
Notation z := (zf a).

Lemma inner_ex p r : 0 <= p <= 1 -> ex_RInt (fun u => psi (next n f (z p) u r)) 0 1.
Proof. intros Hp. eexists. apply is_next, zf_pos; assumption. Qed.
Lemma inner_eq p r : 0 <= p <= 1 ->
  w r * RInt (fun u => psi (next n f (z p) u r)) 0 1 = m2 w (z p) r * psi (z p * r) + (w r * psi r - m2 w (z p) r * psi r).
Proof.
  intros Hp. pose proof (zf_pos a Ha p Hp) as Hz. rewrite (is_RInt_unique _ _ _ _ (is_next _ r Hz)).
  rewrite <- weighted by exact Hz. ring.
Qed.

Variable M : R.
Hypothesis HM : 0 < M.
Notation Jf := (Jf a w psi M).
Notation Kf := (Kf a w psi M).

Lemma J_ex p : ex_RInt (fun r => m2 w (z p) r * psi (z p * r)) (- M) M.
Proof.
  apply cont_RInt. intros x. apply (cont_2d_snd (fun p r => m2 w (z p) r * psi (z p * r))).
  apply cont2_J; try assumption. apply weight_cont.
Qed.
Lemma K_ex p : ex_RInt (fun r => m2 w (z p) r * psi r) (- M) M.
Proof.
  apply cont_RInt. intros x. apply (cont_2d_snd (fun p r => m2 w (z p) r * psi r)).
  apply cont2_K; try assumption. apply weight_cont.
Qed.
Lemma I_ex x y : ex_RInt (fun r => w r * psi r) x y.
Proof. apply cont_RInt. intros t. apply (continuous_mult w psi); [apply weight_cont|apply Hpsi]. Qed.

Lemma is_middle p : 0 <= p <= 1 ->
  is_RInt (fun r => w r * RInt (fun u => psi (next n f (z p) u r)) 0 1) (- M) M (Jf p + (before n f psi M - Kf p)).
Proof.
  intros Hp. eapply is_RInt_ext; [intros r _; symmetry; apply inner_eq, Hp|].
  apply (is_RInt_plus (V := R_NormedModule)); [apply (RInt_correct (V := R_CompleteNormedModule)), J_ex|].
  apply (is_RInt_minus (V := R_NormedModule)); apply (RInt_correct (V := R_CompleteNormedModule)); [apply I_ex|apply K_ex].
Qed.
Lemma is_outer : is_RInt (fun p => RInt (fun r => w r * RInt (fun u => psi (next n f (z p) u r)) 0 1) (- M) M) 0 1
  (RInt Jf 0 1 + (before n f psi M - RInt Kf 0 1)).
Proof.
  apply (is_RInt_ext (fun p => Jf p + (before n f psi M - Kf p))).
  - intros p. rewrite Rmin_left, Rmax_right by lra. intros Hp. symmetry. apply is_RInt_unique, is_middle. lra.
  - apply (is_RInt_plus (V := R_NormedModule)).
    + apply (RInt_correct (V := R_CompleteNormedModule)), cont_RInt. intros p. apply J_cont; try assumption. apply weight_cont.
    + apply (is_RInt_minus (V := R_NormedModule)).
      * generalize (before n f psi M). intros v. pose proof (is_RInt_const1 0 1 v) as E. replace ((1 - 0) * v) with v in E by ring. exact E.
      * apply (RInt_correct (V := R_CompleteNormedModule)), cont_RInt. intros p. apply K_cont; try assumption. apply weight_cont.
Qed.

Variable B : R.
Hypothesis HB : forall x, Rabs (psi x) <= B.
Theorem nearly_invariant :
  Rabs (after n f z psi M - before n f psi M) <= a * B * (mass n f (a * M) - mass n f (M / a)).
Proof.
  unfold after. rewrite (is_RInt_unique _ _ _ _ is_outer).
  replace (_ + _ - _) with (RInt Jf 0 1 - RInt Kf 0 1) by ring.
  apply balance; try assumption; [apply weight_cont|apply weight_pos].
Qed.
End Move.

(* no weight beyond M0 *)
Lemma mass_const M0 A A' : 0 < M0 -> (forall r, M0 <= Rabs r -> f r = 0) -> M0 <= A -> M0 <= A' -> mass n f A = mass n f A'.
Proof.
  intros H0 Hz. assert (forall A A', M0 <= A <= A' -> mass n f A = mass n f A') as Hw.
  { clear A A'. intros A A' HA. unfold mass. symmetry. apply Rminus_diag_uniq. rewrite sym_diff by apply weight_cont.
    assert (forall u v, u <= v -> (v <= - M0 \/ M0 <= u) -> RInt (weight n f) u v = 0) as E.
    { intros u v Huv Hc. rewrite (RInt_ext _ (fun _ => 0)).
      - rewrite RInt_const. unfold scal; cbn; unfold mult; cbn. ring.
      - rewrite Rmin_left, Rmax_right by lra. intros x Hx. unfold weight. rewrite Hz; [apply Rmult_0_r|].
        destruct Hc; [rewrite Rabs_left1 by lra|rewrite Rabs_right by lra]; lra. }
    rewrite !E by lra. ring. }
  intros HA HA'. destruct (Rle_dec A A'); [apply Hw; lra|symmetry; apply Hw; lra].
Qed.
Theorem invariant_compact psi a B M0 M : (forall x, continuous psi x) -> (forall x, Rabs (psi x) <= B) -> 1 < a -> 0 < M0 ->
  (forall r, M0 <= Rabs r -> f r = 0) -> a * M0 <= M -> after n f (zf a) psi M = before n f psi M.
Proof.
  intros Hp HB Ha H0 Hz HM. assert (0 < M) by nra.
  pose proof (nearly_invariant psi Hp a Ha M H B HB) as E.
  rewrite (mass_const M0 (a * M) (M / a)) in E; try assumption; [|nra|].
  - rewrite Rminus_eq_0, Rmult_0_r in E. apply Rminus_diag_uniq. destruct (Req_dec (after n f (zf a) psi M - before n f psi M) 0) as [|N]; [assumption|].
    apply Rabs_pos_lt in N. lra.
  - apply (Rmult_le_reg_r a); [lra|]. unfold Rdiv. rewrite Rmult_assoc, Rinv_l by lra. lra.
Qed.

(* finite total weight *)
Theorem invariant_limit psi a B total : (forall x, continuous psi x) -> (forall x, Rabs (psi x) <= B) -> 1 < a ->
  is_lim (mass n f) p_infty (Finite total) ->
  is_lim (fun M => after n f (zf a) psi M - before n f psi M) p_infty (Finite 0).
Proof.
  intros Hp HB Ha HI. apply is_lim_spec. intros eps. cbn [Rbar_locally'].
  apply is_lim_spec in HI. unfold is_lim', Rbar_locally' in HI.
  assert (0 <= B) as HB0 by (eapply Rle_trans; [apply Rabs_pos|apply (HB 0)]).
  assert (0 < eps / (2 * (a * B + 1))) as He by (apply Rdiv_lt_0_compat; [apply cond_pos|nra]).
  destruct (HI (mkposreal _ He)) as [X HX]. cbn [pos] in HX.
  exists (a * (Rabs X + 1)). intros M HM. pose proof (Rabs_pos X) as HX0. pose proof (Rle_abs X) as HXa.
  assert (0 < M) by nra.
  assert (X < M / a) as H1.
  { apply (Rmult_lt_reg_r a); [lra|]. unfold Rdiv. rewrite Rmult_assoc, Rinv_l by lra. nra. }
  assert (X < a * M) as H2 by nra.
  pose proof (HX _ H1) as E1. pose proof (HX _ H2) as E2. rewrite Rminus_0_r.
  eapply Rle_lt_trans; [apply (nearly_invariant psi Hp a Ha M H B HB)|].
  apply Rabs_def2 in E1. apply Rabs_def2 in E2.
  assert (0 <= a * B) as HaB by (apply Rmult_le_pos; lra).
  assert (mass n f (a * M) - mass n f (M / a) <= 2 * (eps / (2 * (a * B + 1)))) as H3 by lra.
  apply (Rle_lt_trans _ (a * B * (2 * (eps / (2 * (a * B + 1)))))); [apply Rmult_le_compat_l; assumption|].
  replace (a * B * (2 * (eps / (2 * (a * B + 1))))) with (eps * (a * B / (a * B + 1))) by (field; lra).
  rewrite <- (Rmult_1_r eps) at 2. apply Rmult_lt_compat_l; [apply cond_pos|].
  apply (Rmult_lt_reg_r (a * B + 1)); [lra|]. unfold Rdiv. rewrite Rmult_assoc, Rinv_l by lra. lra.
Qed.
End Line.

(* ---- the model makes exactly this move ---- *)
Lemma stretch_zf a p : stretch a p = zf a p.
Proof. reflexivity. Qed.

Lemma point_nth y d r i yi di : nth_error y i = Some yi -> nth_error d i = Some di ->
  nth_error (point y d r) i = Some (XFin (yi + r * di)).
Proof.
  intros Hy Hd. unfold point. rewrite nth_error_map. replace (nth_error (combine y d) i) with (Some (yi, di)); [reflexivity|].
  revert d i Hy Hd. induction y as [|y0 y IH]; intros [|d0 d] [|i] Hy Hd; try discriminate; cbn in *.
  - congruence.
  - apply IH; assumption.
Qed.
Lemma point_length y d r : length y = length d -> length (point y d r) = length y.
Proof. intros E. unfold point. rewrite map_length, combine_length. lia. Qed.

Lemma propose_point n z y d r : length y = n -> length d = n -> Forall (fun x => x <> 0) d -> r <> 0 ->
  propose n z (point y d r) (map XFin y) = Ok (point y d (z * r)).
Proof.
  intros Hy Hd Hnz Hr. unfold propose.
  assert (mapM (fun i => v_j <- of_option UB (nth_error (map XFin y) i) ;;
                         v <- of_option UB (nth_error (point y d r) i) ;; Ok (propose_coordinate z v_j v)) (seq 0 n)
          = Ok (point y d (z * r))) as ->.
  { apply mapM_ok. apply Forall2_nth_error_iff. split; [rewrite seq_length, point_length; lia|].
    intros i x q Hx Hq. assert (i < n)%nat as Hi by (rewrite <- (seq_length n 0); apply nth_error_Some; congruence).
    rewrite nth_error_seq in Hx. apply Nat.ltb_lt in Hi as Hi'. rewrite Hi' in Hx. injection Hx as <-. cbn [Nat.add].
    destruct (nth_error y i) as [yi|] eqn:Eyi; [|apply nth_error_None in Eyi; lia].
    destruct (nth_error d i) as [di|] eqn:Edi; [|apply nth_error_None in Edi; lia].
    rewrite (point_nth y d _ i yi di Eyi Edi) in Hq. injection Hq as <-.
    rewrite (point_nth y d _ i yi di Eyi Edi), nth_error_map, Eyi. cbn.
    apply nth_error_In in Edi. rewrite Forall_forall in Hnz. specialize (Hnz _ Edi).
    unfold propose_coordinate, xsub, xopp, xadd, xiszero, Reqb. destruct (Req_EM_T _ _) as [E|_].
    - exfalso. apply (Rmult_integral_contrapositive_currified r di Hr Hnz). lra.
    - unfold xscale. f_equal. f_equal. ring. }
  cbn. rewrite skipn_all2 by (rewrite point_length; lia). rewrite app_nil_r. reflexivity.
Qed.

Lemma pow_ln_exp z k : 0 < z -> exp (INR k * ln z) = z ^ k.
Proof. intros H. rewrite <- Rpower_pow by exact H. reflexivity. Qed.

Section Walker.
Context {G : Type}.
Variable uniform : Z -> Z -> G -> Z * G.
Variable uniform_real : G -> R * G.
Variable lp : list xr -> xr.
Hypothesis Hreal : real_contract uniform_real.

Theorem walker_moves fuel n a ens complement k g y d r l b j g0 l' b' :
  1 < a -> (1 <= n)%nat -> length y = n -> length d = n -> Forall (fun x => x <> 0) d -> r <> 0 ->
  nth_error ens k = Some (SS (point y d r) (XFin l) b) -> lp (point y d r) = XFin l ->
  pick_partner uniform fuel complement ens g = Some (Ok (j, g0)) ->
  nth_error ens j = Some (SS (map XFin y) l' b') ->
  let p := fst (uniform_real g0) in
  let u := fst (uniform_real (snd (uniform_real g0))) in
  let r' := next n (density lp y d) (stretch a p) u r in
  exists accepted, stretch_walker uniform uniform_real lp fuel n a ens (complement, k) g =
    Some (Ok (set_nth ens k (SS (point y d r') (lp (point y d r')) accepted), snd (uniform_real (snd (uniform_real g0))))).
Proof.
  intros Ha Hn Hy Hd Hnz Hr Hk Hl Hpick Hj p u.
  pose proof (Hreal g0) as Hp. fold p in Hp. pose proof (Hreal (snd (uniform_real g0))) as Hu. fold u in Hu.
  set (z := stretch a p). cbn zeta.
  assert (0 < z) as Hz by (apply (zf_pos a Ha p); lra).
  set (r' := next n (density lp y d) z u r).
  unfold stretch_walker, rbind, rlift. rewrite Hk. cbn [of_option bind]. rewrite Hpick, Hj. cbn [of_option bind].
  unfold draw_real. destruct (uniform_real g0) as [p' g1] eqn:E0. cbn in p, u, Hp, Hu. subst p. fold z. cbn [ss_params].
  rewrite propose_point by assumption. cbn [bind snd].
  destruct (uniform_real g1) as [u' g2] eqn:E1. cbn in u, Hu. subst u. cbn [snd ss_log_prob].
  assert (xlog (XFin z) = XFin (ln z)) as ->.
  { unfold xlog, Rltb. destruct (Rlt_dec 0 z); [reflexivity|lra]. }
  assert (INR n - 1 = INR (n - 1)) as -> by (rewrite minus_INR by exact Hn; reflexivity).
  unfold r', next, density. rewrite Hl.
  destruct (lp (point y d (z * r))) as [| v | |] eqn:Ev; cbn [xisfinite]; rewrite ?Bool.andb_false_r.
  all: try (destruct (Rlt_dec _ _) as [Hlt|_]; [exfalso; rewrite Rmult_0_r in Hlt; pose proof (exp_pos l); nra|];
            rewrite Hl; eexists; reflexivity).
  cbn [xscale xadd xsub xopp]. rewrite Bool.andb_true_r.
  assert (xltb (xlog (XFin u')) (XFin (INR (n - 1) * ln z + v + - l)) = true <-> u' * exp l < z ^ (n - 1) * exp v) as Hacc.
  { assert (z ^ (n - 1) * exp v = exp (INR (n - 1) * ln z + v + - l) * exp l) as ->.
    { rewrite <- exp_plus. replace (INR (n - 1) * ln z + v + - l + l) with (INR (n - 1) * ln z + v) by ring.
      rewrite exp_plus, pow_ln_exp by exact Hz. reflexivity. }
    set (q := INR (n - 1) * ln z + v + - l). pose proof (exp_pos l) as Hel. pose proof (exp_pos q) as Heq.
    unfold xlog. unfold Rltb at 1. destruct (Rlt_dec 0 u') as [Hpos|Hpos]; cbn [xltb].
    - unfold Rltb. destruct (Rlt_dec (ln u') q) as [H|H]; split; try reflexivity; try discriminate.
      + intros _. apply Rmult_lt_compat_r; [exact Hel|]. rewrite <- (exp_ln u' Hpos). apply exp_increasing, H.
      + intros Hm. apply Rmult_lt_reg_r in Hm; [|exact Hel]. exfalso. apply H. rewrite <- (ln_exp q). apply ln_increasing; assumption.
    - assert (u' = 0) as -> by lra. unfold Reqb. destruct (Req_EM_T 0 0) as [_|N]; [|destruct (N eq_refl)]. cbn. split; [|reflexivity].
      intros _. rewrite Rmult_0_l. apply Rmult_lt_0_compat; assumption. }
  destruct (Rlt_dec _ _) as [Hlt|Hlt].
  - apply Hacc in Hlt. rewrite Hlt, Ev. eexists. reflexivity.
  - destruct (xltb _ _) eqn:E; [exfalso; apply Hlt, Hacc; reflexivity|]. rewrite Hl. eexists. reflexivity.
Qed.
End Walker.

(* Property C93 of properties.jsonl: the stretch move leaves the target distribution invariant. *)
From Coq Require Import Reals Lra Lia.
From Coquelicot Require Import Coquelicot.
From Verif Require Import Base ExtRealModel CsvModel SamplersModel SamplersSpec InvarianceSpec InvarianceAnalysis InvarianceProofs.
Local Open Scope R_scope.

(* A walker at coordinate r of the line through its partner y moves to [next]: Metropolis's rule
   with the stretch of the first draw and the decision of the second. *)
Theorem C93_move : forall G (uniform : Z -> Z -> G -> Z * G) (uniform_real : G -> R * G) (lp : list xr -> xr),
  real_contract uniform_real ->
  forall fuel n a ens complement k g y d r l b j g0 l' b',
  1 < a -> (1 <= n)%nat -> length y = n -> length d = n -> Forall (fun x => x <> 0) d -> r <> 0 ->
  nth_error ens k = Some (SS (point y d r) (XFin l) b) -> lp (point y d r) = XFin l ->
  pick_partner uniform fuel complement ens g = Some (Ok (j, g0)) ->
  nth_error ens j = Some (SS (map XFin y) l' b') ->
  let p := fst (uniform_real g0) in
  let u := fst (uniform_real (snd (uniform_real g0))) in
  let r' := next n (density lp y d) (stretch a p) u r in
  exists accepted, stretch_walker uniform uniform_real lp fuel n a ens (complement, k) g =
    Some (Ok (set_nth ens k (SS (point y d r') (lp (point y d r')) accepted), snd (uniform_real (snd (uniform_real g0))))).
Proof. intros; eapply walker_moves; eassumption. Qed.
Print Assumptions C93_move.

(* The integrals of [after] exist. *)
Theorem C93_averages_exist : forall n f psi a M, 1 < a -> 0 < M ->
  (forall x, continuous f x) -> (forall x, 0 <= f x) -> (forall x, continuous psi x) ->
  (forall p r, 0 <= p <= 1 -> ex_RInt (fun u => psi (next n f (stretch a p) u r)) 0 1) /\
  (forall p, 0 <= p <= 1 -> ex_RInt (fun r => weight n f r * RInt (fun u => psi (next n f (stretch a p) u r)) 0 1) (- M) M) /\
  ex_RInt (fun p => RInt (fun r => weight n f r * RInt (fun u => psi (next n f (stretch a p) u r)) 0 1) (- M) M) 0 1.
Proof.
  intros n f psi a M Ha HM Hf Hf0 Hpsi. split; [|split].
  - intros p r Hp. apply (inner_ex n f Hf0 psi a Ha p r Hp).
  - intros p Hp. eexists. apply (is_middle n f Hf Hf0 psi Hpsi a Ha M p Hp).
  - eexists. apply (is_outer n f Hf Hf0 psi Hpsi a Ha M HM).
Qed.
Print Assumptions C93_averages_exist.

(* The probability that a proposal is accepted. *)
Theorem C93_acceptance : forall n f z r, 0 < z -> z * r <> r -> 0 < f r -> 0 <= f (z * r) ->
  RInt (fun u => if Req_EM_T (next n f z u r) (z * r) then 1 else 0) 0 1 = Rmin 1 (z ^ (n - 1) * f (z * r) / f r).
Proof. exact acceptance. Qed.
Print Assumptions C93_acceptance.

(* If the coordinate is distributed with density proportional to [weight n f], then the expectation
   of a bounded continuous function after the move is the one before, up to the weight near
   the ends of the interval of integration. *)
Theorem C93_nearly_invariant : forall n f psi a M B, 1 < a -> 0 < M ->
  (forall x, continuous f x) -> (forall x, 0 <= f x) -> (forall x, continuous psi x) -> (forall x, Rabs (psi x) <= B) ->
  Rabs (after n f (stretch a) psi M - before n f psi M) <= a * B * (mass n f (a * M) - mass n f (M / a)).
Proof. intros n f psi a M B Ha HM Hf Hf0 Hpsi HB. exact (nearly_invariant n f Hf Hf0 psi Hpsi a Ha M HM B HB). Qed.
Print Assumptions C93_nearly_invariant.

(* ... exactly, when nothing is outside of [-M0, M0] *)
Theorem C93_invariant_bounded : forall n f psi a B M0 M, 1 < a -> 0 < M0 -> a * M0 <= M ->
  (forall x, continuous f x) -> (forall x, 0 <= f x) -> (forall x, continuous psi x) -> (forall x, Rabs (psi x) <= B) ->
  (forall r, M0 <= Rabs r -> f r = 0) ->
  after n f (stretch a) psi M = before n f psi M.
Proof. intros n f psi a B M0 M Ha H0 HM Hf Hf0 Hpsi HB Hz. exact (invariant_compact n f Hf Hf0 psi a B M0 M Hpsi HB Ha H0 Hz HM). Qed.
Print Assumptions C93_invariant_bounded.

(* ... and in the limit, when the total weight is finite *)
Theorem C93_invariant : forall n f psi a B total, 1 < a ->
  (forall x, continuous f x) -> (forall x, 0 <= f x) -> (forall x, continuous psi x) -> (forall x, Rabs (psi x) <= B) ->
  is_lim (mass n f) p_infty (Finite total) ->
  is_lim (fun M => after n f (stretch a) psi M - before n f psi M) p_infty (Finite 0).
Proof. intros n f psi a B total Ha Hf Hf0 Hpsi HB HI. exact (invariant_limit n f Hf Hf0 psi a B total Hpsi HB Ha HI). Qed.
Print Assumptions C93_invariant.

(* One parameter: the weight is the density itself, wherever the partner is. *)
Theorem C93_one_parameter : forall lp y r,
  weight 1 (density lp [y] [1]) r = match lp [XFin (y + r)] with XFin l => exp l | _ => 0 end.
Proof. intros lp y r. unfold weight, density, point. cbn. rewrite Rmult_1_r, Rmult_1_l. reflexivity. Qed.
Print Assumptions C93_one_parameter.

(* ---- a case that meets the hypotheses: a triangular density ---- *)
Definition ex_lp (ps : list xr) : xr :=
  match ps with [XFin x] => if Rlt_dec (Rabs x) 1 then XFin (ln (1 - Rabs x)) else XNeg | _ => XNaN end.
Lemma ex_density r : density ex_lp [0] [1] r = (1 - Rabs r + Rabs (1 - Rabs r)) * / 2.
Proof.
  unfold density, point, ex_lp. cbn. rewrite Rplus_0_l, Rmult_1_r. destruct (Rlt_dec (Rabs r) 1).
  - rewrite exp_ln by lra. rewrite (Rabs_pos_eq (1 - _)) by lra. lra.
  - rewrite (Rabs_left1 (1 - _)) by lra. lra.
Qed.
Lemma ex_density_cont x : continuous (density ex_lp [0] [1]) x.
Proof.
  apply (continuous_ext (fun r => (1 - Rabs r + Rabs (1 - Rabs r)) * / 2)); [intros; symmetry; apply ex_density|].
  assert (continuous (fun r => 1 - Rabs r) x) as H.
  { apply (continuous_minus (V := R_NormedModule) (fun _ => 1) Rabs); [apply continuous_const|apply continuous_Rabs]. }
  apply (continuous_mult (fun r => 1 - Rabs r + Rabs (1 - Rabs r)) (fun _ => / 2)); [|apply continuous_const].
  apply (continuous_plus (V := R_NormedModule) (fun r => 1 - Rabs r)); [exact H|].
  apply (continuous_comp (fun r => 1 - Rabs r) Rabs); [exact H|apply continuous_Rabs].
Qed.
Example C93_meets : after 1 (density ex_lp [0] [1]) (stretch 2) sin 2 = before 1 (density ex_lp [0] [1]) sin 2 /\
  0 < density ex_lp [0] [1] 0.
Proof.
  split.
  - apply (C93_invariant_bounded 1 _ sin 2 1 1 2); try lra.
    + intros; apply ex_density_cont.
    + intros x. unfold density. destruct (ex_lp _); try lra. apply Rlt_le, exp_pos.
    + intros; apply continuous_sin.
    + intros x. apply Rabs_le. pose proof (SIN_bound x). lra.
    + intros r Hr. rewrite ex_density, (Rabs_left1 (1 - _)) by lra. lra.
  - rewrite ex_density. rewrite Rabs_R0, Rminus_0_r, Rabs_R1. lra.
Qed.
(* a walker at 1/2, its partner at 0, both draws 1/2: the stretch is 9/8 *)
Example C93_move_meets : exists accepted,
  stretch_walker (fun _ _ g => (1%Z, g)) (fun g : unit => (/ 2, g)) ex_lp 1 1 2
    [SS (point [0] [1] (/ 2)) (XFin (ln (/ 2))) true; SS (map XFin [0]) (XFin 0) true] ([0; 1]%nat, 0%nat) tt =
  Some (Ok ([SS (point [0] [1] (9 / 16)) (ex_lp (point [0] [1] (9 / 16))) accepted; SS (map XFin [0]) (XFin 0) true], tt)).
Proof.
  assert (ex_lp (point [0] [1] (/ 2)) = XFin (ln (/ 2))) as El.
  { unfold ex_lp, point. cbn. rewrite Rplus_0_l, Rmult_1_r, (Rabs_pos_eq (/ 2)) by lra.
    destruct (Rlt_dec (/ 2) 1) as [_|N]; [|lra]. do 2 f_equal. lra. }
  destruct (C93_move unit (fun _ _ g => (1%Z, g)) (fun g => (/ 2, g)) ex_lp ltac:(intros g; cbn; lra) 1%nat 1%nat 2
    [SS (point [0] [1] (/ 2)) (XFin (ln (/ 2))) true; SS (map XFin [0]) (XFin 0) true] [0; 1]%nat 0%nat tt [0] [1] (/ 2) (ln (/ 2)) true
    1%nat tt (XFin 0) true) as [acc E]; try reflexivity; try lra; try lia.
  - constructor; [lra|constructor].
  - exact El.
  - exists acc. rewrite E. cbn [fst snd set_nth].
    replace (next 1 (density ex_lp [0] [1]) (stretch 2 (/ 2)) (/ 2) (/ 2)) with (9 / 16); [reflexivity|].
    unfold next. replace (stretch 2 (/ 2)) with (9 / 8) by (unfold stretch; field).
    rewrite !ex_density. destruct (Rlt_dec _ _) as [|N]; [lra|]. exfalso. apply N.
    cbn [Nat.sub pow]. replace (9 / 8 * / 2) with (9 / 16) by field.
    rewrite (Rabs_pos_eq (/ 2)), (Rabs_pos_eq (9 / 16)) by lra.
    rewrite (Rabs_pos_eq (1 - / 2)), (Rabs_pos_eq (1 - 9 / 16)) by lra. lra.
Qed.
(* a density without bounded support: exp (- |r|) *)
Lemma laplace_mass M : 0 < M -> mass 1 (fun r => exp (- Rabs r)) M = 2 - 2 * exp (- M).
Proof.
  intros HM. unfold mass. apply is_RInt_unique.
  replace (2 - 2 * exp (- M)) with (plus (minus (exp 0) (exp (- M))) (minus (- exp (- M)) (- exp (- 0))))
    by (unfold plus, minus, opp; cbn; rewrite Ropp_0, exp_0; ring).
  apply (is_RInt_Chasles (V := R_NormedModule) _ (- M) 0 M).
  - apply (is_RInt_ext (fun r => exp r)).
    + intros r. rewrite Rmin_left, Rmax_right by lra. intros Hr. unfold weight. cbn. rewrite Rabs_left1, Ropp_involutive by lra. ring.
    + apply (is_RInt_derive (V := R_CompleteNormedModule) exp exp).
      * intros x _. auto_derive; [exact I|ring].
      * intros x _. apply continuous_exp.
  - apply (is_RInt_ext (fun r => exp (- r))).
    + intros r. rewrite Rmin_left, Rmax_right by lra. intros Hr. unfold weight. cbn. rewrite Rabs_pos_eq by lra. ring.
    + apply (is_RInt_derive (V := R_CompleteNormedModule) (fun r => - exp (- r)) (fun r => exp (- r))).
      * intros x _. auto_derive; [exact I|ring].
      * intros x _. apply (continuous_comp Ropp exp); [apply (continuous_opp (V := R_NormedModule) (fun x => x)), continuous_id|apply continuous_exp].
Qed.
Example C93_invariant_meets :
  is_lim (fun M => after 1 (fun r => exp (- Rabs r)) (stretch 2) sin M - before 1 (fun r => exp (- Rabs r)) sin M) p_infty (Finite 0).
Proof.
  apply (C93_invariant 1 _ sin 2 1 2); try lra.
  - intros x. apply (continuous_comp (fun r => - Rabs r) exp); [|apply continuous_exp].
    apply (continuous_opp (V := R_NormedModule) Rabs), continuous_Rabs.
  - intros x. apply Rlt_le, exp_pos.
  - intros; apply continuous_sin.
  - intros x. apply Rabs_le. pose proof (SIN_bound x). lra.
  - apply (is_lim_ext_loc (fun M => 2 - 2 * exp (- M))).
    + exists 0. intros M HM. symmetry. apply laplace_mass, HM.
    + replace (Finite 2) with (Finite (2 - 2 * 0)) by (f_equal; ring).
      apply is_lim_minus'; [apply is_lim_const|]. apply (is_lim_scal_l (fun M => exp (- M)) 2 p_infty 0).
      apply (is_lim_comp exp Ropp p_infty 0 m_infty); [apply is_lim_exp_m| |exists 0; intros; discriminate].
      apply (is_lim_opp (fun x => x) p_infty p_infty), is_lim_id.
Qed.

From Coq Require Import Reals String Lra.
From Verif Require Import Base BaseProofs StdMapModel StdMapProofs StringKeyModel MapUtilsModel MapUtilsProofs
  ExtRealModel ExtRealProofs PriorModel ParamsModel ParamsSpec.

Lemma massign_replace {K V} `{OrdKey K} (l r : smap K V) k (v w : V) :
  wf_map (l ++ (k, v) :: r) -> massign k w (l ++ (k, v) :: r) = l ++ (k, w) :: r.
Proof.
  induction l as [|[k1 v1] l IH]; cbn [app]; intros Hw.
  - cbn. rewrite kcmp_refl. reflexivity.
  - apply wf_cons in Hw as [Hw Hf]. cbn. rewrite Forall_forall in Hf.
    assert (klt k1 k) as Hlt. { apply Hf. unfold mkeys. rewrite map_app. apply in_app_iff. right. left. reflexivity. }
    assert (kcmp k k1 = Gt) as -> by (apply kcmp_gt; exact Hlt).
    rewrite IH by exact Hw. reflexivity.
Qed.

(* ---- get_tunable_parameters ---- *)
Definition tp_of (ts : list (string * parameter)) : tunable_parameters :=
  TP (map fst ts) (map (fun kp => seen (snd kp) (p_value (snd kp))) ts)
     (map (fun kp => seen (snd kp) (lb (snd kp))) ts) (map (fun kp => seen (snd kp) (ub (snd kp))) ts).

Lemma get_tunable_spec s :
  (Forall (fun kp => not_outside (snd kp)) (tunables s) /\ get_tunable_parameters s = Ok (tp_of (tunables s))) \/
  (~ Forall (fun kp => not_outside (snd kp)) (tunables s) /\ get_tunable_parameters s = Abort).
Proof.
  unfold get_tunable_parameters.
  assert (forall acc, let r := foldM get_tunable_step s (tp_of acc) in
    (Forall (fun kp => not_outside (snd kp)) (tunables s) /\ r = Ok (tp_of (acc ++ tunables s))) \/
    (~ Forall (fun kp => not_outside (snd kp)) (tunables s) /\ r = Abort)) as Hgen.
  { induction s as [|[k p] s IH]; intros acc; cbn [foldM tunables filter] in *.
    - left. rewrite app_nil_r. auto.
    - unfold get_tunable_step at 1 3. cbn [fst snd]. destruct (param_fixed p) eqn:Ef; cbn [negb bind].
      + apply IH.
      + cbn zeta. unfold assert_then.
        destruct (xltb (p_value p) (lower_bound (p_prior p))) eqn:E1; cbn [negb bind].
        { right. split; [|reflexivity]. intros Hf. inversion Hf as [|? ? [H1 _] _]; subst. unfold lb in H1. cbn in H1. congruence. }
        destruct (xltb (upper_bound (p_prior p)) (p_value p)) eqn:E2; cbn [negb bind].
        { right. split; [|reflexivity]. intros Hf. inversion Hf as [|? ? [_ H1] _]; subst. unfold ub in H1. cbn in H1. congruence. }
        specialize (IH (acc ++ [(k, p)])). cbn zeta in IH.
        assert (TP (tp_names (tp_of acc) ++ [k])
          (tp_values (tp_of acc) ++ [if is_log_scale (p_prior p) then xlog (p_value p) else p_value p])
          (tp_lower (tp_of acc) ++ [if is_log_scale (p_prior p) then xlog (lower_bound (p_prior p)) else lower_bound (p_prior p)])
          (tp_upper (tp_of acc) ++ [if is_log_scale (p_prior p) then xlog (upper_bound (p_prior p)) else upper_bound (p_prior p)])
          = tp_of (acc ++ [(k, p)])) as Etp by (unfold tp_of; rewrite !map_app; reflexivity).
        rewrite Etp. change (filter (fun kp => negb (param_fixed (snd kp))) s) with (tunables s).
        rewrite <- app_assoc in IH. cbn [app] in IH.
        destruct IH as [[H1 H2]|[H1 H2]]; [left|right]; (split; [|exact H2]).
        * constructor; [split; assumption|exact H1].
        * intros Hf. inversion Hf; subst. contradiction. }
  exact (Hgen []).
Qed.

(* ---- set_tunable_params_values ---- *)
Definition new_value (fb : bool) (p : parameter) (v : xr) : xr :=
  if fb then clamp p (unseen p v) else unseen p v.

Fixpoint assign_tunables (fb : bool) (s : store) (x : list xr) : store :=
  match s with
  | [] => []
  | (k, p) :: s' =>
      if param_fixed p then (k, p) :: assign_tunables fb s' x
      else match x with
           | [] => []
           | v :: x' => (k, Param (new_value fb p v) (p_prior p)) :: assign_tunables fb s' x'
           end
  end.

Lemma assign_keys fb s x : length (tunables s) <= length x -> mkeys (assign_tunables fb s x) = mkeys s.
Proof.
  revert x. induction s as [|[k p] s IH]; intros x Hl; [reflexivity|].
  cbn [assign_tunables tunables filter snd] in *. destruct (param_fixed p); cbn [negb length] in *.
  - cbn. f_equal. apply IH, Hl.
  - destruct x as [|v x]; cbn [length] in *; [lia|]. cbn. f_equal. apply IH. unfold tunables. lia.
Qed.

Lemma wf_keys_eq {V W} (a : smap string V) (b : smap string W) : mkeys a = mkeys b -> wf_map a -> wf_map b.
Proof. unfold wf_map, mkeys. intros ->. auto. Qed.

Lemma set_tunable_spec s x fb : wf_map s ->
  set_tunable_params_values s x fb =
    if length x <? length (tunables s) then UB
    else if length (tunables s) <? length x then Abort
    else Ok (assign_tunables fb s x).
Proof.
  intros Hw. unfold set_tunable_params_values.
  assert (forall todo done i rest, length i + length rest = length x -> x = i ++ rest ->
    wf_map (done ++ todo) ->
    foldM (set_tunable_step x fb) todo (done ++ todo, length i) =
      if length rest <? length (tunables todo) then UB
      else Ok (done ++ assign_tunables fb todo rest, length i + length (tunables todo))) as Hgen.
  { induction todo as [|[k p] todo IH]; intros done i rest Hl Hx Hwd.
    - cbn. destruct (Nat.ltb_spec (length rest) 0); [lia|]. rewrite Nat.add_0_r. reflexivity.
    - cbn [foldM tunables filter assign_tunables]. unfold set_tunable_step at 1. cbn [fst snd].
      destruct (param_fixed p) eqn:Ef; cbn [negb bind].
      + assert (done ++ (k, p) :: todo = (done ++ [(k, p)]) ++ todo) as Eapp by (rewrite <- app_assoc; reflexivity).
        rewrite Eapp in *. etransitivity; [exact (IH (done ++ [(k, p)]) i rest Hl Hx Hwd)|].
        rewrite <- app_assoc. reflexivity.
      + cbn [length]. destruct rest as [|v rest].
        * assert (nth_error x (length i) = None) as ->.
          { apply nth_error_None. rewrite Hx, app_nil_r. lia. }
          cbn [of_option bind length]. destruct (Nat.ltb_spec 0 (S (length (filter (fun kp => negb (param_fixed (snd kp))) todo)))); [reflexivity|lia].
        * assert (nth_error x (length i) = Some v) as ->.
          { rewrite Hx, nth_error_app2, Nat.sub_diag by lia. reflexivity. }
          cbn [of_option bind]. cbn zeta.
          assert (mfind k (done ++ (k, p) :: todo) = Some p) as ->.
          { apply mfind_In; [exact Hwd|]. apply in_app_iff. right. left. reflexivity. }
          rewrite massign_replace by exact Hwd.
          assert ((if fb then ensure_value_within_bounds p (if is_log_scale (p_prior p) then xexp v else v)
                   else if is_log_scale (p_prior p) then xexp v else v) = new_value fb p v) as -> by reflexivity.
          set (q := Param (new_value fb p v) (p_prior p)).
          assert (done ++ (k, q) :: todo = (done ++ [(k, q)]) ++ todo) as Eapp by (rewrite <- app_assoc; reflexivity).
          rewrite Eapp.
          assert (S (length i) = length (i ++ [v])) as Ei by (rewrite app_length; cbn; lia). rewrite Ei.
          etransitivity; [apply (IH (done ++ [(k, q)]) (i ++ [v]) rest)|].
          4:{ rewrite <- app_assoc, <- Ei. cbn [app length]. change (filter (fun kp => negb (param_fixed (snd kp))) todo) with (tunables todo).
             destruct (Nat.ltb_spec (length rest) (length (tunables todo)));
             destruct (Nat.ltb_spec (S (length rest)) (S (length (tunables todo)))); try lia; [reflexivity|].
             f_equal. f_equal. lia. }
          -- rewrite app_length. cbn in *. lia.
          -- rewrite <- app_assoc. exact Hx.
          -- eapply wf_keys_eq; [|exact Hwd]. unfold mkeys. rewrite !map_app. cbn. rewrite <- app_assoc. reflexivity. }
  specialize (Hgen s [] [] x eq_refl eq_refl Hw). cbn [app length] in Hgen.
  match goal with |- bind ?e _ = _ => assert (e = _) as -> by exact Hgen end.
  destruct (Nat.ltb_spec (length x) (length (tunables s))); [reflexivity|]. cbn [bind snd fst].
  unfold assert_then. destruct (Nat.eqb_spec (length x) (0 + length (tunables s)));
    destruct (Nat.ltb_spec (length (tunables s)) (length x)); try lia; reflexivity.
Qed.

Lemma mfind_cons_neq {K} `{OrdKey K} (k k1 : K) {V} (v1 : V) m : wf_map ((k1, v1) :: m) -> k <> k1 ->
  mfind k ((k1, v1) :: m) = mfind k m.
Proof.
  intros Hw Hk. cbn. destruct (kcmp k k1) eqn:E.
  - apply kcmp_eq in E. contradiction.
  - apply wf_cons in Hw as [Hw Hf]. symmetry. apply mfind_lt_None. eapply Forall_impl; [|exact Hf].
    intros a Ha. eapply klt_trans; eauto.
  - reflexivity.
Qed.
Lemma mfind_cons_eq {K} `{OrdKey K} (k : K) {V} (v1 : V) m : mfind k ((k, v1) :: m) = Some v1.
Proof. cbn. rewrite kcmp_refl. reflexivity. Qed.

Lemma assign_fixed fb s x k p : wf_map s -> length (tunables s) <= length x ->
  mfind k s = Some p -> param_fixed p = true -> mfind k (assign_tunables fb s x) = Some p.
Proof.
  revert x. induction s as [|[k1 p1] s IH]; intros x Hw Hl Hk Hf; [discriminate|].
  assert (wf_map s) as Hw' by (apply wf_cons in Hw; tauto).
  assert (wf_map (assign_tunables fb ((k1, p1) :: s) x)) as Hwa by (eapply wf_keys_eq; [symmetry; apply assign_keys, Hl|exact Hw]).
  destruct (keq_dec k k1) as [->|Hn].
  - rewrite mfind_cons_eq in Hk. injection Hk as ->. cbn [assign_tunables]. rewrite Hf. apply mfind_cons_eq.
  - rewrite mfind_cons_neq in Hk by assumption. cbn [assign_tunables] in *. cbn [tunables filter snd] in Hl.
    destruct (param_fixed p1); cbn [negb length] in Hl.
    + rewrite mfind_cons_neq by assumption. apply IH; auto.
    + destruct x as [|v x]; cbn [length] in Hl; [lia|]. rewrite mfind_cons_neq by assumption. apply IH; auto. unfold tunables. lia.
Qed.

Lemma assign_tunable_at fb s x i k p v : wf_map s -> length (tunables s) <= length x ->
  nth_error (tunables s) i = Some (k, p) -> nth_error x i = Some v ->
  mfind k (assign_tunables fb s x) = Some (Param (new_value fb p v) (p_prior p)).
Proof.
  revert x i. induction s as [|[k1 p1] s IH]; intros x i Hw Hl Hk Hx; [destruct i; discriminate|].
  assert (wf_map s) as Hw' by (apply wf_cons in Hw; tauto).
  assert (wf_map (assign_tunables fb ((k1, p1) :: s) x)) as Hwa by (eapply wf_keys_eq; [symmetry; apply assign_keys, Hl|exact Hw]).
  assert (forall j, nth_error (tunables s) j = Some (k, p) -> k <> k1) as Hne.
  { intros j Hj ->. apply nth_error_In, filter_In in Hj as [Hj _]. apply wf_cons in Hw as [_ Hf].
    rewrite Forall_forall in Hf. apply (klt_irrefl k1). apply Hf. unfold mkeys. apply in_map_iff. exists (k1, p). auto. }
  cbn [assign_tunables] in *. cbn [tunables filter snd] in Hl, Hk.
  destruct (param_fixed p1) eqn:E1; cbn [negb length] in Hl, Hk.
  - rewrite mfind_cons_neq by eauto. eapply IH; eauto.
  - destruct x as [|v1 x]; cbn [length] in Hl; [lia|]. destruct i as [|i]; cbn in Hk, Hx.
    + injection Hk as -> ->. injection Hx as ->. apply mfind_cons_eq.
    + rewrite mfind_cons_neq by eauto. eapply IH; eauto. unfold tunables. lia.
Qed.

(* reading back *)
Lemma tunables_assign fb s x : length (tunables s) = length x ->
  tunables (assign_tunables fb s x) =
  map (fun kpv => (fst (fst kpv), Param (new_value fb (snd (fst kpv)) (snd kpv)) (p_prior (snd (fst kpv)))))
      (combine (tunables s) x).
Proof.
  revert x. induction s as [|[k p] s IH]; intros x Hl; [reflexivity|].
  cbn [assign_tunables tunables filter snd] in *. destruct (param_fixed p) eqn:E; cbn [negb] in *.
  - cbn [filter snd]. rewrite E. cbn [negb]. apply IH, Hl.
  - destruct x as [|v x]; [discriminate|]. cbn [filter snd combine map fst]. unfold param_fixed in *. cbn [p_prior].
    rewrite E. cbn [negb]. f_equal. apply IH. injection Hl as Hl. exact Hl.
Qed.

Lemma clamp_inside p v : xltb v (lb p) = false -> xltb (ub p) v = false -> clamp p v = v.
Proof. unfold clamp. intros -> ->. reflexivity. Qed.

Lemma assign_read fb s : Forall (fun kp => not_outside (snd kp) /\
    (is_log_scale (p_prior (snd kp)) = true -> p_value (snd kp) = XNaN \/ xleb (XFin 0) (p_value (snd kp)) = true)) (tunables s) ->
  assign_tunables fb s (tp_values (tp_of (tunables s))) = s.
Proof.
  induction s as [|[k p] s IH]; intros Hf; [reflexivity|].
  cbn [assign_tunables tunables filter snd] in *. destruct (param_fixed p) eqn:E; cbn [negb] in *.
  - f_equal. apply IH, Hf.
  - inversion Hf as [|? ? [[H1 H2] H3] Hf']; subst. cbn [snd] in *. cbn [tp_of tp_values map snd].
    unfold tp_of, tunables in IH. cbn in IH. rewrite IH by exact Hf'. f_equal. f_equal.
    destruct p as [v pr]. cbn [p_value p_prior] in *. f_equal. unfold new_value.
    assert (unseen (Param v pr) (seen (Param v pr) v) = v) as ->.
    { unfold unseen, seen. cbn [p_prior]. destruct (is_log_scale pr); [apply xexp_log; auto|reflexivity]. }
    destruct fb; [apply clamp_inside; assumption|reflexivity].
Qed.

Lemma log_scale_positive pr v : prior_constructible pr -> is_log_scale pr = true ->
  xltb v (lower_bound pr) = false -> v = XNaN \/ xleb (XFin 0) v = true.
Proof.
  destruct pr; cbn [is_log_scale prior_constructible lower_bound]; try discriminate. intros [_ [_ H0]] _ Hv. destruct (xisnan v) eqn:E.
  - destruct v; try discriminate. auto.
  - right. assert (lower <> XNaN) by (destruct lower; cbn in H0; congruence).
    assert (v <> XNaN) by (destruct v; cbn in E; congruence).
    eapply xleb_trans; [apply xltb_leb, H0|]. apply xnlt_leb; assumption.
Qed.

(* ---- C24 ---- *)
Lemma clamp_within p v : v <> XNaN -> xleb (lb p) (ub p) = true ->
  xleb (lb p) (clamp p v) = true /\ xleb (clamp p v) (ub p) = true.
Proof.
  intros Hv Hb. destruct (xleb_not_nan _ _ Hb) as [H1 H2]. unfold clamp. destruct (xltb v (lb p)) eqn:E1.
  - split; [apply xleb_refl; exact H1|exact Hb].
  - destruct (xltb (ub p) v) eqn:E2.
    + split; [exact Hb|apply xleb_refl; exact H2].
    + split; apply xnlt_leb; assumption.
Qed.

Lemma params_are_valid_spec s : params_are_valid s = true <-> Forall (fun kp => is_valid (snd kp) = true) s.
Proof.
  induction s as [|[k p] s IH]; cbn; [split; constructor|].
  destruct (is_valid p) eqn:E; cbn [negb].
  - rewrite IH. split; [constructor; auto|]. intros Hf. inversion Hf; auto.
  - split; [discriminate|]. intros Hf. inversion Hf; subst. cbn in *. congruence.
Qed.

Lemma unseen_not_nan p v : v <> XNaN -> unseen p v <> XNaN.
Proof. unfold unseen. destruct (is_log_scale (p_prior p)); [|auto]. destruct v; cbn; congruence. Qed.

Lemma assign_forall (P : parameter -> Prop) fb s x : length (tunables s) = length x ->
  (forall p v, In v x -> param_fixed p = false -> In p (map snd s) -> P (Param (new_value fb p v) (p_prior p))) ->
  (forall p, In p (map snd s) -> param_fixed p = true -> P p) ->
  Forall (fun kp => P (snd kp)) (assign_tunables fb s x).
Proof.
  revert x. induction s as [|[k p] s IH]; intros x Hl H1 H2; [constructor|].
  cbn [assign_tunables tunables filter snd] in *. destruct (param_fixed p) eqn:E; cbn [negb] in *.
  - constructor; [cbn; apply H2; cbn; auto|]. apply IH; cbn in *; auto.
  - destruct x as [|v x]; [discriminate|]. constructor; [cbn; apply H1; cbn; auto|].
    apply IH; cbn in *; auto.
Qed.

(* ---- handlers ---- *)
Lemma separate_wf h : separate h -> wf_map (get_params h) /\ ~ In ""%string (mkeys (get_params h)).
Proof.
  induction h as [s|h IH|l IHl r IHr|s m IHm c IHc|mn ind m IHm c IHc]; cbn [separate get_params].
  - auto.
  - auto.
  - intros [Hl [Hr Hd]]. destruct (IHl Hl) as [Wl El]. destruct (IHr Hr) as [Wr Er].
    destruct (map_join_spec (get_params l) (get_params r) Wl Wr) as [Wj Fj]. split; [exact Wj|].
    rewrite <- mfind_None in * by assumption. rewrite Fj, Er. exact El.
  - intros [Ws [Es [Hm [Hc _]]]]. destruct (IHm Hm) as [Wm Em]. destruct (IHc Hc) as [Wc Ec].
    destruct (map_join_spec _ _ Wm Wc) as [Wj Fj]. destruct (map_join_spec _ _ Ws Wj) as [Wk Fk]. split; [exact Wk|].
    rewrite <- mfind_None in * by assumption. rewrite Fk, Fj, Ec, Em. exact Es.
  - intros [Hm [Hc _]]. destruct (IHm Hm) as [Wm Em]. destruct (IHc Hc) as [Wc Ec].
    destruct (map_join_spec _ _ Wm Wc) as [Wj Fj].
    assert (wf_map (massign measurement_nugget_name mn (map_join (get_params m) (get_params c)))) as W1 by (apply wf_massign, Wj).
    split; [apply wf_massign, W1|]. rewrite <- mfind_None in * by (try apply wf_massign; assumption).
    rewrite mfind_massign_neq by (try discriminate; assumption).
    rewrite mfind_massign_neq by (try discriminate; assumption). rewrite Fj, Ec. exact Em.
Qed.

Lemma disjoint_sym a b : disjoint a b -> disjoint b a.
Proof. intros Hd k Ha Hb. eapply Hd; eauto. Qed.

Lemma mkeys_massign_old {V} (k : string) (v : V) m : wf_map m -> In k (mkeys m) -> mkeys (massign k v m) = mkeys m.
Proof.
  intros Hw Hk. apply mfind_Some_key in Hk as [p Hp]; [|exact Hw].
  apply mfind_In_keys in Hp. apply in_split in Hp as [l [r ->]]. rewrite massign_replace by exact Hw.
  unfold mkeys. rewrite !map_app. reflexivity.
Qed.

Lemma disjoint_keys a a' b : mkeys a = mkeys a' -> disjoint a b -> disjoint a' b.
Proof. unfold disjoint. intros ->. auto. Qed.

Lemma not_in_find {V} (k : string) (m : smap string V) : wf_map m -> mcontains k m = false -> mfind k m = None.
Proof. unfold mcontains. destruct (mfind k m); [discriminate|reflexivity]. Qed.

Lemma h_set_param_spec h : separate h -> forall name param,
  if mcontains name (get_params h)
  then exists h', h_set_param name param h = Ok h' /\ separate h' /\ get_params h' = massign name param (get_params h)
  else h_set_param name param h = Abort.
Proof.
  induction h as [s|h IH|l IHl r IHr|s m IHm c IHc|mn ind m IHm c IHc]; intros Hs name param;
    cbn [separate get_params h_set_param] in *.
  - destruct Hs as [Ws Es]. unfold set_param, modify_param, mcontains.
    destruct (mfind name s) as [p|] eqn:E; cbn [bind]; [|reflexivity].
    eexists. split; [reflexivity|]. cbn. split; [|reflexivity]. split; [apply wf_massign, Ws|].
    rewrite mkeys_massign_old; [exact Es|exact Ws|]. apply mfind_Some_key; eauto.
  - specialize (IH Hs name param). destruct (mcontains name (get_params h)).
    + destruct IH as [h' [-> [H1 H2]]]. cbn. eexists. split; [reflexivity|]. cbn. auto.
    + rewrite IH. reflexivity.
  - destruct Hs as [Hl [Hr Hd]]. destruct (separate_wf l Hl) as [Wl El]. destruct (separate_wf r Hr) as [Wr Er].
    destruct (map_join_spec (get_params l) (get_params r) Wl Wr) as [Wj Fj].
    specialize (IHl Hl name param). specialize (IHr Hr name param).
    unfold mcontains at 1. rewrite Fj.
    destruct (mcontains name (get_params l)) eqn:Cl.
    + assert (In name (mkeys (get_params l))) as Il by (apply mcontains_spec; assumption).
      assert (mfind name (get_params r) = None) as Er'.
      { apply mfind_None; [exact Wr|]. intros Ir. eapply Hd; eauto. }
      rewrite Er'. destruct (proj1 (mfind_Some_key name (get_params l) Wl) Il) as [p Hp]. rewrite Hp.
      destruct (String.eqb_spec name "") as [->|_]; [contradiction|]. cbn [negb assert_then].
      destruct IHl as [l' [-> [H1 H2]]]. cbn [bind]. eexists. split; [reflexivity|]. cbn [separate get_params].
      rewrite H2. destruct (map_join_spec (massign name param (get_params l)) (get_params r)) as [Wj' Fj'];
        [apply wf_massign, Wl|exact Wr|].
      split; [split; [exact H1|split; [exact Hr|]]|].
      * eapply disjoint_keys; [|exact Hd]. symmetry. apply mkeys_massign_old; assumption.
      * apply map_ext_find; [exact Wj'|apply wf_massign, Wj|]. intros k. rewrite Fj', !mfind_massign by assumption. rewrite Fj.
        destruct (keqb_spec k name) as [->|]; [rewrite Er'; reflexivity|reflexivity].
    + pose proof (not_in_find _ _ Wl Cl) as El'. rewrite El'.
      destruct (mcontains name (get_params r)) eqn:Cr.
      * assert (In name (mkeys (get_params r))) as Ir by (apply mcontains_spec; assumption).
        destruct (proj1 (mfind_Some_key name (get_params r) Wr) Ir) as [p Hp]. rewrite Hp.
        destruct (String.eqb_spec name "") as [->|_]; [contradiction|]. cbn [negb assert_then].
        destruct IHr as [r' [-> [H1 H2]]]. cbn [bind]. eexists. split; [reflexivity|]. cbn [separate get_params].
        rewrite H2. destruct (map_join_spec (get_params l) (massign name param (get_params r))) as [Wj' Fj'];
          [exact Wl|apply wf_massign, Wr|].
        split; [split; [exact Hl|split; [exact H1|]]|].
        -- apply disjoint_sym. eapply disjoint_keys; [|apply disjoint_sym, Hd]. symmetry. apply mkeys_massign_old; assumption.
        -- apply map_ext_find; [exact Wj'|apply wf_massign, Wj|]. intros k. rewrite Fj', !mfind_massign by assumption. rewrite Fj.
           destruct (keqb_spec k name) as [->|]; reflexivity.
      * pose proof (not_in_find _ _ Wr Cr) as Er'. rewrite Er'. reflexivity.
  - destruct Hs as [Ws [Es [Hm [Hc [Dsm [Dsc Dmc]]]]]].
    destruct (separate_wf m Hm) as [Wm Em]. destruct (separate_wf c Hc) as [Wc Ec].
    destruct (map_join_spec _ _ Wm Wc) as [Wj Fj]. destruct (map_join_spec _ _ Ws Wj) as [Wk Fk].
    specialize (IHm Hm name param). specialize (IHc Hc name param).
    unfold mcontains at 1. rewrite Fk, Fj.
    destruct (mcontains name s) eqn:Cs.
    + assert (In name (mkeys s)) as Is by (apply mcontains_spec; assumption).
      assert (mfind name (get_params m) = None) as Nm by (apply mfind_None; [exact Wm|]; intros Ir; eapply Dsm; eauto).
      assert (mfind name (get_params c) = None) as Nc by (apply mfind_None; [exact Wc|]; intros Ir; eapply Dsc; eauto).
      rewrite Nm, Nc. destruct (proj1 (mfind_Some_key name s Ws) Is) as [p Hp]. rewrite Hp.
      unfold set_param, modify_param. rewrite Hp. cbn [bind]. eexists. split; [reflexivity|]. cbn [separate get_params].
      destruct (map_join_spec (massign name param s) (map_join (get_params m) (get_params c))) as [Wk' Fk'];
        [apply wf_massign, Ws|exact Wj|].
      assert (mkeys (massign name param s) = mkeys s) as Ek by (apply mkeys_massign_old; assumption).
      split.
      * split; [apply wf_massign, Ws|]. rewrite Ek. split; [exact Es|]. split; [exact Hm|]. split; [exact Hc|].
        split; [eapply disjoint_keys; [symmetry; exact Ek|exact Dsm]|].
        split; [eapply disjoint_keys; [symmetry; exact Ek|exact Dsc]|exact Dmc].
      * apply map_ext_find; [exact Wk'|apply wf_massign, Wk|]. intros k. rewrite Fk', !mfind_massign by assumption. rewrite Fk, Fj.
        destruct (keqb_spec k name) as [->|]; [rewrite Nm, Nc; reflexivity|reflexivity].
    + pose proof (not_in_find _ _ Ws Cs) as Ns. rewrite Ns.
      destruct (mcontains name (get_params c)) eqn:Cc.
      * assert (In name (mkeys (get_params c))) as Ic by (apply mcontains_spec; assumption).
        destruct (proj1 (mfind_Some_key name (get_params c) Wc) Ic) as [p Hp]. rewrite Hp.
        destruct (String.eqb_spec name "") as [->|_]; [contradiction|]. cbn [negb assert_then].
        destruct IHc as [c' [-> [H1 H2]]]. cbn [bind]. eexists. split; [reflexivity|]. cbn [separate get_params].
        rewrite H2. assert (mkeys (massign name param (get_params c)) = mkeys (get_params c)) as Ek by (apply mkeys_massign_old; assumption).
        destruct (map_join_spec (get_params m) (massign name param (get_params c))) as [Wj' Fj']; [exact Wm|apply wf_massign, Wc|].
        destruct (map_join_spec s (map_join (get_params m) (massign name param (get_params c)))) as [Wk' Fk']; [exact Ws|exact Wj'|].
        split.
        -- split; [exact Ws|]. split; [exact Es|]. split; [exact Hm|]. split; [exact H1|]. split; [exact Dsm|].
           split; apply disjoint_sym; (eapply disjoint_keys; [symmetry; exact Ek|apply disjoint_sym; assumption]).
        -- apply map_ext_find; [exact Wk'|apply wf_massign, Wk|]. intros k. rewrite Fk', Fj', !mfind_massign by assumption. rewrite Fk, Fj.
           destruct (keqb_spec k name) as [->|]; reflexivity.
      * pose proof (not_in_find _ _ Wc Cc) as Nc. rewrite Nc.
        destruct (mcontains name (get_params m)) eqn:Cm.
        -- assert (In name (mkeys (get_params m))) as Im by (apply mcontains_spec; assumption).
           destruct (proj1 (mfind_Some_key name (get_params m) Wm) Im) as [p Hp]. rewrite Hp.
           destruct (String.eqb_spec name "") as [->|_]; [contradiction|]. cbn [negb assert_then].
           destruct IHm as [m' [-> [H1 H2]]]. cbn [bind]. eexists. split; [reflexivity|]. cbn [separate get_params].
           rewrite H2. assert (mkeys (massign name param (get_params m)) = mkeys (get_params m)) as Ek by (apply mkeys_massign_old; assumption).
           destruct (map_join_spec (massign name param (get_params m)) (get_params c)) as [Wj' Fj']; [apply wf_massign, Wm|exact Wc|].
           destruct (map_join_spec s (map_join (massign name param (get_params m)) (get_params c))) as [Wk' Fk']; [exact Ws|exact Wj'|].
           split.
           ++ split; [exact Ws|]. split; [exact Es|]. split; [exact H1|]. split; [exact Hc|].
              split; [apply disjoint_sym; eapply disjoint_keys; [symmetry; exact Ek|apply disjoint_sym; assumption]|].
              split; [exact Dsc|]. eapply disjoint_keys; [symmetry; exact Ek|assumption].
           ++ apply map_ext_find; [exact Wk'|apply wf_massign, Wk|]. intros k. rewrite Fk', Fj', !mfind_massign by assumption. rewrite Fk, Fj.
              destruct (keqb_spec k name) as [->|]; [rewrite Nc; reflexivity|reflexivity].
        -- pose proof (not_in_find _ _ Wm Cm) as Nm. rewrite Nm. reflexivity.
  - destruct Hs as [Hm [Hc [Dmc [Nmm [Nmc [Nim Nic]]]]]].
    destruct (separate_wf m Hm) as [Wm Em]. destruct (separate_wf c Hc) as [Wc Ec].
    destruct (map_join_spec _ _ Wm Wc) as [Wj Fj].
    specialize (IHm Hm name param). specialize (IHc Hc name param).
    assert (forall (j : store) a b, wf_map j -> wf_map (massign inducing_nugget_name a (massign measurement_nugget_name b j)))
      as Wi by (intros; apply wf_massign, wf_massign; assumption).
    assert (forall (j : store) a b k, wf_map j -> mfind k (massign inducing_nugget_name a (massign measurement_nugget_name b j)) =
      if keqb k inducing_nugget_name then Some a else if keqb k measurement_nugget_name then Some b else mfind k j) as Fi.
    { intros j a b k Wjj. rewrite mfind_massign by (apply wf_massign; exact Wjj). rewrite mfind_massign by exact Wjj. reflexivity. }
    unfold mcontains at 1. rewrite Fi, Fj by exact Wj.
    destruct (String.eqb_spec name measurement_nugget_name) as [->|N1].
    + change (keqb measurement_nugget_name inducing_nugget_name) with false. rewrite keqb_refl.
      eexists. split; [reflexivity|]. cbn [separate get_params]. split; [tauto|].
      apply map_ext_find; [apply Wi, Wj|apply wf_massign, Wi, Wj|]. intros k. rewrite Fi by exact Wj. rewrite mfind_massign by (apply Wi; exact Wj). rewrite Fi by exact Wj.
      destruct (keqb_spec k inducing_nugget_name) as [->|].
      * change (keqb inducing_nugget_name measurement_nugget_name) with false. reflexivity.
      * destruct (keqb_spec k measurement_nugget_name); reflexivity.
    + destruct (String.eqb_spec name inducing_nugget_name) as [->|N2].
      * rewrite keqb_refl. eexists. split; [reflexivity|]. cbn [separate get_params]. split; [tauto|].
        apply map_ext_find; [apply Wi, Wj|apply wf_massign, Wi, Wj|]. intros k. rewrite Fi by exact Wj. rewrite mfind_massign by (apply Wi; exact Wj). rewrite Fi by exact Wj.
        destruct (keqb_spec k inducing_nugget_name) as [->|]; [reflexivity|].
        destruct (keqb_spec k measurement_nugget_name); reflexivity.
      * destruct (keqb_spec name inducing_nugget_name) as [?|_]; [contradiction|].
        destruct (keqb_spec name measurement_nugget_name) as [?|_]; [contradiction|].
        destruct (mcontains name (get_params c)) eqn:Cc.
        -- assert (In name (mkeys (get_params c))) as Ic by (apply mcontains_spec; assumption).
           destruct (proj1 (mfind_Some_key name (get_params c) Wc) Ic) as [p Hp]. rewrite Hp.
           destruct (String.eqb_spec name "") as [->|_]; [contradiction|]. cbn [negb assert_then].
           destruct IHc as [c' [-> [H1 H2]]]. cbn [bind]. eexists. split; [reflexivity|]. cbn [separate get_params].
           rewrite H2. assert (mkeys (massign name param (get_params c)) = mkeys (get_params c)) as Ek by (apply mkeys_massign_old; assumption).
           rewrite Ek.
           destruct (map_join_spec (get_params m) (massign name param (get_params c))) as [Wj' Fj']; [exact Wm|apply wf_massign, Wc|].
           split.
           ++ split; [exact Hm|]. split; [exact H1|]. split; [|tauto].
              apply disjoint_sym; (eapply disjoint_keys; [symmetry; exact Ek|apply disjoint_sym; assumption]).
           ++ apply map_ext_find; [apply Wi, Wj'|apply wf_massign, Wi, Wj|]. intros k. rewrite Fi by exact Wj'.
              rewrite mfind_massign by (apply Wi; exact Wj). rewrite Fi by exact Wj. rewrite Fj', Fj, mfind_massign by exact Wc.
              destruct (keqb_spec k name) as [->|]; [|reflexivity].
              destruct (keqb_spec name inducing_nugget_name) as [?|_]; [contradiction|].
              destruct (keqb_spec name measurement_nugget_name) as [?|_]; [contradiction|]. reflexivity.
        -- pose proof (not_in_find _ _ Wc Cc) as Nc. rewrite Nc.
           destruct (mcontains name (get_params m)) eqn:Cm.
           ++ assert (In name (mkeys (get_params m))) as Im by (apply mcontains_spec; assumption).
              destruct (proj1 (mfind_Some_key name (get_params m) Wm) Im) as [p Hp]. rewrite Hp.
              destruct (String.eqb_spec name "") as [->|_]; [contradiction|]. cbn [negb assert_then].
              destruct IHm as [m' [-> [H1 H2]]]. cbn [bind]. eexists. split; [reflexivity|]. cbn [separate get_params].
              rewrite H2. assert (mkeys (massign name param (get_params m)) = mkeys (get_params m)) as Ek by (apply mkeys_massign_old; assumption).
              rewrite Ek.
              destruct (map_join_spec (massign name param (get_params m)) (get_params c)) as [Wj' Fj']; [apply wf_massign, Wm|exact Wc|].
              split.
              ** split; [exact H1|]. split; [exact Hc|]. split; [|tauto]. eapply disjoint_keys; [symmetry; exact Ek|assumption].
              ** apply map_ext_find; [apply Wi, Wj'|apply wf_massign, Wi, Wj|]. intros k. rewrite Fi by exact Wj'.
                 rewrite mfind_massign by (apply Wi; exact Wj). rewrite Fi by exact Wj. rewrite Fj', Fj, mfind_massign by exact Wm.
                 destruct (keqb_spec k name) as [->|]; [|reflexivity].
                 destruct (keqb_spec name inducing_nugget_name) as [?|_]; [contradiction|].
                 destruct (keqb_spec name measurement_nugget_name) as [?|_]; [contradiction|]. rewrite Nc. reflexivity.
           ++ pose proof (not_in_find _ _ Wm Cm) as Nm. rewrite Nm. reflexivity.
Qed.

(* the union, as a find *)
Lemma separate_name_nonempty h name : separate h -> mcontains name (get_params h) = true -> name <> ""%string.
Proof.
  intros Hs Hc ->. destruct (separate_wf h Hs) as [W E]. apply E. apply mcontains_spec; assumption.
Qed.

Lemma unchecked_set_param_spec h name param : separate h -> mcontains name (get_params h) = true ->
  exists h', unchecked_set_param name param h = Ok h' /\ separate h' /\ get_params h' = massign name param (get_params h).
Proof.
  intros Hs Hc. unfold unchecked_set_param. pose proof (separate_name_nonempty h name Hs Hc) as Hn.
  destruct (String.eqb_spec name ""); [contradiction|]. cbn [negb assert_then].
  pose proof (h_set_param_spec h Hs name param) as Hsp. rewrite Hc in Hsp. exact Hsp.
Qed.

Lemma contains_massign (k k' : string) {V} (v : V) m : wf_map m -> mcontains k m = true -> mcontains k (massign k' v m) = true.
Proof.
  intros Hw. unfold mcontains. rewrite mfind_massign by exact Hw. destruct (keqb k k'); auto.
Qed.

Lemma massign_all_contains (kvs : store) s k : wf_map s -> mcontains k s = true -> mcontains k (massign_all kvs s) = true.
Proof.
  revert s. induction kvs as [|[k1 v1] kvs IH]; intros s Hw Hc; cbn; [exact Hc|].
  apply IH; [apply wf_massign, Hw|]. apply contains_massign; assumption.
Qed.

Lemma unchecked_set_params_spec params : forall h, separate h ->
  Forall (fun kp => mcontains (fst kp) (get_params h) = true) params ->
  exists h', unchecked_set_params params h = Ok h' /\ separate h' /\ get_params h' = massign_all params (get_params h).
Proof.
  unfold unchecked_set_params. induction params as [|[k p] params IH]; intros h Hs Hf; cbn [foldM].
  - exists h. auto.
  - inversion Hf as [|? ? H1 H2]; subst. cbn [fst snd] in *.
    destruct (unchecked_set_param_spec h k p Hs H1) as [h1 [-> [Hs1 G1]]]. cbn [bind].
    destruct (IH h1 Hs1) as [h2 [E2 [Hs2 G2]]].
    + eapply Forall_impl; [|exact H2]. intros [k' p'] Hk. cbn in *. rewrite G1. apply contains_massign; [apply separate_wf, Hs|exact Hk].
    + exists h2. split; [exact E2|]. split; [exact Hs2|]. rewrite G2, G1. reflexivity.
Qed.

Lemma massign_all_same_keys (a b : store) : wf_map a -> wf_map b -> mkeys a = mkeys b -> massign_all a b = a.
Proof.
  intros Wa Wb Hk. apply map_ext_find; [apply massign_all_wf, Wb|exact Wa|]. intros k.
  destruct (mfind k a) as [v|] eqn:E.
  - apply massign_all_NoDup; [exact Wb|apply wf_NoDup, Wa|]. apply mfind_In_keys, E.
  - rewrite massign_all_not_in; [|exact Wb|].
    + apply mfind_None; [exact Wb|]. rewrite <- Hk. apply mfind_None; assumption.
    + apply mfind_None in E; assumption.
Qed.

Lemma unchecked_set_all h params : separate h -> wf_map params -> mkeys params = mkeys (get_params h) ->
  exists h', unchecked_set_params params h = Ok h' /\ separate h' /\ get_params h' = params.
Proof.
  intros Hs Wp Hk. destruct (unchecked_set_params_spec params h Hs) as [h' [E [Hs' G]]].
  - apply Forall_forall. intros [k p] Hin. cbn. apply mcontains_spec; [apply separate_wf, Hs|]. rewrite <- Hk.
    unfold mkeys. apply in_map_iff. exists (k, p). auto.
  - exists h'. split; [exact E|]. split; [exact Hs'|]. rewrite G. apply massign_all_same_keys; auto. apply separate_wf, Hs.
Qed.

Lemma set_params_spec input : forall s, wf_map s ->
  if forallb (fun kp => mcontains (fst kp) s) input
  then set_params input s = Ok (massign_all input s) else set_params input s = Abort.
Proof.
  unfold set_params. induction input as [|[k p] input IH]; intros s Hw; cbn [forallb foldM fst snd]; [reflexivity|].
  assert (set_param k p s = match mfind k s with Some _ => Ok (massign k p s) | None => Abort end) as -> by reflexivity.
  unfold mcontains at 1. destruct (mfind k s) as [q|] eqn:E; cbn [andb bind]; [|reflexivity].
  specialize (IH (massign k p s) (wf_massign k p s Hw)).
  assert (forallb (fun kp => mcontains (fst kp) (massign k p s)) input = forallb (fun kp => mcontains (fst kp) s) input) as Ef.
  { clear IH. induction input as [|[k1 p1] input IH]; [reflexivity|]. cbn. rewrite IH. f_equal.
    unfold mcontains. rewrite mfind_massign by exact Hw. destruct (keqb_spec k1 k) as [->|]; [rewrite E|]; reflexivity. }
  rewrite Ef in IH. exact IH.
Qed.

Lemma massign_all_keys (kvs : store) s : wf_map s -> Forall (fun kp => mcontains (fst kp) s = true) kvs ->
  mkeys (massign_all kvs s) = mkeys s.
Proof.
  revert s. induction kvs as [|[k p] kvs IH]; intros s Hw Hf; cbn; [reflexivity|].
  inversion Hf as [|? ? H1 H2]; subst. cbn in *.
  assert (mkeys (massign k p s) = mkeys s) as Ek by (apply mkeys_massign_old; [exact Hw|apply mcontains_spec; assumption]).
  rewrite <- Ek. apply IH; [apply wf_massign, Hw|].
  eapply Forall_impl; [|exact H2]. intros [k' p'] Hk. cbn in *. apply contains_massign; assumption.
Qed.

Lemma h_set_params_spec h input : separate h ->
  if forallb (fun kp => mcontains (fst kp) (get_params h)) input
  then exists h', h_set_params input h = Ok h' /\ separate h' /\ get_params h' = massign_all input (get_params h)
  else h_set_params input h = Abort.
Proof.
  intros Hs. destruct (separate_wf h Hs) as [W E]. unfold h_set_params.
  pose proof (set_params_spec input (get_params h) W) as Hp.
  destruct (forallb (fun kp => mcontains (fst kp) (get_params h)) input) eqn:Ef; rewrite Hp; cbn [bind]; [|reflexivity].
  apply unchecked_set_all; [exact Hs|apply massign_all_wf, W|].
  apply massign_all_keys; [exact W|]. apply Forall_forall. rewrite forallb_forall in Ef. exact Ef.
Qed.

Lemma h_set_param_value_spec h name value : separate h ->
  match mfind name (get_params h) with
  | Some p => exists h', h_set_param_value name value h = Ok h' /\ separate h' /\
      get_params h' = massign name (Param value (p_prior p)) (get_params h)
  | None => h_set_param_value name value h = Abort
  end.
Proof.
  intros Hs. destruct (separate_wf h Hs) as [W E]. unfold h_set_param_value, set_param_value, modify_param.
  destruct (mfind name (get_params h)) as [p|] eqn:Ep; cbn [bind]; [|reflexivity].
  unfold mat. rewrite mfind_massign_eq by exact W. cbn [bind].
  apply unchecked_set_param_spec; [exact Hs|]. unfold mcontains. rewrite Ep. reflexivity.
Qed.

Lemma h_set_param_prior_spec h name pr : separate h ->
  match mfind name (get_params h) with
  | Some p => exists h', h_set_param_prior name pr h = Ok h' /\ separate h' /\
      get_params h' = massign name (Param (p_value p) pr) (get_params h)
  | None => h_set_param_prior name pr h = Abort
  end.
Proof.
  intros Hs. destruct (separate_wf h Hs) as [W E]. unfold h_set_param_prior, set_param_prior, modify_param.
  destruct (mfind name (get_params h)) as [p|] eqn:Ep; cbn [bind]; [|reflexivity].
  unfold mat. rewrite mfind_massign_eq by exact W. cbn [bind].
  apply unchecked_set_param_spec; [exact Hs|]. unfold mcontains. rewrite Ep. reflexivity.
Qed.

Lemma h_set_tunable_spec h x fb : separate h -> length x = length (tunables (get_params h)) ->
  exists h', h_set_tunable_params_values x fb h = Ok h' /\ separate h' /\
    get_params h' = assign_tunables fb (get_params h) x.
Proof.
  intros Hs Hl. destruct (separate_wf h Hs) as [W E]. unfold h_set_tunable_params_values.
  rewrite set_tunable_spec by exact W. rewrite Hl, Nat.ltb_irrefl. cbn [bind].
  assert (mkeys (assign_tunables fb (get_params h) x) = mkeys (get_params h)) as Ek by (apply assign_keys; lia).
  pose proof (h_set_params_spec h (assign_tunables fb (get_params h) x) Hs) as Hp.
  assert (forallb (fun kp => mcontains (fst kp) (get_params h)) (assign_tunables fb (get_params h) x) = true) as Ef.
  { apply forallb_forall. intros [k p] Hin. cbn. apply mcontains_spec; [exact W|]. rewrite <- Ek.
    unfold mkeys. apply in_map_iff. exists (k, p). auto. }
  rewrite Ef in Hp. destruct Hp as [h' [H1 [H2 H3]]]. exists h'. split; [exact H1|]. split; [exact H2|].
  rewrite H3. apply massign_all_same_keys; [|exact W|exact Ek]. eapply wf_keys_eq; [symmetry; exact Ek|exact W].
Qed.

(* a name owned by both sides *)
Lemma shared_name l r name param h' : wf_map (get_params l) -> wf_map (get_params r) ->
  mcontains name (get_params l) = true -> mcontains name (get_params r) = true ->
  h_set_param name param (Compose l r) = Ok h' ->
  exists l', h' = Compose l' r /\ (wf_map (get_params l') -> mfind name (get_params h') = mfind name (get_params (Compose l r))).
Proof.
  intros Wl Wr Cl Cr E. cbn [h_set_param] in E. rewrite Cl in E. unfold assert_then in E.
  destruct (negb (name =? "")%string); [|discriminate].
  destruct (h_set_param name param l) as [l'| | |]; try discriminate. cbn in E. injection E as <-.
  exists l'. split; [reflexivity|]. intros Wl'. cbn [get_params].
  destruct (map_join_spec (get_params l') (get_params r) Wl' Wr) as [_ F1].
  destruct (map_join_spec (get_params l) (get_params r) Wl Wr) as [_ F2]. rewrite F1, F2.
  unfold mcontains in Cr. destruct (mfind name (get_params r)); [reflexivity|discriminate].
Qed.

(* if_exists *)
Lemma set_params_if_exists_spec input : forall s, wf_map s -> NoDup (mkeys input) ->
  let r := set_params_if_exists input s in
  fst r = (0 <? length input) && forallb (fun kp => mcontains (fst kp) s) input /\
  wf_map (snd r) /\ mkeys (snd r) = mkeys s /\
  forall k, mfind k (snd r) = match mfind k s with
                              | None => None
                              | Some p => match find (fun kp => keqb (fst kp) k) input with
                                          | Some (_, q) => Some q
                                          | None => Some p
                                          end
                              end.
Proof.
  intros s Hw Hnd. unfold set_params_if_exists.
  generalize (0 <? length input) as b. revert s Hw.
  induction input as [|[k p] input IH]; intros s Hw b; cbn zeta in *.
  - cbn. rewrite Bool.andb_true_r. repeat split; auto. intros k. destruct (mfind k s); reflexivity.
  - cbn [fold_left forallb find fst snd]. unfold set_param_if_exists, modify_param_if_exists.
    inversion Hnd as [|? ? Hn Hnd']; subst.
    destruct (mfind k s) as [q|] eqn:E.
    + assert (In k (mkeys s)) as Hk by (apply mfind_Some_key; eauto).
      destruct (IH Hnd' (massign k p s) (wf_massign k p s Hw) (b && true)) as [H1 [H2 [H3 H4]]].
      unfold set_param_if_exists, modify_param_if_exists in H1, H2, H3, H4.
      rewrite H1. split; [|split; [exact H2|split]].
      * unfold mcontains at 2. rewrite E. rewrite !Bool.andb_true_r, Bool.andb_true_l. f_equal.
        apply eq_true_iff_eq. rewrite !forallb_forall.
        assert (forall k1, mcontains k1 (massign k p s) = mcontains k1 s) as Ec.
        { intros k1. unfold mcontains. rewrite mfind_massign by exact Hw. destruct (keqb_spec k1 k) as [->|]; [rewrite E|]; reflexivity. }
        split; intros Hx x Hin; specialize (Hx x Hin); rewrite Ec in *; exact Hx.
      * rewrite H3. apply mkeys_massign_old; assumption.
      * intros k'. rewrite H4, mfind_massign by exact Hw.
        destruct (keqb_spec k' k) as [->|Hkk].
        -- rewrite E, keqb_refl.
           destruct (find (fun kp => keqb (fst kp) k) input) as [[k2 q2]|] eqn:Ef; [|reflexivity].
           exfalso. apply find_some in Ef as [Hin Heq]. cbn in Heq. destruct (keqb_spec k2 k) as [->|]; [|discriminate].
           apply Hn. apply in_map_iff. exists (k, q2). auto.
        -- destruct (keqb_spec k k') as [->|_]; [contradiction|]. reflexivity.
    + destruct (IH Hnd' s Hw (b && false)) as [H1 [H2 [H3 H4]]].
      unfold set_param_if_exists, modify_param_if_exists in H1, H2, H3, H4.
      rewrite H1. split; [|split; [exact H2|split; [exact H3|]]].
      * unfold mcontains at 2. rewrite E. rewrite !Bool.andb_false_r. reflexivity.
      * intros k'. rewrite H4. destruct (keqb_spec k k') as [->|_]; [rewrite E; reflexivity|reflexivity].
Qed.

Lemma unseen_not_outside p v : prior_constructible (p_prior p) ->
  xleb (seen p (lb p)) v = true -> xleb v (seen p (ub p)) = true ->
  xltb (unseen p v) (lb p) = false /\ xltb (ub p) (unseen p v) = false.
Proof.
  intros Hc H1 H2. unfold seen, unseen, lb, ub in *. destruct (is_log_scale (p_prior p)) eqn:E.
  - destruct (p_prior p); try discriminate. cbn [prior_constructible lower_bound upper_bound] in *. destruct Hc as [_ [Hu Hl]].
    apply xexp_mono_le in H1, H2. rewrite xexp_log in H1, H2 by (right; apply xltb_leb; assumption).
    split; apply xleb_ltb; assumption.
  - split; apply xleb_ltb; assumption.
Qed.

Lemma get_after_set fb s x : Forall (fun kp => prior_constructible (p_prior (snd kp))) s ->
  Forall2 (fun kp v => xleb (seen (snd kp) (lb (snd kp))) v = true /\ xleb v (seen (snd kp) (ub (snd kp))) = true) (tunables s) x ->
  get_tunable_parameters (assign_tunables fb s x) =
  Ok (TP (map fst (tunables s)) x (map (fun kp => seen (snd kp) (lb (snd kp))) (tunables s))
         (map (fun kp => seen (snd kp) (ub (snd kp))) (tunables s))).
Proof.
  intros Hc Hf.
  assert (Forall (fun kp => prior_constructible (p_prior (snd kp))) (tunables s)) as Hc'.
  { apply Forall_forall. intros y Hy. apply filter_In in Hy as [Hy _]. rewrite Forall_forall in Hc. auto. }
  assert (length (tunables s) = length x) as Hl by (eapply Forall2_len; eauto).
  pose proof (tunables_assign fb s x Hl) as Et.
  assert (Forall (fun kp => not_outside (snd kp)) (tunables (assign_tunables fb s x)) /\
    tp_of (tunables (assign_tunables fb s x)) =
    TP (map fst (tunables s)) x (map (fun kp => seen (snd kp) (lb (snd kp))) (tunables s))
         (map (fun kp => seen (snd kp) (ub (snd kp))) (tunables s))) as [H1 H2].
  { rewrite Et. clear Et Hl Hc. revert x Hf Hc'. generalize (tunables s) as ts.
    induction ts as [|[k p] ts IH]; intros x Hf Hc; inversion Hf as [|? v ? x' [Hv1 Hv2] Hf']; subst; [split; [constructor|reflexivity]|].
    inversion Hc as [|? ? Hp Hc']; subst. cbn [snd] in *.
    destruct (IH x' Hf' Hc') as [I1 I2]. destruct (unseen_not_outside p v Hp Hv1 Hv2) as [U1 U2].
    assert (new_value fb p v = unseen p v) as En.
    { unfold new_value. destruct fb; [apply clamp_inside; assumption|reflexivity]. }
    cbn [combine map fst snd]. rewrite En. split.
    - constructor; [split; assumption|exact I1].
    - unfold tp_of in *. cbn [map fst snd p_value p_prior]. injection I2 as J1 J2 J3 J4. rewrite J1, J2, J3, J4.
      f_equal. f_equal. unfold seen, unseen. cbn [p_prior]. destruct (is_log_scale (p_prior p)); [apply xlog_exp|reflexivity]. }
  destruct (get_tunable_spec (assign_tunables fb s x)) as [[_ E]|[E _]]; [|contradiction]. rewrite E, H2. reflexivity.
Qed.

Lemma set_after_get fb s tp : wf_map s -> Forall (fun kp => prior_constructible (p_prior (snd kp))) s ->
  get_tunable_parameters s = Ok tp -> set_tunable_params_values s (tp_values tp) fb = Ok s.
Proof.
  intros Hw Hc E. destruct (get_tunable_spec s) as [[Hf Eg]|[_ Eg]]; [|congruence].
  rewrite Eg in E. injection E as <-. rewrite set_tunable_spec by exact Hw.
  assert (length (tp_values (tp_of (tunables s))) = length (tunables s)) as El by (cbn; apply map_length).
  rewrite El, Nat.ltb_irrefl. rewrite assign_read; [reflexivity|].
  apply Forall_forall. intros kp Hk. rewrite Forall_forall in Hf. specialize (Hf kp Hk). split; [exact Hf|].
  intros Hl. apply filter_In in Hk as [Hk _]. rewrite Forall_forall in Hc.
  eapply log_scale_positive; [apply Hc, Hk|exact Hl|apply Hf].
Qed.

(* the closest point of the bounds *)
Lemma clamp_nearest p l u v : lb p = XFin l -> ub p = XFin u -> (l <= u)%R ->
  exists c, clamp p (XFin v) = XFin c /\ (l <= c <= u)%R /\ forall y, (l <= y <= u)%R -> (Rabs (c - v) <= Rabs (y - v))%R.
Proof.
  intros El Eu Hlu. unfold clamp. rewrite El, Eu. cbn. xcase.
  - exists l. split; [reflexivity|]. split; [lra|]. intros y Hy. rewrite !Rabs_right by lra. lra.
  - exists u. split; [reflexivity|]. split; [lra|]. intros y Hy. rewrite !Rabs_left1 by lra. lra.
  - exists v. split; [reflexivity|]. split; [lra|]. intros y Hy. replace (v - v)%R with 0%R by lra.
    rewrite Rabs_R0. apply Rabs_pos.
Qed.

Lemma set_forced_valid s x out : wf_map s ->
  Forall (fun kp => xleb (lb (snd kp)) (ub (snd kp)) = true) (tunables s) ->
  Forall (fun kp => param_fixed (snd kp) = true -> is_valid (snd kp) = true) s ->
  Forall (fun v => v <> XNaN) x ->
  set_tunable_params_values s x true = Ok out -> params_are_valid out = true.
Proof.
  intros Hw Hb Hfx Hx E. rewrite set_tunable_spec in E by exact Hw.
  destruct (Nat.ltb_spec (length x) (length (tunables s))); [discriminate|].
  destruct (Nat.ltb_spec (length (tunables s)) (length x)); [discriminate|]. injection E as <-.
  apply params_are_valid_spec. apply (assign_forall (fun p => is_valid p = true)); [lia| |].
  - intros p v Hv Hnf Hin. unfold is_valid, within_bounds, new_value. cbn [p_prior p_value].
    rewrite Forall_forall in Hx, Hb. apply in_map_iff in Hin as [[k q] [<- Hin]]. cbn [snd] in *.
    assert (In (k, q) (tunables s)) as Ht by (apply filter_In; cbn; rewrite Hnf; auto).
    destruct (clamp_within q (unseen q v) (unseen_not_nan q v (Hx v Hv)) (Hb _ Ht)) as [C1 C2].
    unfold lb, ub in *. rewrite C1, C2. reflexivity.
  - intros p Hin Hf. rewrite Forall_forall in Hfx. apply in_map_iff in Hin as [kp [<- Hin]]. auto.
Qed.

Lemma params_are_valid_false s : params_are_valid s = false <-> Exists (fun kp => is_valid (snd kp) = false) s.
Proof.
  induction s as [|[k p] s IH]; cbn; [split; [discriminate|intros He; inversion He]|].
  destruct (is_valid p) eqn:E; cbn [negb].
  - rewrite IH. split; [right; auto|]. intros He. inversion He; subst; [cbn in *; congruence|assumption].
  - split; [left; exact E|reflexivity].
Qed.

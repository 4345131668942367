From Coq Require Import Reals Lra Sorted.
From Verif Require Import Base BaseProofs StdMapModel StdMapProofs StringKeyModel IndexingModel IndexingSpec IndexingProofs
  RandomModel RandomProofs ExtRealModel ExtRealProofs ParamsModel ParamsSpec ParamsProofs CsvModel SamplersModel SamplersSpec.

Lemma rbind_ok {G A B} (m : rnd G A) (k : A -> rnd G B) g b g' :
  rbind m k g = Some (Ok (b, g')) <-> exists a g1, m g = Some (Ok (a, g1)) /\ k a g1 = Some (Ok (b, g')).
Proof.
  unfold rbind. split.
  - destruct (m g) as [[[a g1]| | |]|] eqn:E; intros H; try discriminate. eauto.
  - intros [a [g1 [-> H]]]. exact H.
Qed.

Lemma rlift_ok {G A} (o : outcome A) (g : G) a g' : rlift o g = Some (Ok (a, g')) <-> o = Ok a /\ g' = g.
Proof.
  unfold rlift. destruct o as [x| | |]; cbn; split; intros H; try discriminate; try (destruct H; discriminate).
  - injection H as -> ->. auto.
  - destruct H as [H ->]. congruence.
Qed.

Lemma rret_ok {G A} (x : A) (g : G) a g' : rret x g = Some (Ok (a, g')) <-> a = x /\ g' = g.
Proof. unfold rret. split; [intros [= -> ->]; auto|intros [-> ->]; reflexivity]. Qed.

Lemma rassert_ok {G A} b (k : rnd G A) g r g' : rassert b k g = Some (Ok (r, g')) <-> b = true /\ k g = Some (Ok (r, g')).
Proof. unfold rassert. destruct b; split; try (intros H; congruence); auto; try tauto. intros [H _]. discriminate. Qed.

Lemma of_option_ok {A} (err : outcome A) o a : (forall x, err <> Ok x) -> of_option err o = Ok a <-> o = Some a.
Proof. intros H. destruct o; cbn; split; congruence. Qed.

Lemma of_UB_ok {A} (o : option A) a : of_option UB o = Ok a <-> o = Some a.
Proof. apply of_option_ok. discriminate. Qed.

(* ---- folds ---- *)
Lemma rfold_app {G A B} (f : B -> A -> rnd G B) l1 l2 b g r g' :
  rfold f (l1 ++ l2) b g = Some (Ok (r, g')) <->
  exists b1 g1, rfold f l1 b g = Some (Ok (b1, g1)) /\ rfold f l2 b1 g1 = Some (Ok (r, g')).
Proof.
  revert b g. induction l1 as [|x l1 IH]; intros b g; cbn [app rfold].
  - split.
    + intros H. exists b, g. split; [reflexivity|exact H].
    + intros [b1 [g1 [H1 H2]]]. apply rret_ok in H1 as [-> ->]. exact H2.
  - rewrite rbind_ok. split.
    + intros [b0 [g0 [H1 H2]]]. apply IH in H2 as [b1 [g1 [H3 H4]]]. exists b1, g1.
      split; [|exact H4]. apply rbind_ok. eauto.
    + intros [b1 [g1 [H1 H2]]]. apply rbind_ok in H1 as [b0 [g0 [H3 H4]]]. exists b0, g0.
      split; [exact H3|]. apply IH. eauto.
Qed.

Lemma rfold_concat {G A B X} (f : B -> A -> rnd G B) (h : X -> list A) xs b g r g' :
  rfold (fun b x => rfold f (h x) b) xs b g = Some (Ok (r, g')) <->
  rfold f (concat (map h xs)) b g = Some (Ok (r, g')).
Proof.
  revert b g. induction xs as [|x xs IH]; intros b g; cbn [rfold map concat]; [tauto|].
  rewrite rbind_ok, rfold_app. split; intros [b1 [g1 [H1 H2]]]; exists b1, g1; (split; [exact H1|]); apply IH, H2.
Qed.

(* one position at a time: a fold of steps each touching one position *)
Lemma rfold_moves {G T M} (pos : M -> nat) (f : list T -> M -> rnd G (list T)) (R : list T -> M -> T -> Prop) :
  (forall cur m g next g', f cur m g = Some (Ok (next, g')) ->
     exists t, next = set_nth cur (pos m) t /\ pos m < length cur /\ R cur m t) ->
  forall moves ens g final g', NoDup (map pos moves) ->
  rfold f moves ens g = Some (Ok (final, g')) ->
  length final = length ens /\
  (forall i, ~ In i (map pos moves) -> nth_error final i = nth_error ens i) /\
  (forall pre m post, moves = pre ++ m :: post -> exists cur t,
     length cur = length ens /\ nth_error final (pos m) = Some t /\ R cur m t /\
     (forall i, In i (map pos pre) -> nth_error cur i = nth_error final i) /\
     (forall i, ~ In i (map pos pre) -> nth_error cur i = nth_error ens i)).
Proof.
  intros Hstep. induction moves as [|m moves IH]; intros ens g final g' Hnd H; cbn [rfold map] in *.
  - apply rret_ok in H as [-> ->]. split; [reflexivity|]. split; [auto|]. intros pre m post E. destruct pre; discriminate.
  - inversion Hnd as [|? ? Hn Hnd']; subst. apply rbind_ok in H as [cur [g1 [H1 H2]]].
    destruct (Hstep _ _ _ _ _ H1) as [t [-> [Hlt HR]]].
    destruct (IH _ _ _ _ Hnd' H2) as [L [U S]]. rewrite set_nth_length in L.
    split; [exact L|]. split.
    + intros i Hi. rewrite U by (intros Hin; apply Hi; right; exact Hin).
      apply nth_error_set_nth_neq. intros E'. apply Hi. left. exact E'.
    + intros pre m' post E. destruct pre as [|m0 pre].
      * injection E as <- <-. exists ens, t. split; [reflexivity|]. split.
        { rewrite U by exact Hn. apply nth_error_set_nth_eq, Hlt. }
        split; [exact HR|]. split; [intros i []|auto].
      * injection E as <- ->. destruct (S pre m' post eq_refl) as [c [t' [Lc [Ft [HR' [C1 C2]]]]]].
        rewrite set_nth_length in Lc. exists c, t'. split; [exact Lc|]. split; [exact Ft|]. split; [exact HR'|]. split.
        -- intros i [<-|Hi]; [|apply C1, Hi]. cbn in Hn.
           destruct (in_dec Nat.eq_dec (pos m) (map pos pre)) as [Hin|Hin]; [apply C1, Hin|].
           rewrite C2 by exact Hin. rewrite U by exact Hn. reflexivity.
        -- intros i Hi. rewrite C2 by (intros Hin; apply Hi; right; exact Hin).
           apply nth_error_set_nth_neq. intros E'. apply Hi. left. exact E'.
Qed.

Lemma split_indices_spec n s : 0 < s -> split_indices n s =
  Ok (map (fun r => filter (fun i => i mod s =? r) (seq 0 n)) (seq 0 (Nat.min s n))).
Proof.
  intros Hs. unfold split_indices. destruct (build_kfold_spec s (seq 0 n) Hs) as [m [E [Hp [Hk Hin]]]].
  rewrite E. cbn [bind]. f_equal. rewrite seq_length in *.
  assert (forall j l, mfind j m = Some l -> l = filter (fun i => i mod s =? j) (seq 0 n)) as Hf.
  { intros j l Hl. pose proof (kfold_group_is_filter s (seq 0 n) m j l Hs E Hl) as HH. rewrite seq_length in HH. exact HH. }
  rewrite <- Hk. destruct Hp as [Hw _]. clear -Hf Hw. unfold mvals, mkeys. rewrite map_map.
  apply map_ext_in. intros [j l] Hin. cbn [fst snd]. apply Hf. apply mfind_In; assumption.
Qed.

Section Steps.
Context {G : Type}.
Variable uniform : Z -> Z -> G -> Z * G.
Variable uniform_real : G -> R * G.
Variable f : list xr -> xr.
Hypothesis Hint : int_contract uniform.
Hypothesis Hreal : real_contract uniform_real.

Notation stretch_walker := (stretch_walker uniform uniform_real f).
Notation stretch_move_step := (stretch_move_step uniform uniform_real f).

Lemma propose_spec n_dim z xk xj q : propose n_dim z xk xj = Ok q <-> stretched n_dim z xk xj q.
Proof.
  unfold propose, stretched. rewrite bind_ok. split.
  - intros [mv [H1 H2]]. injection H2 as <-. pose proof (mapM_length _ _ _ H1) as Hl. rewrite seq_length in Hl.
    apply mapM_ok in H1. 
    assert (forall i, i < n_dim -> exists vk vj, nth_error xk i = Some vk /\ nth_error xj i = Some vj /\
       nth_error mv i = Some (propose_coordinate z vj vk)) as Hi.
    { intros i Hi. destruct (Forall2_nth_error _ _ _ H1 i i) as [y [Hy E]].
      { rewrite nth_error_seq. destruct (Nat.ltb_spec i n_dim); [reflexivity|lia]. }
      apply bind_ok in E as [vj [E1 E]]. apply bind_ok in E as [vk [E2 E]]. injection E as <-.
      apply of_UB_ok in E1, E2. eauto. }
    assert (n_dim <= length xk) as Hk.
    { destruct n_dim as [|n]; [lia|]. destruct (Hi n) as [vk [_ [E _]]]; [lia|].
      assert (n < length xk); [apply nth_error_Some; congruence|lia]. }
    split; [rewrite app_length, skipn_length; lia|]. split.
    + intros i Hlt. destruct (Hi i Hlt) as [vk [vj [E1 [E2 E3]]]]. exists vk, vj. split; [exact E1|]. split; [exact E2|].
      rewrite nth_error_app1 by lia. rewrite E3. reflexivity.
    + intros i Hge. rewrite nth_error_app2 by lia. rewrite Hl.
      clear -Hge Hk. revert i xk Hge Hk. induction n_dim as [|n IH]; intros i xk Hge Hk; cbn [skipn]; [rewrite Nat.sub_0_r; reflexivity|].
      destruct xk as [|x xk]; [cbn in Hk; lia|]. destruct i as [|i]; [lia|]. cbn. apply IH; cbn in Hk; lia.
  - intros [Hl [H1 H2]]. exists (firstn n_dim q). split.
    + apply mapM_ok. apply Forall2_nth_error_iff.
      assert (n_dim <= length q) as Hq.
      { destruct n_dim as [|n]; [lia|]. destruct (H1 n) as [vk [vj [E _]]]; [lia|].
        assert (n < length xk); [apply nth_error_Some; congruence|lia]. }
      split; [rewrite seq_length, firstn_length; lia|].
      intros i j y Hj Hy. rewrite nth_error_seq in Hj. destruct (Nat.ltb_spec i n_dim) as [Hlt|]; [|discriminate].
      injection Hj as <-. cbn [Nat.add]. destruct (H1 i Hlt) as [vk [vj [E1 [E2 E3]]]]. rewrite E1, E2. cbn [of_option bind].
      f_equal.
      assert (nth_error (firstn n_dim q) i = nth_error q i) as E4.
      { rewrite <- (firstn_skipn n_dim q) at 2. rewrite nth_error_app1; [reflexivity|rewrite firstn_length; lia]. }
      rewrite E4, E3 in Hy. injection Hy as <-. reflexivity.
    + f_equal. apply list_ext. intros i. destruct (Nat.lt_ge_cases i n_dim) as [Hlt|Hge].
      * destruct (H1 i Hlt) as [vk [vj [E1 _]]].
        assert (i < length (firstn n_dim q)) as Hfi.
        { rewrite firstn_length. assert (i < length xk) by (apply nth_error_Some; congruence). lia. }
        rewrite nth_error_app1 by exact Hfi.
        rewrite <- (firstn_skipn n_dim q) at 2. rewrite nth_error_app1 by exact Hfi. reflexivity.
      * rewrite H2 by exact Hge. destruct (Nat.lt_ge_cases (length q) n_dim) as [Hs|Hs].
        { rewrite firstn_all2 by lia. rewrite skipn_all2 by lia. rewrite app_nil_r.
          rewrite (proj2 (nth_error_None q i)) by lia. symmetry. apply nth_error_None. lia. }
        rewrite nth_error_app2 by (rewrite firstn_length; lia). rewrite firstn_length, Nat.min_l by exact Hs.
        rewrite <- (firstn_skipn n_dim xk) at 2. rewrite nth_error_app2 by (rewrite firstn_length; lia).
        rewrite firstn_length, Nat.min_l by lia. reflexivity.
Qed.

Lemma pick_partner_spec fuel complement next g j g' : pick_partner uniform fuel complement next g = Some (Ok (j, g')) ->
  In j complement /\ exists s, nth_error next j = Some s /\ xisfinite (ss_log_prob s) = true.
Proof.
  revert g. induction fuel as [|fuel IH]; intros g H; [discriminate|]. cbn [pick_partner] in H.
  apply rbind_ok in H as [idx [g1 [_ H]]]. apply rbind_ok in H as [j0 [g2 [H1 H]]].
  apply rlift_ok in H1 as [H1 _]. apply of_UB_ok in H1. apply rbind_ok in H as [s [g3 [H2 H]]].
  apply rlift_ok in H2 as [H2 _]. apply of_UB_ok in H2.
  destruct (xisfinite (ss_log_prob s)) eqn:E; [|eapply IH, H]. apply rret_ok in H as [-> _].
  split; [eapply nth_error_In, H1|eauto].
Qed.

(* one move *)
Definition move_result (n_dim : nat) (a : R) (xk xj : sampler_state) (p u : R) (q : list xr) : sampler_state :=
  if xltb (xlog (XFin u)) (xsub (xadd (xscale (INR n_dim - 1) (xlog (XFin (stretch a p)))) (f q)) (ss_log_prob xk))
     && xisfinite (f q)
  then SS q (f q) true else SS (ss_params xk) (ss_log_prob xk) false.

Definition move_rel (n_dim : nat) (a : R) (cur : list sampler_state) (m : list nat * nat) (t : sampler_state) : Prop :=
  exists xk j xj p u q, nth_error cur (snd m) = Some xk /\ In j (fst m) /\ nth_error cur j = Some xj /\
    xisfinite (ss_log_prob xj) = true /\ (0 <= p < 1)%R /\ (0 <= u < 1)%R /\
    stretched n_dim (stretch a p) (ss_params xk) (ss_params xj) q /\ t = move_result n_dim a xk xj p u q.

Lemma stretch_walker_spec fuel n_dim a cur m g next g' :
  stretch_walker fuel n_dim a cur m g = Some (Ok (next, g')) ->
  exists t, next = set_nth cur (snd m) t /\ snd m < length cur /\ move_rel n_dim a cur m t.
Proof.
  destruct m as [complement k]. unfold SamplersModel.stretch_walker. intros H.
  apply rbind_ok in H as [xk [g1 [H1 H]]]. apply rlift_ok in H1 as [H1 ->]. apply of_UB_ok in H1.
  apply rbind_ok in H as [j [g2 [H2 H]]]. apply pick_partner_spec in H2 as [H2 [s [H3 H4]]].
  apply rbind_ok in H as [xj [g3 [H5 H]]]. apply rlift_ok in H5 as [H5 ->]. apply of_UB_ok in H5.
  apply rbind_ok in H as [p [g4 [H6 H]]]. unfold draw_real in H6.
  apply rbind_ok in H as [q [g5 [H7 H]]]. apply rlift_ok in H7 as [H7 ->]. apply propose_spec in H7.
  apply rbind_ok in H as [u [g6 [H8 H]]]. unfold draw_real in H8.
  pose proof (Hreal g2) as Hp. assert (fst (uniform_real g2) = p) as <- by (injection H6 as ->; reflexivity).
  pose proof (Hreal g4) as Hu. assert (fst (uniform_real g4) = u) as <- by (injection H8 as ->; reflexivity).
  exists (move_result n_dim a xk xj (fst (uniform_real g2)) (fst (uniform_real g4)) q). split.
  - unfold move_result. cbn [snd].
    destruct (_ && _); apply rret_ok in H as [-> _]; reflexivity.
  - cbn [snd]. split; [apply nth_error_Some; congruence|].
    exists xk, j, xj, (fst (uniform_real g2)), (fst (uniform_real g4)), q. cbn [fst snd].
    rewrite H3 in H5. injection H5 as <-. repeat (split; [assumption|]). reflexivity.
Qed.

(* all the moves of a step *)
Definition all_moves (n s : nat) : list (list nat * nat) :=
  concat (map (fun r => let split := filter (fun i => i mod s =? r) (seq 0 n) in
                        map (fun k => (indices_complement split n, k)) split) (seq 0 (Nat.min s n))).

Lemma map_snd_moves n s : map snd (all_moves n s) =
  concat (map (fun r => filter (fun i => i mod s =? r) (seq 0 n)) (seq 0 (Nat.min s n))).
Proof.
  unfold all_moves. rewrite concat_map, map_map. f_equal. apply map_ext. intros r. cbv zeta.
  rewrite map_map. cbn [snd]. apply map_id.
Qed.

Lemma NoDup_concat_disjoint {A} (ls : list (list A)) : Forall (@NoDup A) ls ->
  (forall i j a b x, i < j -> nth_error ls i = Some a -> nth_error ls j = Some b -> In x a -> In x b -> False) ->
  NoDup (concat ls).
Proof.
  induction ls as [|l ls IH]; intros Hf Hd; cbn; [constructor|]. inversion Hf as [|? ? Hl Hf']; subst.
  apply NoDup_app_intro.
  - exact Hl.
  - apply IH; [exact Hf'|]. intros i j a b x Hij Ha Hb. apply (Hd (S i) (S j) a b x); [lia|exact Ha|exact Hb].
  - intros x Hx Hc. apply in_concat in Hc as [b [Hb Hx']]. apply In_nth_error in Hb as [j Hj].
    apply (Hd 0 (S j) l b x); [lia|reflexivity|exact Hj|exact Hx|exact Hx'].
Qed.

Lemma all_moves_NoDup n s : NoDup (map snd (all_moves n s)).
Proof.
  rewrite map_snd_moves. apply NoDup_concat_disjoint.
  - apply Forall_forall. intros l Hl. apply in_map_iff in Hl as [r [<- _]]. apply NoDup_filter, seq_NoDup.
  - intros i j a b x Hij Ha Hb Hxa Hxb. rewrite nth_error_map' in Ha, Hb. rewrite nth_error_seq in Ha, Hb.
    destruct (i <? Nat.min s n); [|discriminate]. destruct (j <? Nat.min s n); [|discriminate].
    cbn in Ha, Hb. injection Ha as <-. injection Hb as <-. apply filter_In in Hxa as [_ Hxa], Hxb as [_ Hxb].
    apply Nat.eqb_eq in Hxa, Hxb. lia.
Qed.

Lemma in_all_moves n s k : 0 < s -> k < n -> exists pre post,
  all_moves n s = pre ++ (indices_complement (filter (fun i => i mod s =? k mod s) (seq 0 n)) n, k) :: post /\
  forall j, j < n -> j mod s <> k mod s -> (In j (map snd pre) <-> j mod s < k mod s).
Proof.
  intros Hs Hk. unfold all_moves.
  assert (k mod s < Nat.min s n) as Hr.
  { pose proof (Nat.mod_upper_bound k s). pose proof (Nat.mod_le k s). lia. }
  set (h := fun r => let split := filter (fun i => i mod s =? r) (seq 0 n) in
                     map (fun k => (indices_complement split n, k)) split).
  replace (Nat.min s n) with (k mod s + S (Nat.min s n - S (k mod s))) by lia.
  rewrite seq_app, map_app, concat_app. cbn [seq Nat.add map concat].
  set (split := filter (fun i => i mod s =? k mod s) (seq 0 n)).
  assert (In k split) as Hin.
  { apply filter_In. split; [apply in_seq; lia|apply Nat.eqb_refl]. }
  apply in_split in Hin as [l1 [l2 El]].
  exists (concat (map h (seq 0 (k mod s))) ++ map (fun k => (indices_complement split n, k)) l1),
         (map (fun k => (indices_complement split n, k)) l2 ++ concat (map h (seq (S (k mod s)) (Nat.min s n - S (k mod s))))).
  split.
  - assert (h (k mod s) = map (fun k => (indices_complement split n, k)) (l1 ++ k :: l2)) as Eh by (rewrite <- El; reflexivity).
    change (let split0 := filter (fun i => i mod s =? k mod s) (seq 0 n) in
            map (fun k0 => (indices_complement split0 n, k0)) split0) with (h (k mod s)).
    rewrite Eh. rewrite map_app. cbn [map]. rewrite <- !app_assoc. reflexivity.
  - intros j Hj Hne. rewrite map_app, in_app_iff. split.
    + intros [H|H].
      * apply in_map_iff in H as [[c j'] [<- H]]. cbn [snd] in *. apply in_concat in H as [l [H1 H2]].
        apply in_map_iff in H1 as [r [<- H1]]. apply in_seq in H1. unfold h in H2. apply in_map_iff in H2 as [i [E H2]].
        injection E as _ <-. apply filter_In in H2 as [_ H2]. apply Nat.eqb_eq in H2. lia.
      * exfalso. rewrite map_map in H. cbn [snd] in H. rewrite map_id in H.
        assert (In j split) as Hjs by (rewrite El; apply in_or_app; auto).
        apply filter_In in Hjs as [_ Hjs]. apply Nat.eqb_eq in Hjs. auto.
    + intros Hlt. left. apply in_map_iff.
      exists (indices_complement (filter (fun i => i mod s =? j mod s) (seq 0 n)) n, j). split; [reflexivity|].
      apply in_concat. exists (h (j mod s)). split.
      * apply in_map. apply in_seq. lia.
      * unfold h. apply in_map. apply filter_In. split; [apply in_seq; lia|apply Nat.eqb_refl].
Qed.

Lemma step_unfold fuel ens s a g next g' : 0 < s ->
  stretch_move_step fuel ens s a g = Some (Ok (next, g')) <->
  exists first, nth_error ens 0 = Some first /\ all_finite ens /\
    rfold (stretch_walker fuel (length (ss_params first)) a) (all_moves (length ens) s) ens g = Some (Ok (next, g')).
Proof.
  intros Hs. unfold SamplersModel.stretch_move_step. rewrite rbind_ok. unfold all_finite.
  assert (valid_states ens = true <-> Forall (fun s => xisfinite (ss_log_prob s) = true) ens) as Hv.
  { unfold valid_states. rewrite forallb_forall, Forall_forall. tauto. }
  split.
  - intros [first [g1 [H1 H]]]. apply rlift_ok in H1 as [H1 ->]. apply of_UB_ok in H1.
    apply rassert_ok in H as [H2 H]. apply rbind_ok in H as [splits [g2 [H3 H]]]. apply rlift_ok in H3 as [H3 ->].
    rewrite split_indices_spec in H3 by exact Hs. injection H3 as <-.
    exists first. split; [exact H1|]. split; [apply Hv, H2|].
    apply (rfold_concat (stretch_walker fuel (length (ss_params first)) a)
       (fun split => map (fun k => (indices_complement split (length ens), k)) split)) in H.
    rewrite map_map in H. exact H.
  - intros [first [H1 [H2 H3]]]. exists first, g. split; [apply rlift_ok; split; [apply of_UB_ok, H1|reflexivity]|].
    apply rassert_ok. split; [apply Hv, H2|]. apply rbind_ok.
    eexists. exists g. split; [apply rlift_ok; split; [apply split_indices_spec, Hs|reflexivity]|].
    apply (rfold_concat (stretch_walker fuel (length (ss_params first)) a)
       (fun split => map (fun k => (indices_complement split (length ens), k)) split)).
    rewrite map_map. exact H3.
Qed.

(* the complete description of a step *)
Lemma step_spec fuel ens s a g next g' : 0 < s ->
  stretch_move_step fuel ens s a g = Some (Ok (next, g')) ->
  exists first, nth_error ens 0 = Some first /\ all_finite ens /\ length next = length ens /\
  forall k xk, nth_error ens k = Some xk ->
  exists j xj p u q, j < length ens /\ j mod s <> k mod s /\
    nth_error (if j mod s <? k mod s then next else ens) j = Some xj /\ xisfinite (ss_log_prob xj) = true /\
    (0 <= p < 1)%R /\ (0 <= u < 1)%R /\
    stretched (length (ss_params first)) (stretch a p) (ss_params xk) (ss_params xj) q /\
    nth_error next k = Some (move_result (length (ss_params first)) a xk xj p u q).
Proof.
  intros Hs H. apply step_unfold in H as [first [H1 [H2 H3]]]; [|exact Hs]. exists first.
  destruct (rfold_moves snd _ _ (stretch_walker_spec fuel (length (ss_params first)) a) _ _ _ _ _
     (all_moves_NoDup (length ens) s) H3) as [L [U S]].
  split; [exact H1|]. split; [exact H2|]. split; [exact L|]. intros k xk Hxk.
  assert (k < length ens) as Hk by (apply nth_error_Some; congruence).
  destruct (in_all_moves (length ens) s k Hs Hk) as [pre [post [E Hpre]]].
  destruct (S pre _ post E) as [cur [t [Lc [Ft [HR [C1 C2]]]]]]. cbn [snd] in Ft.
  destruct HR as [xk' [j [xj [p [u [q [R1 [R2 [R3 [R4 [R5 [R6 [R7 ->]]]]]]]]]]]]]. cbn [fst snd] in *.
  pose proof (all_moves_NoDup (length ens) s) as Hnd. rewrite E, map_app in Hnd. cbn [map snd] in Hnd.
  assert (~ In k (map snd pre)) as Hkp.
  { intros Hin. apply NoDup_remove_2 in Hnd. apply Hnd. apply in_or_app. auto. }
  rewrite C2 in R1 by exact Hkp. rewrite Hxk in R1. injection R1 as <-.
  apply indices_complement_spec in R2 as [Hjn Hjs].
  assert (j mod s <> k mod s) as Hne.
  { intros Em. apply Hjs. apply filter_In. split; [apply in_seq; lia|apply Nat.eqb_eq, Em]. }
  exists j, xj, p, u, q. split; [exact Hjn|]. split; [exact Hne|]. split.
  - destruct (Nat.ltb_spec (j mod s) (k mod s)) as [Hlt|Hge].
    + rewrite <- C1; [exact R3|]. apply Hpre; assumption.
    + rewrite <- C2; [exact R3|]. intros Hin. apply Hpre in Hin; [lia|exact Hjn|exact Hne].
  - repeat (split; [assumption|]). exact Ft.
Qed.

Lemma move_result_moved n_dim a xk xj p u q : stretched n_dim (stretch a p) (ss_params xk) (ss_params xj) q ->
  moved f xk (move_result n_dim a xk xj p u q).
Proof.
  intros [Hl _]. unfold move_result, moved. destruct (_ && _) eqn:E; [|right; reflexivity].
  left. apply andb_true_iff in E as [_ E]. cbn. auto.
Qed.

Lemma step_moved fuel ens s a g next g' : 0 < s ->
  stretch_move_step fuel ens s a g = Some (Ok (next, g')) -> all_finite ens /\ Forall2 (moved f) ens next.
Proof.
  intros Hs H. destruct (step_spec fuel ens s a g next g' Hs H) as [first [_ [H2 [L HH]]]].
  split; [exact H2|]. apply Forall2_nth_error_iff. split; [symmetry; exact L|].
  intros i x y Hx Hy. destruct (HH i x Hx) as [j [xj [p [u [q [_ [_ [_ [_ [_ [_ [Hst E]]]]]]]]]]]].
  rewrite Hy in E. injection E as ->. apply move_result_moved, Hst.
Qed.

Lemma moved_finite ens next : Forall2 (moved f) ens next -> all_finite ens -> all_finite next.
Proof.
  induction 1 as [|x y ens next Hm _ IH]; intros Hf; [constructor|]. inversion Hf; subst.
  constructor; [|apply IH; assumption]. destruct Hm as [[_ [_ [H _]]]| ->]; [exact H|assumption].
Qed.
Lemma moved_consistent ens next : Forall2 (moved f) ens next -> consistent f ens -> consistent f next.
Proof.
  induction 1 as [|x y ens next Hm _ IH]; intros Hf; [constructor|]. inversion Hf; subst.
  constructor; [|apply IH; assumption]. destruct Hm as [[_ [H _]]| ->]; [exact H|assumption].
Qed.
Lemma moved_dimension n ens next : Forall2 (moved f) ens next -> same_dimension n ens -> same_dimension n next.
Proof.
  induction 1 as [|x y ens next Hm _ IH]; intros Hf; [constructor|]. inversion Hf; subst.
  constructor; [|apply IH; assumption]. destruct Hm as [[_ [_ [_ H]]]| ->]; [congruence|reflexivity].
Qed.

(* ---- a step always finishes ---- *)
Lemma draw_index_lt n g : 0 < n -> (Z.of_nat n < 2 ^ 64)%Z -> exists v g', draw_index uniform n g = Some (Ok (v, g')) /\ v < n.
Proof.
  intros Hn Hb. unfold draw_index.
  assert (wrap64 (Z.of_nat n - 1) = Z.of_nat n - 1)%Z as E by (apply Z.mod_small; lia). rewrite E.
  pose proof (Hint 0%Z (Z.of_nat n - 1)%Z g ltac:(lia)) as Hv.
  destruct (uniform 0%Z (Z.of_nat n - 1)%Z g) as [v g'] eqn:Eu. cbn [fst] in Hv.
  exists (Z.to_nat v), g'. split; [reflexivity|lia].
Qed.

Lemma walker_total fuel n_dim a cur complement k g :
  all_finite cur -> same_dimension n_dim cur -> k < length cur -> complement <> [] ->
  (forall j, In j complement -> j < length cur) -> (Z.of_nat (length complement) < 2 ^ 64)%Z ->
  exists next g', stretch_walker (S fuel) n_dim a cur (complement, k) g = Some (Ok (next, g')).
Proof.
  intros Hf Hd Hk Hc Hj Hb. unfold SamplersModel.stretch_walker.
  destruct (nth_error cur k) as [xk|] eqn:Ek; [|apply nth_error_None in Ek; lia].
  destruct (draw_index_lt (length complement) g) as [v [g1 [Ev Hv]]]; [destruct complement; [congruence|cbn; lia]|exact Hb|].
  destruct (nth_error complement v) as [j|] eqn:Ej; [|apply nth_error_None in Ej; lia].
  assert (j < length cur) as Hjl by (apply Hj; eapply nth_error_In, Ej).
  destruct (nth_error cur j) as [xj|] eqn:Exj; [|apply nth_error_None in Exj; lia].
  assert (xisfinite (ss_log_prob xj) = true) as Hfj.
  { unfold all_finite in Hf. rewrite Forall_forall in Hf. apply Hf. eapply nth_error_In, Exj. }
  assert (pick_partner uniform (S fuel) complement cur g = Some (Ok (j, g1))) as Ep.
  { cbn [pick_partner]. unfold rbind at 1. rewrite Ev. cbn [rbind rlift of_option bind].
    rewrite Ej. cbn [of_option bind]. unfold rbind. cbn. rewrite Exj. cbn. rewrite Hfj. reflexivity. }
  set (z := stretch a (fst (uniform_real g1))).
  assert (exists q, propose n_dim z (ss_params xk) (ss_params xj) = Ok q) as [q Eq].
  { unfold propose. unfold same_dimension in Hd. rewrite Forall_forall in Hd.
    pose proof (Hd xk (nth_error_In _ _ Ek)) as Lk. pose proof (Hd xj (nth_error_In _ _ Exj)) as Lj.
    assert (forall idx, (forall i, In i idx -> i < n_dim) -> exists mv,
      mapM (fun i => v_j <- of_option UB (nth_error (ss_params xj) i) ;;
                     v0 <- of_option UB (nth_error (ss_params xk) i) ;; Ok (propose_coordinate z v_j v0)) idx = Ok mv) as HH.
    { induction idx as [|i idx IH]; intros Hi; [exists []; reflexivity|].
      destruct (IH (fun i Hin => Hi i (or_intror Hin))) as [mv Emv]. specialize (Hi i (or_introl eq_refl)).
      cbn [mapM]. destruct (nth_error (ss_params xj) i) eqn:E1; [|apply nth_error_None in E1; lia].
      destruct (nth_error (ss_params xk) i) eqn:E2; [|apply nth_error_None in E2; lia].
      cbn [of_option bind]. rewrite Emv. eexists. reflexivity. }
    destruct (HH (seq 0 n_dim)) as [mv Emv]; [intros i Hi; apply in_seq in Hi; lia|]. rewrite Emv. eexists. reflexivity. }
  destruct (uniform_real g1) as [p g2] eqn:Eu1. cbn [fst] in z. destruct (uniform_real g2) as [u g3] eqn:Eu2.
  unfold rbind at 1. unfold rlift at 1. cbn [of_option bind].
  unfold rbind at 1. rewrite Ep.
  unfold rbind at 1. unfold rlift at 1. cbn [of_option bind]. rewrite Exj. cbn [of_option bind].
  unfold rbind at 1. unfold draw_real at 1. rewrite Eu1. fold z.
  unfold rbind at 1. unfold rlift at 1. rewrite Eq. cbn [bind].
  unfold rbind at 1. unfold draw_real at 1. rewrite Eu2.
  destruct (_ && _); eexists; eexists; reflexivity.
Qed.

Lemma move_next fuel n_dim a cur m g next g' : stretch_walker fuel n_dim a cur m g = Some (Ok (next, g')) ->
  Forall2 (fun x y => y = x \/ moved f x y) cur next.
Proof.
  intros H. apply stretch_walker_spec in H as [t [-> [Hlt [xk [j [xj [p [u [q [R1 [_ [_ [_ [_ [_ [R7 ->]]]]]]]]]]]]]]]].
  apply Forall2_nth_error_iff. split; [symmetry; apply set_nth_length|]. intros i x y Hx Hy.
  rewrite nth_error_set_nth in Hy. destruct (Nat.eqb_spec (snd m) i) as [<-|_].
  - destruct (Nat.ltb_spec (snd m) (length cur)); [|discriminate]. injection Hy as <-.
    rewrite R1 in Hx. injection Hx as <-. right. apply move_result_moved, R7.
  - rewrite Hx in Hy. injection Hy as ->. auto.
Qed.

Lemma weak_moved_keeps n cur next : Forall2 (fun x y => y = x \/ moved f x y) cur next ->
  all_finite cur -> same_dimension n cur -> all_finite next /\ same_dimension n next /\ length next = length cur.
Proof.
  induction 1 as [|x y cur next Hm _ IH]; intros Hf Hd; [repeat constructor|]. inversion Hf; subst. inversion Hd; subst.
  destruct IH as [I1 [I2 I3]]; [assumption|assumption|]. 
  assert (xisfinite (ss_log_prob y) = true /\ length (ss_params y) = length (ss_params x)) as [Y1 Y2].
  { destruct Hm as [->|[[_ [_ [Ha Hb]]]| ->]]; auto. }
  split; [constructor; assumption|]. split; [constructor; [congruence|assumption]|]. cbn. congruence.
Qed.

Lemma moves_total fuel n_dim a n moves : (Z.of_nat n < 2 ^ 64)%Z ->
  Forall (fun m => snd m < n /\ fst m <> [] /\ (forall j, In j (fst m) -> j < n) /\ length (fst m) <= n) moves ->
  forall cur g, length cur = n -> all_finite cur -> same_dimension n_dim cur ->
  exists next g', rfold (stretch_walker (S fuel) n_dim a) moves cur g = Some (Ok (next, g')).
Proof.
  intros Hb. induction 1 as [|[c k] moves [H1 [H2 [H3 H4]]] _ IH]; intros cur g Hl Hf Hd; [eexists; eexists; reflexivity|].
  cbn [fst snd] in *. destruct (walker_total fuel n_dim a cur c k g Hf Hd) as [cur' [g' E]]; try assumption; try lia.
  { rewrite Hl. exact H3. }
  destruct (weak_moved_keeps n_dim cur cur' (move_next _ _ _ _ _ _ _ _ E) Hf Hd) as [K1 [K2 K3]].
  destruct (IH cur' g') as [next [g2 E2]]; [congruence|exact K1|exact K2|].
  exists next, g2. cbn [rfold]. apply rbind_ok. eauto.
Qed.

Lemma step_total fuel ens s a g n_dim : 2 <= length ens -> 2 <= s -> (Z.of_nat (length ens) < 2 ^ 64)%Z ->
  all_finite ens -> same_dimension n_dim ens ->
  exists next g', stretch_move_step (S fuel) ens s a g = Some (Ok (next, g')).
Proof.
  intros Hn Hs Hb Hf Hd. destruct ens as [|first rest] eqn:Eens; [cbn in Hn; lia|]. rewrite <- Eens in *.
  assert (length (ss_params first) = n_dim) as Hdim.
  { unfold same_dimension in Hd. rewrite Eens in Hd. inversion Hd; assumption. }
  destruct (moves_total fuel n_dim a (length ens) (all_moves (length ens) s) Hb) with (cur := ens) (g := g) as [next [g' E]]; try assumption; try reflexivity.
  - apply Forall_forall. intros [c k] Hin. cbn [fst snd]. unfold all_moves in Hin. apply in_concat in Hin as [l [Hl Hin]].
    apply in_map_iff in Hl as [r [<- Hr]]. apply in_seq in Hr. apply in_map_iff in Hin as [k' [E Hin]]. injection E as <- <-.
    apply filter_In in Hin as [Hk Hm]. apply in_seq in Hk. apply Nat.eqb_eq in Hm.
    set (split := filter (fun i => i mod s =? r) (seq 0 (length ens))) in *.
    destruct (indices_complement_spec split (length ens)) as [Hsrt Hc].
    split; [lia|]. split; [|split].
    + assert (exists j, In j (indices_complement split (length ens))) as [j Hj].
      { destruct (Nat.eq_dec r 0) as [->|Hr0].
        - exists 1. apply Hc. split; [lia|]. intros Hs1. apply filter_In in Hs1 as [_ Hs1]. apply Nat.eqb_eq in Hs1.
          rewrite Nat.mod_small in Hs1 by lia. lia.
        - exists 0. apply Hc. split; [lia|]. intros Hs1. apply filter_In in Hs1 as [_ Hs1]. apply Nat.eqb_eq in Hs1.
          rewrite Nat.mod_small in Hs1 by lia. lia. }
      intros E. rewrite E in Hj. destruct Hj.
    + intros j Hj. apply Hc in Hj. lia.
    + assert (NoDup (indices_complement split (length ens))) as Hnd.
      { clear -Hsrt. induction Hsrt as [|x l Hs IH Hf]; constructor; [|exact IH]. intros Hin. rewrite Forall_forall in Hf.
        specialize (Hf x Hin). lia. }
      rewrite <- (seq_length (length ens) 0) at 2. apply NoDup_incl_length; [exact Hnd|].
      intros j Hj. apply Hc in Hj. apply in_seq. lia.
  - exists next, g'. apply step_unfold; [lia|]. exists first. split; [rewrite Eens; reflexivity|]. split; [exact Hf|].
    rewrite Hdim. exact E.
Qed.

(* ---- the sampler ---- *)
Lemma sampler_loop_spec fuel iters : forall state g out g',
  sampler_loop uniform uniform_real f fuel iters state g = Some (Ok (out, g')) ->
  length out = iters /\
  forall i x y, nth_error (state :: out) i = Some x -> nth_error (state :: out) (S i) = Some y ->
    all_finite x /\ Forall2 (moved f) x y.
Proof.
  induction iters as [|iters IH]; intros state g out g' H; cbn [sampler_loop] in H.
  - apply rret_ok in H as [-> _]. split; [reflexivity|]. intros i x y _ Hy. destruct i as [|i]; [discriminate|]. destruct i; discriminate.
  - apply rbind_ok in H as [next [g1 [H1 H]]]. apply rbind_ok in H as [rest [g2 [H2 H]]]. apply rret_ok in H as [-> _].
    destruct (IH _ _ _ _ H2) as [L C]. split; [cbn; congruence|]. intros [|i] x y Hx Hy.
    + injection Hx as <-. injection Hy as <-. eapply step_moved; [|exact H1]. lia.
    + apply (C i); assumption.
Qed.

Lemma chain_keeps (P : list sampler_state -> Prop) state out :
  (forall x y, Forall2 (moved f) x y -> P x -> P y) ->
  (forall i x y, nth_error (state :: out) i = Some x -> nth_error (state :: out) (S i) = Some y -> Forall2 (moved f) x y) ->
  P state -> Forall P (state :: out).
Proof.
  intros Hk. revert state. induction out as [|y out IH]; intros state Hc Hs; constructor; auto.
  apply IH.
  - intros i. apply (Hc (S i)).
  - apply (Hk state y); [apply (Hc 0); reflexivity|exact Hs].
Qed.

Lemma sampler_loop_total fuel iters : forall state g n_dim, 2 <= length state -> (Z.of_nat (length state) < 2 ^ 64)%Z ->
  all_finite state -> same_dimension n_dim state ->
  exists out g', sampler_loop uniform uniform_real f (S fuel) iters state g = Some (Ok (out, g')).
Proof.
  induction iters as [|iters IH]; intros state g n_dim Hn Hb Hf Hd; [eexists; eexists; reflexivity|].
  destruct (step_total fuel state 2 2 g n_dim Hn ltac:(lia) Hb Hf Hd) as [next [g1 E]].
  pose proof (step_moved _ _ 2 _ _ _ _ ltac:(lia) E) as [_ Hm]. pose proof (Forall2_len _ _ _ Hm) as Hl.
  destruct (IH next g1 n_dim) as [rest [g2 E2]]; try lia.
  - apply (moved_finite state); assumption.
  - apply (moved_dimension n_dim state); assumption.
  - exists (next :: rest), g2. cbn [sampler_loop]. apply rbind_ok. exists next, g1. split; [exact E|].
    apply rbind_ok. exists rest, g2. split; [exact E2|reflexivity].
Qed.

(* ---- initial state ---- *)
Lemma rmap_ok_nth {A B} (h : A -> rnd G B) xs : forall g ys g', rmap h xs g = Some (Ok (ys, g')) ->
  length ys = length xs /\ forall i x y, nth_error xs i = Some x -> nth_error ys i = Some y ->
    exists g1 g2, h x g1 = Some (Ok (y, g2)).
Proof.
  induction xs as [|x xs IH]; intros g ys g' H; cbn [rmap] in H.
  - apply rret_ok in H as [-> _]. split; [reflexivity|]. intros [|i]; discriminate.
  - apply rbind_ok in H as [y [g1 [H1 H]]]. apply rbind_ok in H as [ys' [g2 [H2 H]]]. apply rret_ok in H as [-> _].
    destruct (IH _ _ _ H2) as [L N]. split; [cbn; congruence|]. intros [|i] x0 y0 Hx Hy.
    + injection Hx as <-. injection Hy as <-. eauto.
    + eapply N; eassumption.
Qed.

Lemma interpolate_spec x y g q g' : interpolate uniform_real x y g = Some (Ok (q, g')) ->
  length q = length x /\ forall i qi, nth_error q i = Some qi -> exists a xi yi,
    (0 <= a < 1)%R /\ nth_error x i = Some xi /\ nth_error y i = Some yi /\ qi = xadd xi (xscale a (xsub yi xi)).
Proof.
  intros H. apply rmap_ok_nth in H as [L N]. rewrite seq_length in L. split; [exact L|]. intros i qi Hq.
  assert (i < length x) as Hi by (rewrite <- L; apply nth_error_Some; congruence).
  destruct (N i i qi) as [g1 [g2 E]]; [|exact Hq|].
  { rewrite nth_error_seq. destruct (Nat.ltb_spec i (length x)); [reflexivity|lia]. }
  apply rbind_ok in E as [a [g3 [E1 E]]]. apply rbind_ok in E as [yi [g4 [E2 E]]]. apply rlift_ok in E2 as [E2 _]. apply of_UB_ok in E2.
  apply rbind_ok in E as [xi [g5 [E3 E]]]. apply rlift_ok in E3 as [E3 _]. apply of_UB_ok in E3. apply rret_ok in E as [-> _].
  exists a, xi, yi. split; [|auto]. unfold draw_real in E1. pose proof (Hreal g1) as Hr. injection E1 as E1. rewrite E1 in Hr. exact Hr.
Qed.

Lemma subset_In {A} (xs : list A) inds out : subset xs inds = Ok out -> forall x, In x out -> In x xs.
Proof.
  unfold subset. intros H x Hx. apply mapM_ok in H. apply In_nth_error in Hx as [i Hi].
  revert i Hi. induction H as [|j y inds out E _ IH]; intros i Hi; [destruct i; discriminate|].
  destruct i as [|i]; [injection Hi as <-|eapply IH, Hi].
  unfold checked_get in E. destruct (nth_error xs j) eqn:En; [|discriminate]. injection E as <-. eapply nth_error_In, En.
Qed.

Lemma fill_loop_spec fuel n : forall output g out g', (Z.of_nat n < 2 ^ 64)%Z -> length output <= n ->
  fill_loop uniform uniform_real f fuel n output g = Some (Ok (out, g')) ->
  exists extra, out = output ++ extra /\ length out = n /\
    Forall (fun s => ss_log_prob s = f (ss_params s) /\ xisfinite (ss_log_prob s) = true) extra /\
    (forall d, same_dimension d output -> same_dimension d out) /\
    (forall lo hi, Forall (in_box lo hi) output -> Forall (in_box lo hi) out).
Proof.
  induction fuel as [|fuel IH]; intros output g out g' Hb Hle H; cbn [fill_loop] in H;
    destruct (Nat.ltb_spec (length output) n) as [Hlt|Hge].
  - discriminate.
  - apply rret_ok in H as [-> _]. exists []. rewrite app_nil_r. split; [reflexivity|]. split; [lia|]. split; [constructor|auto].
  - apply rbind_ok in H as [pair [g1 [H1 H]]].
    apply rbind_ok in H as [s0 [g2 [H2 H]]]. apply rlift_ok in H2 as [H2 ->]. apply of_UB_ok in H2.
    apply rbind_ok in H as [s1 [g3 [H3 H]]]. apply rlift_ok in H3 as [H3 ->]. apply of_UB_ok in H3.
    apply rbind_ok in H as [params [g4 [H4 H]]].
    assert (forall s, In s pair -> In s output) as Hsub.
    { destruct (random_without_replacement_spec uniform Hint (S fuel) output 2 g _ ltac:(lia) H1) as [[_ [o [g5 [inds [E [_ [_ Es]]]]]]]|[_ E]]; [|discriminate].
      injection E as <- <-. intros s. eapply subset_In, Es. }
    pose proof (Hsub _ (nth_error_In _ _ H2)) as I0. pose proof (Hsub _ (nth_error_In _ _ H3)) as I1.
    destruct (interpolate_spec _ _ _ _ _ H4) as [Lp Np].
    destruct (xisfinite (f params)) eqn:Ef.
    + apply IH in H as [extra [-> [L [F [D B]]]]]; [|exact Hb|rewrite app_length; cbn; lia].
      exists (SS params (f params) (ss_accepted s0) :: extra). rewrite <- app_assoc in *. split; [reflexivity|].
      split; [exact L|]. split; [constructor; [cbn; auto|exact F]|]. split.
      * intros d Hd. apply D. apply Forall_app. split; [exact Hd|]. constructor; [|constructor]. cbn.
        rewrite Lp. unfold same_dimension in Hd. rewrite Forall_forall in Hd. apply Hd, I0.
      * intros lo hi Hbox. apply B. apply Forall_app. split; [exact Hbox|]. constructor; [|constructor].
        intros i x Hx. cbn [ss_params] in Hx. destruct (Np i x Hx) as [a [xi [yi [Ha [Ex [Ey ->]]]]]].
        rewrite Forall_forall in Hbox. destruct (Hbox s0 I0 i xi Ex) as [rx [-> Hrx]]. destruct (Hbox s1 I1 i yi Ey) as [ry [-> Hry]].
        exists (rx + a * (ry - rx))%R. split; [reflexivity|]. split; nra.
    + apply IH in H; assumption.
  - apply rret_ok in H as [-> _]. exists []. rewrite app_nil_r. split; [reflexivity|]. split; [lia|]. split; [constructor|auto].
Qed.

Lemma filter_length_le {A} (p : A -> bool) l : length (filter p l) <= length l.
Proof. induction l as [|a l IH]; cbn; [lia|]. destruct (p a); cbn; lia. Qed.

Lemma ensure_finite_spec fuel ens g out g' : (Z.of_nat (length ens) < 2 ^ 64)%Z ->
  ensure_finite_initial_state uniform uniform_real f fuel ens g = Some (Ok (out, g')) ->
  exists extra, out = filter finite_state ens ++ extra /\ length out = length ens /\ 2 < length (filter finite_state ens) /\
    Forall (fun s => ss_log_prob s = f (ss_params s) /\ xisfinite (ss_log_prob s) = true) extra /\
    (forall d, same_dimension d ens -> same_dimension d out) /\
    (forall lo hi, Forall (in_box lo hi) (filter finite_state ens) -> Forall (in_box lo hi) out).
Proof.
  intros Hb H. unfold ensure_finite_initial_state in H. apply rassert_ok in H as [H1 H]. apply Nat.ltb_lt in H1.
  apply fill_loop_spec in H as [extra [-> [L [F [D B]]]]]; [|exact Hb|apply filter_length_le].
  exists extra. repeat (split; [assumption || reflexivity|]). split; [|exact B].
  intros d Hd. apply D. apply Forall_forall. intros s Hs. apply filter_In in Hs as [Hs _].
  unfold same_dimension in Hd. rewrite Forall_forall in Hd. apply Hd, Hs.
Qed.

Lemma filter_all {A} (p : A -> bool) l : Forall (fun x => p x = true) l -> filter p l = l.
Proof. induction 1 as [|x l Hx _ IH]; cbn; [reflexivity|]. rewrite Hx, IH. reflexivity. Qed.

Lemma ensure_finite_id fuel ens g : Forall (fun s => finite_state s = true) ens -> 2 < length ens ->
  ensure_finite_initial_state uniform uniform_real f fuel ens g = Some (Ok (ens, g)).
Proof.
  intros Hf Hl. unfold ensure_finite_initial_state, rassert. rewrite filter_all by exact Hf.
  destruct (Nat.ltb_spec 2 (length ens)); [|lia]. destruct fuel; cbn [fill_loop]; rewrite Nat.ltb_irrefl; reflexivity.
Qed.

Lemma finite_state_finite s : finite_state s = true -> xisfinite (ss_log_prob s) = true.
Proof. unfold finite_state. intros H. apply andb_true_iff in H. tauto. Qed.

Lemma sampler_spec fuel ens iters g states g' : (Z.of_nat (length ens) < 2 ^ 64)%Z ->
  ensemble_sampler uniform uniform_real f fuel ens iters g = Some (Ok (states, g')) ->
  exists first rest, states = first :: rest /\ length rest = iters /\
    (exists extra, first = filter finite_state ens ++ extra /\
       Forall (fun s => ss_log_prob s = f (ss_params s) /\ xisfinite (ss_log_prob s) = true) extra) /\
    Forall (fun e => length e = length ens /\ all_finite e) states /\
    (consistent f ens -> Forall (consistent f) states) /\
    (forall i x y, nth_error states i = Some x -> nth_error states (S i) = Some y -> Forall2 (moved f) x y).
Proof.
  intros Hb H. unfold ensemble_sampler in H. apply rbind_ok in H as [first [g1 [H1 H]]].
  apply rbind_ok in H as [rest [g2 [H2 H]]]. apply rret_ok in H as [-> _].
  apply ensure_finite_spec in H1 as [extra [E [L [L2 [F [_ _]]]]]]; [|exact Hb].
  destruct (sampler_loop_spec _ _ _ _ _ _ H2) as [Lr C].
  exists first, rest. split; [reflexivity|]. split; [exact Lr|]. split; [exists extra; auto|].
  assert (forall i x y, nth_error (first :: rest) i = Some x -> nth_error (first :: rest) (S i) = Some y -> Forall2 (moved f) x y) as C'.
  { intros i x y Hx Hy. apply (C i); assumption. }
  assert (all_finite first) as Hff.
  { rewrite E. apply Forall_app. split.
    - apply Forall_forall. intros s Hs. apply filter_In in Hs as [_ Hs]. apply finite_state_finite, Hs.
    - eapply Forall_impl; [|exact F]. cbn. tauto. }
  split; [|split].
  - apply (chain_keeps (fun e => length e = length ens /\ all_finite e)).
    + intros x y Hm [Hl Hf]. split; [rewrite <- Hl; symmetry; eapply Forall2_len, Hm|eapply moved_finite; eassumption].
    + exact C'.
    + auto.
  - intros Hc. apply (chain_keeps (consistent f)).
    + intros x y Hm. apply moved_consistent, Hm.
    + exact C'.
    + rewrite E. apply Forall_app. split.
      * apply Forall_forall. intros s Hs. apply filter_In in Hs as [Hs _]. unfold consistent in Hc. rewrite Forall_forall in Hc. apply Hc, Hs.
      * eapply Forall_impl; [|exact F]. cbn. tauto.
  - exact C'.
Qed.

Lemma sampler_total fuel ens iters g n_dim : (Z.of_nat (length ens) < 2 ^ 64)%Z -> 2 < length ens ->
  Forall (fun s => finite_state s = true) ens -> same_dimension n_dim ens ->
  exists states g', ensemble_sampler uniform uniform_real f (S fuel) ens iters g = Some (Ok (ens :: states, g')).
Proof.
  intros Hb Hl Hf Hd.
  destruct (sampler_loop_total fuel iters ens g n_dim ltac:(lia) Hb) as [out [g' E]].
  - eapply Forall_impl; [|exact Hf]. intros s. apply finite_state_finite.
  - exact Hd.
  - exists out, g'. unfold ensemble_sampler. apply rbind_ok. exists ens, g. split; [apply ensure_finite_id; assumption|].
    apply rbind_ok. exists out, g'. split; [exact E|reflexivity].
Qed.
End Steps.

Lemma random_complement_spec {G} (uniform : Z -> Z -> G -> Z * G) fuel n i g out g' :
  int_contract uniform -> (Z.of_nat n < 2 ^ 64)%Z ->
  random_complement uniform fuel n i g = Some (Ok (out, g')) -> out < n /\ out <> i /\ 1 < n.
Proof.
  intros Hint Hb H. unfold random_complement in H. apply rassert_ok in H as [H1 H]. apply Nat.ltb_lt in H1.
  revert g H. induction fuel as [|fuel IH]; intros g H; [discriminate|]. cbn [random_complement_loop] in H.
  destruct (draw_index_lt uniform Hint n g ltac:(lia) Hb) as [v [g1 [E Hv]]].
  apply rbind_ok in H as [v' [g2 [E' H]]]. rewrite E in E'. injection E' as <- <-.
  destruct (Nat.eqb_spec v i) as [_|Hne]; [eapply IH, H|]. apply rret_ok in H as [-> _]. auto.
Qed.

Lemma jitter_spec {G} (jitter : G -> xr * G) params n g out g' :
  initial_params_from_jitter jitter params n g = Some (Ok (out, g')) ->
  exists tp, get_tunable_parameters params = Ok tp /\ length out = Nat.max n (2 * length params + 1) /\
    nth_error out 0 = Some (tp_values tp) /\ Forall (fun p => length p = length (tp_values tp)) out.
Proof.
  intros H. unfold initial_params_from_jitter in H. apply rbind_ok in H as [tp [g1 [H1 H]]]. apply rlift_ok in H1 as [H1 ->].
  apply rbind_ok in H as [rest [g2 [H2 H]]]. apply rret_ok in H as [-> _]. exists tp. split; [exact H1|].
  apply rmap_ok_nth in H2 as [L N]. rewrite seq_length in L. split; [cbn [length]; rewrite L; lia|]. split; [reflexivity|].
  constructor; [reflexivity|]. apply Forall_forall. intros p Hp. apply In_nth_error in Hp as [i Hi].
  assert (i < length rest) as Hlt by (apply nth_error_Some; congruence). rewrite L in Hlt.
  destruct (N i i p) as [g3 [g4 E]]; [|exact Hi|].
  { rewrite nth_error_seq. destruct (Nat.ltb_spec i (Nat.max n (2 * length params + 1) - 1)); [reflexivity|lia]. }
  apply rmap_ok_nth in E as [L' _]. exact L'.
Qed.

Lemma step_empty {G} (uniform : Z -> Z -> G -> Z * G) uniform_real f fuel s a g :
  stretch_move_step uniform uniform_real f fuel [] s a g = Some UB.
Proof. reflexivity. Qed.

Lemma step_not_finite {G} (uniform : Z -> Z -> G -> Z * G) uniform_real f fuel ens s a g :
  ens <> [] -> ~ all_finite ens -> stretch_move_step uniform uniform_real f fuel ens s a g = Some Abort.
Proof.
  intros Hn Hf. destruct ens as [|first rest]; [congruence|]. unfold stretch_move_step, rbind at 1. cbn [nth_error of_option rlift bind].
  unfold rassert. destruct (valid_states (first :: rest)) eqn:E; [|reflexivity]. exfalso. apply Hf.
  unfold valid_states in E. rewrite forallb_forall in E. apply Forall_forall. exact E.
Qed.

Lemma step_alone {G} (uniform : Z -> Z -> G -> Z * G) uniform_real f fuel ens s a g :
  ens <> [] -> all_finite ens -> 0 < s -> (s = 1 \/ length ens = 1) ->
  stretch_move_step uniform uniform_real f (S fuel) ens s a g = Some UB.
Proof.
  intros Hn Hf Hs H1. destruct ens as [|first rest] eqn:E; [congruence|]. rewrite <- E in *.
  unfold stretch_move_step. rewrite split_indices_spec by exact Hs.
  assert (nth_error ens 0 = Some first) as E0 by (rewrite E; reflexivity). rewrite E0.
  unfold rbind at 1. cbn [of_option rlift bind]. unfold rassert.
  assert (valid_states ens = true) as -> by (apply forallb_forall; apply Forall_forall; exact Hf).
  assert (0 < length ens) as Hl by (rewrite E; cbn; lia).
  replace (Nat.min s (length ens)) with 1 by lia. cbn [seq map].
  set (split := filter (fun i => i mod s =? 0) (seq 0 (length ens))).
  unfold rbind at 1. cbn [of_option rlift bind]. cbn [rfold].
  assert (exists l, split = 0 :: l) as [l El].
  { unfold split. destruct (length ens) as [|n]; [lia|]. cbn [seq filter]. rewrite Nat.mod_0_l by lia. rewrite Nat.eqb_refl. eauto. }
  assert (indices_complement split (length ens) = []) as Ec.
  { destruct (indices_complement split (length ens)) as [|j c] eqn:Ec; [reflexivity|].
    destruct (indices_complement_spec split (length ens)) as [_ Hc].
    destruct (proj1 (Hc j)) as [Hj Hjs]; [rewrite Ec; left; reflexivity|]. exfalso. apply Hjs. apply filter_In.
    split; [apply in_seq; lia|]. apply Nat.eqb_eq. destruct H1 as [->|H1]; [apply Nat.mod_1_r|].
    replace j with 0 by lia. apply Nat.mod_0_l. lia. }
  rewrite Ec, El. cbn [map rfold]. unfold rbind, stretch_walker, rbind. rewrite E0. cbn [of_option rlift bind pick_partner].
  unfold rbind, draw_index. destruct (uniform _ _ g) as [v g']. cbn [rlift bind of_option].
  replace (nth_error (@nil nat) (Z.to_nat v)) with (@None nat) by (destruct (Z.to_nat v); reflexivity). reflexivity.
Qed.

Lemma step_zero_splits {G} (uniform : Z -> Z -> G -> Z * G) uniform_real f fuel ens a g :
  ens <> [] -> all_finite ens -> stretch_move_step uniform uniform_real f fuel ens 0 a g = Some UB.
Proof.
  intros Hn Hf. destruct ens as [|first rest] eqn:E; [congruence|]. rewrite <- E in *.
  unfold stretch_move_step. assert (nth_error ens 0 = Some first) as -> by (rewrite E; reflexivity).
  unfold rbind at 1. cbn [of_option rlift bind]. unfold rassert.
  assert (valid_states ens = true) as -> by (apply forallb_forall; apply Forall_forall; exact Hf).
  unfold rbind, split_indices. rewrite kfold_zero. rewrite seq_length, E. reflexivity.
Qed.

Lemma rmap_total {G A B} (h : A -> rnd G B) xs : (forall x g, In x xs -> exists y g', h x g = Some (Ok (y, g'))) ->
  forall g, exists ys g', rmap h xs g = Some (Ok (ys, g')).
Proof.
  induction xs as [|x xs IH]; intros H g; [eexists; eexists; reflexivity|].
  destruct (H x g (or_introl eq_refl)) as [y [g1 E]]. destruct (IH (fun x g Hin => H x g (or_intror Hin)) g1) as [ys [g2 E2]].
  exists (y :: ys), g2. cbn [rmap]. apply rbind_ok. exists y, g1. split; [exact E|]. apply rbind_ok. exists ys, g2. auto.
Qed.

(* if no interpolated point has a finite log probability the loop does not end *)
Lemma fill_loop_diverges {G} (uniform : Z -> Z -> G -> Z * G) uniform_real f n d :
  int_contract uniform -> (Z.of_nat n < 2 ^ 64)%Z -> (forall p, xisfinite (f p) = false) ->
  forall fuel output g, 2 <= length output < n -> same_dimension d output ->
  fill_loop uniform uniform_real f fuel n output g = None.
Proof.
  intros Hint Hb Hnf. induction fuel as [|fuel IH]; intros output g Hl Hd; cbn [fill_loop];
    (destruct (Nat.ltb_spec (length output) n) as [_|]; [|lia]); [reflexivity|].
  unfold rbind at 1. destruct (random_without_replacement uniform (S fuel) output 2 g) as [r|] eqn:Er; [|reflexivity].
  destruct (random_without_replacement_spec uniform Hint (S fuel) output 2 g r ltac:(lia) Er) as [[_ [pair [g1 [inds [-> [_ [Li Es]]]]]]]|[? _]]; [|lia].
  pose proof (mapM_length _ _ _ Es) as Lp. rewrite Li in Lp.
  destruct pair as [|s0 [|s1 [|? ?]]]; cbn in Lp; try lia.
  assert (In s0 output /\ In s1 output) as [I0 I1] by (split; eapply subset_In; [exact Es|cbn; auto|exact Es|cbn; auto]).
  unfold same_dimension in Hd. pose proof Hd as Hd'. rewrite Forall_forall in Hd'.
  pose proof (Hd' _ I0) as L0. pose proof (Hd' _ I1) as L1.
  destruct (rmap_total (fun i => a <~ draw_real uniform_real ;;
                 y_i <~ rlift (of_option UB (nth_error (ss_params s1) i)) ;;
                 x_i <~ rlift (of_option UB (nth_error (ss_params s0) i)) ;;
                 rret (xadd x_i (xscale a (xsub y_i x_i)))) (seq 0 (length (ss_params s0)))) with (g := g1) as [params [g2 Ep]].
  { intros i g0 Hi. apply in_seq in Hi. destruct (uniform_real g0) as [a g3] eqn:Eu. unfold rbind, draw_real. rewrite Eu.
    destruct (nth_error (ss_params s1) i) eqn:E1; [|apply nth_error_None in E1; lia].
    destruct (nth_error (ss_params s0) i) eqn:E2; [|apply nth_error_None in E2; lia].
    cbn. eexists. eexists. reflexivity. }
  unfold rbind at 1. cbn [nth_error of_option rlift bind]. unfold rbind at 1. cbn [nth_error of_option rlift bind].
  unfold rbind at 1. unfold interpolate. rewrite Ep. rewrite Hnf. apply IH; assumption.
Qed.

Lemma stretch_range a p : (1 < a)%R -> (0 <= p < 1)%R -> (/ a <= stretch a p < a)%R.
Proof.
  intros Ha Hp. unfold stretch. assert (1 <= (a - 1) * p + 1 < a)%R as [H1 H2] by (split; nra).
  set (t := ((a - 1) * p + 1)%R) in *. split.
  - unfold Rdiv. rewrite <- (Rmult_1_l (/ a)) at 1. apply Rmult_le_compat_r; [left; apply Rinv_0_lt_compat; lra|]. nra.
  - apply (Rmult_lt_reg_r a); [lra|]. unfold Rdiv. rewrite Rmult_assoc, Rinv_l, Rmult_1_r by lra. nra.
Qed.

Lemma stretched_line n_dim z xk xj q i vk vj : stretched n_dim z xk xj q -> i < n_dim ->
  nth_error xk i = Some (XFin vk) -> nth_error xj i = Some (XFin vj) -> vk <> vj ->
  nth_error q i = Some (XFin (vj + z * (vk - vj))).
Proof.
  intros [_ [H _]] Hi Hk Hj Hne. destruct (H i Hi) as [vk' [vj' [E1 [E2 E3]]]]. rewrite Hk in E1. rewrite Hj in E2.
  injection E1 as <-. injection E2 as <-. rewrite E3. cbn [xsub xiszero].
  unfold Rminus in *. cbn. destruct (Reqb_spec (vk + - vj) 0) as [E|_]; [exfalso; apply Hne; lra|]. reflexivity.
Qed.

Lemma sampler_params_spec {G} (uniform : Z -> Z -> G -> Z * G) uniform_real f fuel params iters g states g' :
  int_contract uniform -> real_contract uniform_real -> (Z.of_nat (length params) < 2 ^ 64)%Z ->
  ensemble_sampler_params uniform uniform_real f fuel params iters g = Some (Ok (states, g')) ->
  length states = S iters /\
  Forall (fun e => length e = length params /\ all_finite e /\ consistent f e) states.
Proof.
  intros Hi Hr Hb H. unfold ensemble_sampler_params in H. apply sampler_spec in H; try assumption; [|rewrite map_length; exact Hb].
  destruct H as [first [rest [-> [L [_ [F [C _]]]]]]]. split; [cbn; congruence|]. rewrite map_length in F.
  assert (consistent f (map (fun p => SS p (f p) true) params)) as Hc.
  { apply Forall_forall. intros s Hs. apply in_map_iff in Hs as [p [<- _]]. reflexivity. }
  specialize (C Hc). rewrite Forall_forall in *. intros e He. destruct (F e He). auto.
Qed.

Lemma sampler_model_spec {G} (uniform : Z -> Z -> G -> Z * G) uniform_real jitter f fuel params n iters g states g' :
  int_contract uniform -> real_contract uniform_real -> (Z.of_nat (Nat.max n (2 * length params + 1)) < 2 ^ 64)%Z ->
  ensemble_sampler_model uniform uniform_real jitter f fuel params n iters g = Some (Ok (states, g')) ->
  exists tp, get_tunable_parameters params = Ok tp /\ length states = S iters /\
  Forall (fun e => length e = Nat.max n (2 * length params + 1) /\ all_finite e /\ consistent f e) states /\
  (forallb xisfinite (tp_values tp) = true -> xisfinite (f (tp_values tp)) = true ->
   exists first, nth_error states 0 = Some first /\ nth_error first 0 = Some (SS (tp_values tp) (f (tp_values tp)) true)).
Proof.
  intros Hi Hr Hb H. unfold ensemble_sampler_model in H. apply rbind_ok in H as [ps [g1 [H1 H]]].
  apply jitter_spec in H1 as [tp [E [L [E0 _]]]]. exists tp. split; [exact E|]. rewrite <- L in Hb.
  destruct (sampler_params_spec _ _ _ _ _ _ _ _ _ Hi Hr Hb H) as [Ls F]. rewrite L in F. split; [exact Ls|]. split; [exact F|].
  intros Hf1 Hf2. unfold ensemble_sampler_params in H. apply sampler_spec in H; try assumption; [|rewrite map_length; exact Hb].
  destruct H as [first [rest [-> [_ [[extra [Ef _]] _]]]]]. exists first. split; [reflexivity|]. rewrite Ef.
  destruct ps as [|p0 ps]; [discriminate|]. injection E0 as ->. cbn [map filter]. unfold finite_state at 1. cbn [ss_log_prob ss_params].
  rewrite Hf1, Hf2. reflexivity.
Qed.

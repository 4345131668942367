From Verif Require Import Base BaseProofs StdMapModel StdMapProofs IndexingModel IndexingProofs RandomModel.
From Coq Require Import Permutation.

Lemma klt_Z (a b : Z) : klt a b <-> (a < b)%Z.
Proof. unfold klt. cbn. apply Z.compare_lt_iff. Qed.

Lemma SSorted_klt_Zlt l : StronglySorted klt l <-> StronglySorted Z.lt l.
Proof.
  split; induction 1 as [|a l Hs IH Hf]; constructor; auto;
    eapply Forall_impl; try exact Hf; intros b; apply klt_Z.
Qed.

Lemma length_sinsert {K} `{OrdKey K} (k : K) s :
  length (sinsert k s) = length s \/ length (sinsert k s) = S (length s).
Proof.
  induction s as [|a s IH]; cbn; [auto|]. destruct (kcmp k a); cbn; auto.
  destruct IH as [-> | ->]; auto.
Qed.

Section P.
Context {G : Type}.
Variable uniform : Z -> Z -> G -> Z * G.
Hypothesis Hu : forall lo hi g, (lo <= hi)%Z -> (lo <= fst (uniform lo hi g) <= hi)%Z.

Lemma sample_loop_spec fuel n lo hi : (lo <= hi)%Z -> forall samples g out g',
  length samples <= n -> StronglySorted klt samples -> Forall (fun v => (lo <= v <= hi)%Z) samples ->
  sample_loop uniform fuel n lo hi samples g = Some (out, g') ->
  StronglySorted klt out /\ length out = n /\ Forall (fun v => (lo <= v <= hi)%Z) out.
Proof.
  intros Hlh. induction fuel as [|fuel IH]; intros samples g out g' Hl Hs Hf E; cbn in E.
  - destruct (Nat.ltb_spec (length samples) n); [discriminate|]. injection E as <- <-.
    repeat split; auto. lia.
  - destruct (Nat.ltb_spec (length samples) n).
    + destruct (uniform lo hi g) as [v g1] eqn:Ev. apply IH in E; auto.
      * destruct (length_sinsert v samples) as [-> | ->]; lia.
      * apply sorted_sinsert. exact Hs.
      * apply Forall_forall. intros x Hx. apply In_sinsert in Hx as [->|Hx].
        -- pose proof (Hu lo hi g Hlh) as Hv. rewrite Ev in Hv. exact Hv.
        -- rewrite Forall_forall in Hf. auto.
    + injection E as <- <-. repeat split; auto. lia.
Qed.

(* enough distinct draws: the loop returns *)
Lemma sample_loop_returns fuel n lo hi samples g :
  StronglySorted klt samples ->
  n <= length (fold_left (fun s k => sinsert k s) (draws uniform lo hi fuel g) samples) ->
  exists r, sample_loop uniform fuel n lo hi samples g = Some r.
Proof.
  revert samples g. induction fuel as [|fuel IH]; intros samples g Hs Hn; cbn in *.
  - destruct (Nat.ltb_spec (length samples) n); [lia|]. eauto.
  - destruct (Nat.ltb_spec (length samples) n); [|eauto].
    destruct (uniform lo hi g) as [v g1]. apply IH; [apply sorted_sinsert; exact Hs|exact Hn].
Qed.

Lemma seq_Z_sorted low n : StronglySorted Z.lt (map (fun i => (low + Z.of_nat i)%Z) (seq 0 n)).
Proof.
  generalize 0 as s. induction n as [|n IH]; intros s; cbn; constructor; [apply IH|].
  apply Forall_forall. intros x Hx. apply in_map_iff in Hx as [i [<- Hi]]. apply in_seq in Hi. lia.
Qed.

Lemma sorted_map_mono {A B} (RA : A -> A -> Prop) (RB : B -> B -> Prop) (f : A -> B) l :
  (forall a b, RA a b -> RB (f a) (f b)) -> StronglySorted RA l -> StronglySorted RB (map f l).
Proof.
  intros Hm. induction 1 as [|a l Hs IH Hf]; cbn; constructor; [exact IH|].
  apply Forall_forall. intros x Hx. apply in_map_iff in Hx as [y [<- Hy]]. rewrite Forall_forall in Hf. auto.
Qed.

Lemma SSorted_Zlt_NoDup l : StronglySorted Z.lt l -> NoDup l.
Proof.
  induction 1 as [|a l Hs IH Hf]; constructor; [|exact IH].
  intros Hin. rewrite Forall_forall in Hf. specialize (Hf a Hin). lia.
Qed.

Lemma complement_length inds n : NoDup inds -> Forall (fun i => i < n) inds ->
  length (indices_complement inds n) = n - length inds.
Proof.
  intros Hn Hf. pose proof (Permutation_length (indices_complement_permutation inds n Hn Hf)) as HP.
  rewrite app_length, seq_length in HP. lia.
Qed.

Lemma randint_rec_spec depth fuel n lo hi g out g' :
  (0 <= lo <= hi)%Z -> (hi < 2 ^ 64)%Z -> (hi - lo + 1 < 2 ^ 64)%Z ->
  randint_rec uniform depth fuel n lo hi g = Some (Ok (out, g')) ->
  StronglySorted Z.lt out /\ length out = n /\ Forall (fun v => (lo <= v <= hi)%Z) out.
Proof.
  revert n lo hi g out g'. induction depth as [|depth IH]; intros n lo hi g out g' Hlh Hhi Hw E; [discriminate|].
  cbn [randint_rec] in E.
  assert (wrap64 (hi - lo + 1) = hi - lo + 1)%Z as Hnc by (unfold wrap64; apply Z.mod_small; lia).
  rewrite Hnc in E. set (nc := Z.to_nat (hi - lo + 1)) in *.
  assert (Z.of_nat nc = hi - lo + 1)%Z as Hz by (unfold nc; lia).
  destruct (Nat.ltb_spec nc n); [discriminate|].
  destruct (Nat.eqb_spec n nc) as [En|En].
  - injection E as <- <-.
    assert (map (fun i => wrap64 (lo + Z.of_nat i)) (seq 0 n) = map (fun i => (lo + Z.of_nat i)%Z) (seq 0 n)) as ->.
    { apply map_ext_in. intros i Hi. apply in_seq in Hi. unfold wrap64. apply Z.mod_small. lia. }
    split; [apply seq_Z_sorted|]. split; [rewrite map_length, seq_length; reflexivity|].
    apply Forall_forall. intros x Hx. apply in_map_iff in Hx as [i [<- Hi]]. apply in_seq in Hi. lia.
  - destruct (nc / 2 + 1 <? n) eqn:Eb.
    + destruct (randint_rec uniform depth fuel (nc - n) 0 (wrap64 (Z.of_nat nc - 1)) g) as [[[thr g1]| | |]|] eqn:Er; try discriminate.
      assert (wrap64 (Z.of_nat nc - 1) = Z.of_nat nc - 1)%Z as Hnc1 by (unfold wrap64; apply Z.mod_small; lia).
      rewrite Hnc1 in Er. apply IH in Er as [Hs [Hl Hf]]; [|lia|lia|lia].
      injection E as <- <-.
      assert (map (fun el => if (lo =? 0)%Z then Z.of_nat el else wrap64 (Z.of_nat el + lo))
                (indices_complement (map Z.to_nat thr) nc) =
              map (fun el => (Z.of_nat el + lo)%Z) (indices_complement (map Z.to_nat thr) nc)) as ->.
      { apply map_ext_in. intros i Hi. apply indices_complement_spec in Hi as [Hi _].
        destruct (Z.eqb_spec lo 0); [lia|]. unfold wrap64. apply Z.mod_small. lia. }
      destruct (indices_complement_spec (map Z.to_nat thr) nc) as [Hcs Hci].
      split; [eapply sorted_map_mono; [|exact Hcs]; intros; lia|]. split.
      * rewrite map_length, complement_length; [rewrite map_length; lia| |].
        -- apply SSorted_Zlt_NoDup in Hs. rewrite Forall_forall in Hf. clear -Hs Hf.
           induction Hs as [|a l Hn Hnd IHn]; cbn; constructor.
           ++ intros Hin. apply in_map_iff in Hin as [b [E Hb]]. apply Hn.
              assert (a = b) as ->; [|exact Hb].
              pose proof (Hf a (or_introl eq_refl)). pose proof (Hf b (or_intror Hb)). lia.
           ++ apply IHn. intros x Hx. apply Hf. right. exact Hx.
        -- apply Forall_forall. intros i Hi. apply in_map_iff in Hi as [b [<- Hb]].
           rewrite Forall_forall in Hf. specialize (Hf b Hb). lia.
      * apply Forall_forall. intros x Hx. apply in_map_iff in Hx as [i [<- Hi]].
        apply Hci in Hi as [Hi _]. lia.
    + destruct (Z.ltb_spec hi lo); [lia|].
      destruct (sample_loop uniform fuel n lo hi [] g) as [r|] eqn:Es; [|discriminate].
      injection E as ->. apply sample_loop_spec in Es; [|lia|cbn; lia|constructor|constructor].
      destruct Es as [H1 [H2 H3]]. split; [apply SSorted_klt_Zlt; exact H1|]. auto.
Qed.

(* the outcome is never anything but a return, a failed assertion, or waiting *)
Lemma randint_rec_outcomes depth fuel n lo hi g :
  (0 <= lo <= hi)%Z -> (hi < 2 ^ 64)%Z -> (hi - lo + 1 < 2 ^ 64)%Z ->
  match randint_rec uniform depth fuel n lo hi g with
  | Some (Ok _) => (Z.of_nat n <= hi - lo + 1)%Z
  | Some Abort => (hi - lo + 1 < Z.of_nat n)%Z
  | Some _ => False
  | None => True
  end.
Proof.
  revert n lo hi g. induction depth as [|depth IH]; intros n lo hi g Hlh Hhi Hw; [exact I|].
  cbn [randint_rec].
  assert (wrap64 (hi - lo + 1) = hi - lo + 1)%Z as Hnc by (unfold wrap64; apply Z.mod_small; lia).
  rewrite Hnc. set (nc := Z.to_nat (hi - lo + 1)) in *.
  assert (Z.of_nat nc = hi - lo + 1)%Z as Hz by (unfold nc; lia).
  destruct (Nat.ltb_spec nc n); [lia|].
  destruct (Nat.eqb_spec n nc) as [En|En]; [lia|].
  destruct (nc / 2 + 1 <? n) eqn:Eb.
  - assert (wrap64 (Z.of_nat nc - 1) = Z.of_nat nc - 1)%Z as Hnc1 by (unfold wrap64; apply Z.mod_small; lia).
    rewrite Hnc1. specialize (IH (nc - n) 0%Z (Z.of_nat nc - 1)%Z g ltac:(lia) ltac:(lia) ltac:(lia)).
    destruct (randint_rec uniform depth fuel (nc - n) 0 (Z.of_nat nc - 1) g) as [[[thr g1]| | |]|]; auto; lia.
  - destruct (Z.ltb_spec hi lo); [lia|].
    destruct (sample_loop uniform fuel n lo hi [] g); auto. lia.
Qed.

Lemma randint_depth extra fuel n lo hi g :
  (0 <= lo <= hi)%Z -> (hi < 2 ^ 64)%Z -> (hi - lo + 1 < 2 ^ 64)%Z ->
  randint_rec uniform (2 + extra) fuel n lo hi g = randint_rec uniform 2 fuel n lo hi g.
Proof.
  intros Hlh Hhi Hw.
  assert (forall d d' n' lo' hi', (0 <= lo' <= hi')%Z -> (hi' - lo' + 1 < 2 ^ 64)%Z ->
    (n' <= Z.to_nat (hi' - lo' + 1) / 2 + 1) ->
    randint_rec uniform (S d) fuel n' lo' hi' g = randint_rec uniform (S d') fuel n' lo' hi' g) as Hd.
  { intros d d' n' lo' hi' H1 H2 H3. cbn [randint_rec].
    assert (wrap64 (hi' - lo' + 1) = hi' - lo' + 1)%Z as Hnc by (unfold wrap64; apply Z.mod_small; lia).
    rewrite Hnc. set (nc := Z.to_nat (hi' - lo' + 1)) in *.
    destruct (Nat.ltb_spec nc n'); [reflexivity|]. destruct (Nat.eqb_spec n' nc); [reflexivity|].
    destruct (Nat.ltb_spec (nc / 2 + 1) n'); [lia|]. reflexivity. }
  change (2 + extra) with (S (S extra)).
  cbn [randint_rec]. 
  assert (wrap64 (hi - lo + 1) = hi - lo + 1)%Z as Hnc by (unfold wrap64; apply Z.mod_small; lia).
  rewrite Hnc. set (nc := Z.to_nat (hi - lo + 1)) in *.
  assert (Z.of_nat nc = hi - lo + 1)%Z as Hz by (unfold nc; lia).
  destruct (Nat.ltb_spec nc n); [reflexivity|]. destruct (Nat.eqb_spec n nc); [reflexivity|].
  destruct (Nat.ltb_spec (nc / 2 + 1) n) as [Hlt|]; [|reflexivity].
  assert (wrap64 (Z.of_nat nc - 1) = Z.of_nat nc - 1)%Z as Hnc1 by (unfold wrap64; apply Z.mod_small; lia).
  rewrite Hnc1.
  pose proof (Hd extra 0 (nc - n) 0%Z (Z.of_nat nc - 1)%Z) as He.
  cbn [randint_rec] in He. rewrite He; [reflexivity|lia|lia|].
  replace (Z.to_nat (Z.of_nat nc - 1 - 0 + 1)) with nc by lia.
  pose proof (Nat.div_mod nc 2 ltac:(lia)). pose proof (Nat.mod_upper_bound nc 2 ltac:(lia)). lia.
Qed.

(* a stream with enough distinct values in the range makes the call return *)
Lemma randint_returns fuel n lo hi g :
  (0 <= lo <= hi)%Z -> (hi < 2 ^ 64)%Z -> (hi - lo + 1 < 2 ^ 64)%Z -> (Z.of_nat n <= hi - lo + 1)%Z ->
  n <= length (sof_list (draws uniform lo hi fuel g)) ->
  Z.to_nat (hi - lo + 1) - n <= length (sof_list (draws uniform 0 (hi - lo) fuel g)) ->
  exists r, randint_without_replacement uniform fuel n lo hi g = Some (Ok r).
Proof.
  intros Hlh Hhi Hw Hn Hd1 Hd2. unfold randint_without_replacement. cbn [randint_rec].
  assert (wrap64 (hi - lo + 1) = hi - lo + 1)%Z as Hnc by (unfold wrap64; apply Z.mod_small; lia).
  rewrite Hnc. set (nc := Z.to_nat (hi - lo + 1)) in *.
  assert (Z.of_nat nc = hi - lo + 1)%Z as Hz by (unfold nc; lia).
  destruct (Nat.ltb_spec nc n); [lia|]. destruct (Nat.eqb_spec n nc); [eauto|].
  destruct (Nat.ltb_spec (nc / 2 + 1) n) as [Hlt|].
  - assert (wrap64 (Z.of_nat nc - 1) = Z.of_nat nc - 1)%Z as Hnc1 by (unfold wrap64; apply Z.mod_small; lia).
    rewrite Hnc1. replace (Z.of_nat nc - 1 - 0 + 1)%Z with (Z.of_nat nc) by lia.
    assert (wrap64 (Z.of_nat nc) = Z.of_nat nc) as Hnc2 by (unfold wrap64; apply Z.mod_small; lia).
    rewrite Hnc2, Nat2Z.id.
    destruct (Nat.ltb_spec nc (nc - n)); [lia|]. destruct (Nat.eqb_spec (nc - n) nc); [lia|].
    destruct (Nat.ltb_spec (nc / 2 + 1) (nc - n)) as [Hlt2|].
    { pose proof (Nat.div_mod nc 2 ltac:(lia)). pose proof (Nat.mod_upper_bound nc 2 ltac:(lia)). lia. }
    destruct (Z.ltb_spec (Z.of_nat nc - 1) 0); [lia|].
    destruct (sample_loop_returns fuel (nc - n) 0 (Z.of_nat nc - 1) [] g) as [[o g1] ->]; [constructor| |eauto].
    replace (Z.of_nat nc - 1)%Z with (hi - lo)%Z by lia. exact Hd2.
  - destruct (Z.ltb_spec hi lo); [lia|].
    destruct (sample_loop_returns fuel n lo hi [] g) as [[o g1] ->]; [constructor|exact Hd1|eauto].
Qed.

Lemma random_without_replacement_spec {X} fuel (xs : list X) n g r :
  (Z.of_nat (length xs) < 2 ^ 64)%Z ->
  random_without_replacement uniform fuel xs n g = Some r ->
  (n <= length xs /\ exists out g' inds, r = Ok (out, g') /\
     StronglySorted lt inds /\ length inds = n /\ subset xs inds = Ok out) \/
  (length xs < n /\ r = Abort).
Proof.
  intros Hlen E. unfold random_without_replacement in E.
  destruct (Nat.eq_dec (length xs) 0) as [H0|H0].
  - rewrite H0 in E. cbn [randint_without_replacement] in E. unfold randint_without_replacement in E.
    cbn [randint_rec] in E.
    assert (Z.to_nat (wrap64 (wrap64 (Z.of_nat 0 - 1) - 0 + 1)) = 0) as E0 by reflexivity.
    rewrite E0 in E. destruct (Nat.ltb_spec 0 n).
    + injection E as <-. right. split; [lia|reflexivity].
    + assert (n = 0) as -> by lia. cbn in E. injection E as <-. left. split; [lia|].
      exists [], g, []. repeat split; constructor.
  - assert (wrap64 (Z.of_nat (length xs) - 1) = Z.of_nat (length xs) - 1)%Z as Hw by (unfold wrap64; apply Z.mod_small; lia).
    rewrite Hw in E.
    pose proof (randint_rec_outcomes 2 fuel n 0 (Z.of_nat (length xs) - 1) g ltac:(lia) ltac:(lia) ltac:(lia)) as Ho.
    unfold randint_without_replacement in E.
    destruct (randint_rec uniform 2 fuel n 0 (Z.of_nat (length xs) - 1) g) as [[[inds g']| | |]|] eqn:Er; try contradiction; try discriminate.
    + apply randint_rec_spec in Er as [Hs [Hl Hf]]; [|lia|lia|lia].
      left. split; [lia|]. rewrite Forall_forall in Hf.
      assert (exists out, subset xs (map Z.to_nat inds) = Ok out) as [out Hout].
      { apply subset_total. apply Forall_forall. intros i Hi. apply in_map_iff in Hi as [z [<- Hz]].
        specialize (Hf z Hz). lia. }
      assert (mapM (fun i => of_option UB (nth_error xs (Z.to_nat i))) inds = Ok out) as Hm.
      { apply mapM_ok. apply Forall2_nth_error_iff. apply subset_ok_iff in Hout as [H1 H2].
        rewrite map_length in H1. split; [lia|]. intros i z v Hz Hv.
        specialize (H2 i (Z.to_nat z)). rewrite nth_error_map', Hz in H2. destruct (H2 eq_refl) as [_ H3].
        rewrite <- H3, Hv. reflexivity. }
      rewrite Hm in E. cbn [bind] in E. injection E as <-.
      exists out, g', (map Z.to_nat inds). split; [reflexivity|]. split; [|split; [rewrite map_length; exact Hl|exact Hout]].
      clear -Hs Hf. induction Hs as [|a l Hs IH Hfo]; cbn; constructor.
      * apply IH. intros x Hx. apply Hf. right. exact Hx.
      * apply Forall_forall. intros x Hx. apply in_map_iff in Hx as [z [<- Hz]].
        rewrite Forall_forall in Hfo. specialize (Hfo z Hz). pose proof (Hf a (or_introl eq_refl)).
        pose proof (Hf z (or_intror Hz)). lia.
    + injection E as <-. right. split; [lia|reflexivity].
Qed.
End P.

(* every choice can be produced: an engine that replays a list *)
Definition replay (lo hi : Z) (g : list Z) : Z * list Z :=
  match g with
  | v :: g' => (if ((lo <=? v) && (v <=? hi))%Z then v else lo, g')
  | [] => (lo, [])
  end.

Lemma replay_contract lo hi g : (lo <= hi)%Z -> (lo <= fst (replay lo hi g) <= hi)%Z.
Proof.
  intros H. destruct g as [|v g]; cbn; [lia|].
  destruct (Z.leb_spec lo v); cbn [andb]; [|lia]. destruct (Z.leb_spec v hi); lia.
Qed.

Lemma sinsert_new_length {K} `{OrdKey K} (k : K) s : ~ In k s -> length (sinsert k s) = S (length s).
Proof.
  induction s as [|a s IH]; cbn; [auto|]. intros Hn. destruct (kcmp k a) eqn:E; cbn; auto.
  apply kcmp_eq in E. subst. tauto.
  rewrite IH; [reflexivity|tauto].
Qed.

Lemma sample_loop_replay l rest lo hi n : forall samples,
  NoDup (samples ++ l) -> StronglySorted klt samples -> Forall (fun v => (lo <= v <= hi)%Z) l ->
  length samples + length l = n ->
  sample_loop replay (length l) n lo hi samples (l ++ rest) =
    Some (fold_left (fun s k => sinsert k s) l samples, rest).
Proof.
  induction l as [|v l IH]; intros samples Hnd Hs Hf Hn; cbn in *.
  - destruct (Nat.ltb_spec (length samples) n); [lia|]. reflexivity.
  - destruct (Nat.ltb_spec (length samples) n); [|lia].
    inversion Hf as [|? ? Hv Hf']; subst.
    destruct (Z.leb_spec lo v); [|lia]. destruct (Z.leb_spec v hi); [|lia]. cbn [andb].
    assert (~ In v samples) as Hnv.
    { intros Hin. apply NoDup_remove_2 in Hnd. apply Hnd. apply in_or_app. auto. }
    apply IH; auto.
    + apply NoDup_remove in Hnd as [Hnd Hvn]. clear -Hnd Hvn Hs.
      apply NoDup_app_intro; [apply sorted_NoDup, sorted_sinsert, Hs| |].
      * clear -Hnd. induction samples as [|a s IHs]; cbn in *; [exact Hnd|]. inversion Hnd; auto.
      * intros x Hx Hxl. apply In_sinsert in Hx as [->|Hx].
        -- apply Hvn. apply in_or_app. auto.
        -- clear -Hnd Hx Hxl. induction samples as [|a s IHs]; cbn in *; [contradiction|].
           inversion Hnd as [|? ? Hna Hnd']; subst. destruct Hx as [->|Hx]; auto.
           apply Hna. apply in_or_app. auto.
    + apply sorted_sinsert, Hs.
    + rewrite sinsert_new_length; [lia|exact Hnv].
Qed.

Lemma sof_sorted_id (l : list Z) : StronglySorted Z.lt l -> fold_left (fun s k => sinsert k s) l [] = l.
Proof.
  intros Hs. apply sorted_ext; [apply (sof_list_sorted l)|apply SSorted_klt_Zlt; exact Hs|apply (sof_list_In l)].
Qed.

Lemma randint_every_choice lo hi l :
  (0 <= lo <= hi)%Z -> (hi < 2 ^ 64)%Z -> (hi - lo + 1 < 2 ^ 64)%Z ->
  StronglySorted Z.lt l -> Forall (fun v => (lo <= v <= hi)%Z) l ->
  exists fuel g, randint_without_replacement replay fuel (length l) lo hi g = Some (Ok (l, [])).
Proof.
  intros Hlh Hhi Hw Hs Hf. rewrite Forall_forall in Hf.
  set (nc := Z.to_nat (hi - lo + 1)).
  assert (Z.of_nat nc = hi - lo + 1)%Z as Hz by (unfold nc; lia).
  assert (wrap64 (hi - lo + 1) = hi - lo + 1)%Z as Hnc by (unfold wrap64; apply Z.mod_small; lia).
  set (il := map (fun v => Z.to_nat (v - lo)) l).
  assert (length il = length l) as Hil by (unfold il; apply map_length).
  assert (StronglySorted lt il) as Hsil.
  { unfold il. clear -Hs Hf. induction Hs as [|a l Hs IH Hfa]; cbn; constructor.
    - apply IH. intros x Hx. apply Hf. right; exact Hx.
    - apply Forall_forall. intros x Hx. apply in_map_iff in Hx as [v [<- Hv]].
      rewrite Forall_forall in Hfa. specialize (Hfa v Hv). pose proof (Hf a (or_introl eq_refl)).
      pose proof (Hf v (or_intror Hv)). lia. }
  assert (Forall (fun i => i < nc) il) as Hfil.
  { apply Forall_forall. intros i Hi. unfold il in Hi. apply in_map_iff in Hi as [v [<- Hv]].
    specialize (Hf v Hv). lia. }
  assert (length (indices_complement il nc) = nc - length l) as Hlc.
  { rewrite complement_length; [lia|apply SSorted_lt_NoDup; exact Hsil|exact Hfil]. }
  assert (length l <= nc) as Hle.
  { rewrite <- Hil. pose proof (NoDup_incl_length (SSorted_lt_NoDup _ Hsil) (l' := seq 0 nc)) as Hinc.
    rewrite seq_length in Hinc. apply Hinc. intros i Hi. rewrite Forall_forall in Hfil. apply in_seq.
    specialize (Hfil i Hi). lia. }
  assert (map (fun i => (Z.of_nat i + lo)%Z) il = l) as Hback.
  { unfold il. rewrite map_map. rewrite <- (map_id l) at 2. apply map_ext_in. intros v Hv. specialize (Hf v Hv). lia. }
  unfold randint_without_replacement.
  destruct (Nat.eq_dec (length l) nc) as [En|En].
  - exists 0, []. cbn [randint_rec]. rewrite Hnc. fold nc.
    destruct (Nat.ltb_spec nc (length l)); [lia|]. destruct (Nat.eqb_spec (length l) nc); [|lia].
    f_equal. f_equal. f_equal. 
    assert (il = seq 0 nc) as Eil.
    { apply SSorted_lt_ext; [exact Hsil|apply SSorted_seq|]. intros i. rewrite in_seq.
      rewrite Forall_forall in Hfil. split; [intros Hi; specialize (Hfil i Hi); lia|].
      intros Hi. destruct (in_dec Nat.eq_dec i il) as [Hin|Hni]; [exact Hin|].
      assert (In i (indices_complement il nc)) as Hc by (apply indices_complement_spec; split; [lia|exact Hni]).
      destruct (indices_complement il nc); [contradiction|]. cbn in Hlc. lia. }
    etransitivity; [|exact Hback]. rewrite Eil, En. apply map_ext_in. intros i Hi. apply in_seq in Hi.
    unfold wrap64. rewrite Z.mod_small; lia.
  - destruct (Nat.ltb_spec (nc / 2 + 1) (length l)) as [Hbig|Hsm].
    + set (c := map Z.of_nat (indices_complement il nc)).
      assert (length c = nc - length l) as Hcl by (unfold c; rewrite map_length; exact Hlc).
      exists (length c), (c ++ []). cbn [randint_rec]. rewrite Hnc. fold nc.
      destruct (Nat.ltb_spec nc (length l)); [lia|]. destruct (Nat.eqb_spec (length l) nc); [lia|].
      destruct (Nat.ltb_spec (nc / 2 + 1) (length l)); [|lia].
      assert (wrap64 (Z.of_nat nc - 1) = Z.of_nat nc - 1)%Z as Hnc1 by (unfold wrap64; apply Z.mod_small; lia).
      rewrite Hnc1. replace (Z.of_nat nc - 1 - 0 + 1)%Z with (Z.of_nat nc) by lia.
      assert (wrap64 (Z.of_nat nc) = Z.of_nat nc) as Hnc2 by (unfold wrap64; apply Z.mod_small; lia).
      rewrite Hnc2, Nat2Z.id.
      destruct (Nat.ltb_spec nc (nc - length l)); [lia|]. destruct (Nat.eqb_spec (nc - length l) nc); [lia|].
      destruct (Nat.ltb_spec (nc / 2 + 1) (nc - length l)) as [Hlt2|].
      { pose proof (Nat.div_mod nc 2 ltac:(lia)). pose proof (Nat.mod_upper_bound nc 2 ltac:(lia)). lia. }
      destruct (Z.ltb_spec (Z.of_nat nc - 1) 0); [lia|].
      destruct (indices_complement_spec il nc) as [Hcs Hci].
      assert (StronglySorted Z.lt c) as Hsc by (unfold c; eapply sorted_map_mono; [|exact Hcs]; intros; lia).
      rewrite sample_loop_replay with (n := nc - length l); cbn [length app]; try lia.
      * rewrite sof_sorted_id by exact Hsc. f_equal. f_equal. f_equal.
        assert (indices_complement (map Z.to_nat c) nc = il) as ->.
        { apply SSorted_lt_ext; [apply indices_complement_spec|exact Hsil|]. intros i.
          rewrite (proj2 (indices_complement_spec _ _)).
          assert (map Z.to_nat c = indices_complement il nc) as ->.
          { unfold c. rewrite map_map. erewrite map_ext; [apply map_id|]. intros a. apply Nat2Z.id. }
          rewrite Hci. rewrite Forall_forall in Hfil. split.
          - intros [H1' H2']. destruct (in_dec Nat.eq_dec i il) as [Hin|Hni]; [exact Hin|]. exfalso. tauto.
          - intros Hi. split; [apply Hfil; exact Hi|]. tauto. }
        etransitivity; [|exact Hback]. apply map_ext_in. intros i Hi. rewrite Forall_forall in Hfil. specialize (Hfil i Hi).
        destruct (Z.eqb_spec lo 0); [lia|]. unfold wrap64. apply Z.mod_small. lia.
      * apply SSorted_Zlt_NoDup. exact Hsc.
      * constructor.
      * apply Forall_forall. intros x Hx. unfold c in Hx. apply in_map_iff in Hx as [i [<- Hi]].
        apply Hci in Hi as [Hi _]. lia.
    + exists (length l), (l ++ []). cbn [randint_rec]. rewrite Hnc. fold nc.
      destruct (Nat.ltb_spec nc (length l)); [lia|]. destruct (Nat.eqb_spec (length l) nc); [lia|].
      destruct (Nat.ltb_spec (nc / 2 + 1) (length l)); [lia|].
      destruct (Z.ltb_spec hi lo); [lia|].
      rewrite sample_loop_replay with (n := length l); cbn [length app]; try lia.
      * rewrite sof_sorted_id by exact Hs. reflexivity.
      * apply SSorted_Zlt_NoDup. exact Hs.
      * constructor.
      * apply Forall_forall. exact Hf.
Qed.

Lemma distinct_draws (l d : list Z) n : NoDup l -> incl l d -> n <= length l -> n <= length (sof_list d).
Proof.
  intros Hn Hi Hl. etransitivity; [exact Hl|]. apply NoDup_incl_length; [exact Hn|].
  intros x Hx. apply sof_list_In, Hi, Hx.
Qed.

(* Facts about the std::map model. *)
From Verif Require Import Base BaseProofs StdMapModel.
From Coq Require Import Permutation.

Section Order.
Context {K : Type} `{OrdKey K}.

Lemma kcmp_refl (a : K) : kcmp a a = Eq.
Proof. apply kcmp_eq; reflexivity. Qed.

Lemma klt_irrefl (a : K) : ~ klt a a.
Proof. unfold klt. rewrite kcmp_refl. discriminate. Qed.

Lemma klt_trans (a b c : K) : klt a b -> klt b c -> klt a c.
Proof. apply kcmp_trans. Qed.

Lemma kcmp_gt (a b : K) : kcmp a b = Gt <-> klt b a.
Proof.
  unfold klt. rewrite (kcmp_antisym a b). destruct (kcmp a b); cbn; split;
    congruence.
Qed.

Lemma kcmp_lt (a b : K) : kcmp a b = Lt <-> klt a b.
Proof. reflexivity. Qed.

Lemma keqb_spec (a b : K) : reflect (a = b) (keqb a b).
Proof.
  unfold keqb. destruct (kcmp a b) eqn:E; constructor.
  - apply kcmp_eq; exact E.
  - intros ->. rewrite kcmp_refl in E. discriminate.
  - intros ->. rewrite kcmp_refl in E. discriminate.
Qed.

Lemma keqb_refl (a : K) : keqb a a = true.
Proof. destruct (keqb_spec a a); congruence. Qed.

Lemma keqb_eq (a b : K) : keqb a b = true <-> a = b.
Proof. destruct (keqb_spec a b); split; congruence. Qed.

Lemma keq_dec (a b : K) : {a = b} + {a <> b}.
Proof. destruct (keqb_spec a b); [left|right]; assumption. Defined.

Lemma kltb_spec (a b : K) : reflect (klt a b) (kltb a b).
Proof. unfold kltb, klt. destruct (kcmp a b); constructor; congruence. Qed.

Lemma klt_total (a b : K) : klt a b \/ a = b \/ klt b a.
Proof.
  destruct (kcmp a b) eqn:E.
  - right; left; apply kcmp_eq; exact E.
  - left; exact E.
  - right; right; apply kcmp_gt; exact E.
Qed.

Lemma sorted_NoDup (l : list K) : StronglySorted klt l -> NoDup l.
Proof.
  induction 1 as [|a l Hs IH Hf]; constructor; [|exact IH].
  intros Hin. rewrite Forall_forall in Hf. apply (klt_irrefl a), Hf, Hin.
Qed.

Lemma sorted_ext (l l' : list K) :
  StronglySorted klt l -> StronglySorted klt l' ->
  (forall k, In k l <-> In k l') -> l = l'.
Proof.
  intros Hl. revert l'. induction Hl as [|a l Hs IH Hf]; intros l' Hl' E.
  - destruct l' as [|b l']; [reflexivity|]. exfalso. apply (E b). left; reflexivity.
  - destruct Hl' as [|b l' Hs' Hf'].
    { exfalso. apply (E a). left; reflexivity. }
    rewrite Forall_forall in Hf, Hf'.
    assert (a = b) as ->.
    { destruct (proj1 (E a) (or_introl eq_refl)) as [Hb|Ha]; [congruence|].
      destruct (proj2 (E b) (or_introl eq_refl)) as [Hb|Hb]; [congruence|].
      exfalso. apply (klt_irrefl a). eapply klt_trans; [apply Hf|apply Hf']; eauto. }
    f_equal. apply IH; [exact Hs'|]. intros k. split; intros Hk.
    + destruct (proj1 (E k) (or_intror Hk)) as [<-|Hk']; [|exact Hk'].
      exfalso. apply (klt_irrefl b), Hf, Hk.
    + destruct (proj2 (E k) (or_intror Hk)) as [<-|Hk']; [|exact Hk'].
      exfalso. apply (klt_irrefl b), Hf', Hk.
Qed.
End Order.

Section Map.
Context {K : Type} `{OrdKey K} {V : Type}.
Implicit Types (m : smap K V) (k : K) (v : V).

Lemma wf_nil : wf_map (@nil (K * V)).
Proof. constructor. Qed.

Lemma wf_cons k v m :
  wf_map ((k, v) :: m) <-> wf_map m /\ Forall (klt k) (mkeys m).
Proof.
  unfold wf_map, mkeys; cbn. split.
  - intros Hs. inversion Hs; subst. split; assumption.
  - intros [H1 H2]. constructor; assumption.
Qed.

Lemma mfind_In_keys k v m : mfind k m = Some v -> In (k, v) m.
Proof.
  induction m as [|[k' v'] m IH]; cbn; [discriminate|].
  destruct (kcmp k k') eqn:E; try discriminate.
  - apply kcmp_eq in E as ->. intros H1. injection H1 as ->. left; reflexivity.
  - intros H1. right. apply IH, H1.
Qed.

Lemma mfind_lt_None k m : Forall (klt k) (mkeys m) -> mfind k m = None.
Proof.
  destruct m as [|[k' v'] m]; cbn; [reflexivity|].
  intros Hf. inversion Hf; subst. rewrite (proj2 (kcmp_lt _ _)) by assumption.
  reflexivity.
Qed.

Lemma mfind_In k v m : wf_map m -> (mfind k m = Some v <-> In (k, v) m).
Proof.
  intros Hwf. split; [apply mfind_In_keys|].
  induction m as [|[k' v'] m IH]; cbn; [intros []|].
  apply wf_cons in Hwf as [Hwf Hf]. intros [E|Hin].
  - injection E as -> ->. rewrite kcmp_refl. reflexivity.
  - rewrite Forall_forall in Hf.
    assert (klt k' k) as Hlt. { apply Hf. apply (in_map fst) in Hin. exact Hin. }
    rewrite (proj2 (kcmp_gt _ _) Hlt). apply IH; assumption.
Qed.

Lemma mfind_None k m : wf_map m -> (mfind k m = None <-> ~ In k (mkeys m)).
Proof.
  intros Hwf. split.
  - intros Hn Hin. unfold mkeys in Hin. apply in_map_iff in Hin as [[k' v] [E Hin]].
    cbn in E; subst k'. apply mfind_In in Hin; [|exact Hwf]. congruence.
  - intros Hn. destruct (mfind k m) as [v|] eqn:E; [|reflexivity].
    exfalso. apply Hn. apply mfind_In in E; [|exact Hwf].
    apply (in_map fst) in E. exact E.
Qed.

Lemma mfind_Some_key k m :
  wf_map m -> (In k (mkeys m) <-> exists v, mfind k m = Some v).
Proof.
  intros Hwf. destruct (mfind k m) as [v|] eqn:E.
  - split; [eauto|]. intros _. apply mfind_In in E; [|exact Hwf].
    apply (in_map fst) in E. exact E.
  - split; [|intros [v Hv]; discriminate]. intros Hin.
    apply mfind_None in E; [|exact Hwf]. contradiction.
Qed.

Lemma mcontains_spec k m : wf_map m -> (mcontains k m = true <-> In k (mkeys m)).
Proof.
  intros Hwf. unfold mcontains. rewrite (mfind_Some_key _ _ Hwf).
  destruct (mfind k m); split; eauto; try discriminate. intros [v E]; discriminate.
Qed.

Lemma wf_NoDup m : wf_map m -> NoDup (mkeys m).
Proof. apply sorted_NoDup. Qed.

Lemma mkeys_massign_in k v m k' :
  In k' (mkeys (massign k v m)) <-> k' = k \/ In k' (mkeys m).
Proof.
  unfold mkeys. induction m as [|[k1 v1] m IH]; cbn.
  - firstorder.
  - destruct (kcmp k k1) eqn:E; cbn.
    + apply kcmp_eq in E as ->. firstorder.
    + firstorder.
    + rewrite IH. firstorder.
Qed.

Lemma wf_massign k v m : wf_map m -> wf_map (massign k v m).
Proof.
  induction m as [|[k1 v1] m IH]; intros Hwf; cbn.
  - apply wf_cons. split; [exact Hwf|constructor].
  - pose proof Hwf as Hwf0. apply wf_cons in Hwf as [Hwf Hf].
    destruct (kcmp k k1) eqn:E.
    + apply kcmp_eq in E as ->. exact Hwf0.
    + apply wf_cons. split; [exact Hwf0|]. cbn. constructor; [exact E|].
      eapply Forall_impl; [|exact Hf]. intros a Ha. eapply klt_trans; [exact E|exact Ha].
    + apply wf_cons. split; [apply IH; exact Hwf|].
      rewrite Forall_forall in *. intros a Ha.
      apply mkeys_massign_in in Ha as [->|Ha]; [|apply Hf; exact Ha].
      apply kcmp_gt. exact E.
Qed.

Lemma mfind_massign k v m k' :
  wf_map m -> mfind k' (massign k v m) = if keqb k' k then Some v else mfind k' m.
Proof.
  induction m as [|[k1 v1] m IH]; intros Hwf; cbn.
  - unfold keqb. destruct (kcmp k' k) eqn:E; reflexivity.
  - apply wf_cons in Hwf as [Hwf Hf].
    destruct (kcmp k k1) eqn:E; cbn.
    + apply kcmp_eq in E as ->. unfold keqb.
      destruct (kcmp k' k1) eqn:E1; reflexivity.
    + unfold keqb. destruct (kcmp k' k) eqn:E1; try reflexivity.
      assert (kcmp k' k1 = Lt) as -> by (eapply kcmp_trans; eauto). reflexivity.
    + destruct (kcmp k' k1) eqn:E1.
      * apply kcmp_eq in E1 as ->. unfold keqb.
        rewrite (kcmp_antisym k k1), E. reflexivity.
      * unfold keqb. apply kcmp_gt in E.
        assert (kcmp k' k = Lt) as -> by (eapply kcmp_trans; eauto). reflexivity.
      * apply IH; exact Hwf.
Qed.

Lemma mfind_massign_eq k v m : wf_map m -> mfind k (massign k v m) = Some v.
Proof. intros Hwf. rewrite mfind_massign, keqb_refl by exact Hwf. reflexivity. Qed.

Lemma mfind_massign_neq k v m k' :
  wf_map m -> k' <> k -> mfind k' (massign k v m) = mfind k' m.
Proof.
  intros Hwf Hne. rewrite mfind_massign by exact Hwf.
  destruct (keqb_spec k' k); [contradiction|reflexivity].
Qed.

Lemma wf_memplace k v m : wf_map m -> wf_map (memplace k v m).
Proof.
  intros Hwf. unfold memplace. destruct (mfind k m); [exact Hwf|].
  apply wf_massign; exact Hwf.
Qed.

Lemma mfind_memplace k v m k' :
  wf_map m ->
  mfind k' (memplace k v m) =
  match mfind k' m with
  | Some v' => Some v'
  | None => if keqb k' k then Some v else None
  end.
Proof.
  intros Hwf. unfold memplace. destruct (mfind k m) as [v0|] eqn:E.
  - destruct (mfind k' m) eqn:E'; [reflexivity|].
    destruct (keqb_spec k' k) as [->|]; [congruence|reflexivity].
  - rewrite mfind_massign by exact Hwf. destruct (keqb_spec k' k) as [->|].
    + rewrite E. reflexivity.
    + destruct (mfind k' m); reflexivity.
Qed.

Lemma map_ext_find m m' :
  wf_map m -> wf_map m' -> (forall k, mfind k m = mfind k m') -> m = m'.
Proof.
  revert m'. induction m as [|[k v] m IH]; intros m' Hwf Hwf' E.
  - destruct m' as [|[k' v'] m']; [reflexivity|].
    specialize (E k'). cbn in E. rewrite kcmp_refl in E. discriminate.
  - destruct m' as [|[k' v'] m'].
    { specialize (E k). cbn in E. rewrite kcmp_refl in E. discriminate. }
    assert (k = k') as ->.
    { destruct (klt_total k k') as [Hlt|[Heq|Hlt]]; [exfalso|exact Heq|exfalso].
      - specialize (E k). cbn in E. rewrite kcmp_refl, Hlt in E. discriminate.
      - specialize (E k'). cbn in E. rewrite kcmp_refl, Hlt in E. discriminate. }
    apply wf_cons in Hwf as [Hwf Hf]. apply wf_cons in Hwf' as [Hwf' Hf'].
    assert (v = v') as ->.
    { specialize (E k'). cbn in E. rewrite kcmp_refl in E. congruence. }
    f_equal. apply IH; [exact Hwf|exact Hwf'|]. intros k.
    specialize (E k). cbn in E. destruct (kcmp k k') eqn:Ek.
    + apply kcmp_eq in Ek as ->.
      rewrite (mfind_lt_None _ _ Hf), (mfind_lt_None _ _ Hf'). reflexivity.
    + rewrite !mfind_lt_None; [reflexivity| |].
      * eapply Forall_impl; [|exact Hf']. intros a Ha. eapply klt_trans; eauto.
      * eapply Forall_impl; [|exact Hf]. intros a Ha. eapply klt_trans; eauto.
    + exact E.
Qed.

Lemma mkeys_merase_in k m k' :
  wf_map m -> (In k' (mkeys (merase k m)) <-> k' <> k /\ In k' (mkeys m)).
Proof.
  unfold mkeys. induction m as [|[k1 v1] m IH]; intros Hwf; cbn.
  - firstorder.
  - apply wf_cons in Hwf as [Hwf Hf]. rewrite Forall_forall in Hf.
    destruct (kcmp k k1) eqn:E; cbn.
    + apply kcmp_eq in E as ->. split.
      * intros Hin. split; [|right; exact Hin].
        intros ->. apply (klt_irrefl k1), Hf, Hin.
      * intros [Hne [->|Hin]]; [congruence|exact Hin].
    + split.
      * intros [->|Hin].
        -- split; [|left; reflexivity]. intros ->. exact (klt_irrefl _ E).
        -- split; [|right; exact Hin]. intros ->.
           apply (klt_irrefl k). eapply klt_trans; [exact E|apply Hf, Hin].
      * intros [_ Hin]; exact Hin.
    + rewrite IH by exact Hwf. split.
      * intros [->|[Hne Hin]]; [|firstorder]. split; [|left; reflexivity].
        intros ->. rewrite kcmp_refl in E. discriminate.
      * firstorder.
Qed.

Lemma wf_merase k m : wf_map m -> wf_map (merase k m).
Proof.
  induction m as [|[k1 v1] m IH]; intros Hwf; cbn; [exact Hwf|].
  pose proof Hwf as Hwf0. apply wf_cons in Hwf as [Hwf Hf].
  destruct (kcmp k k1) eqn:E; [exact Hwf|exact Hwf0|].
  apply wf_cons. split; [apply IH; exact Hwf|].
  rewrite Forall_forall in *. intros a Ha.
  apply mkeys_merase_in in Ha; [|exact Hwf]. apply Hf, Ha.
Qed.

Lemma mfind_merase k m k' :
  wf_map m -> mfind k' (merase k m) = if keqb k' k then None else mfind k' m.
Proof.
  induction m as [|[k1 v1] m IH]; intros Hwf; cbn.
  - destruct (keqb k' k); reflexivity.
  - apply wf_cons in Hwf as [Hwf Hf].
    destruct (kcmp k k1) eqn:E; cbn.
    + apply kcmp_eq in E as ->. unfold keqb. destruct (kcmp k' k1) eqn:E1.
      * apply kcmp_eq in E1 as ->. apply mfind_lt_None; exact Hf.
      * apply mfind_lt_None. eapply Forall_impl; [|exact Hf].
        intros a Ha. eapply klt_trans; eauto.
      * reflexivity.
    + destruct (keqb_spec k' k) as [Heq|Hne]; [|reflexivity].
      rewrite Heq, E. reflexivity.
    + destruct (kcmp k' k1) eqn:E1.
      * apply kcmp_eq in E1. subst k'. destruct (keqb_spec k1 k) as [Heq|Hne]; [|reflexivity].
        rewrite Heq, kcmp_refl in E. discriminate.
      * destruct (keqb k' k); reflexivity.
      * apply IH; exact Hwf.
Qed.

Lemma massign_all_wf kvs m : wf_map m -> wf_map (massign_all kvs m).
Proof.
  unfold massign_all. revert m. induction kvs as [|[k v] kvs IH]; intros m Hwf; cbn.
  - exact Hwf.
  - apply IH, wf_massign, Hwf.
Qed.

Lemma massign_all_not_in kvs m k :
  wf_map m -> ~ In k (map fst kvs) -> mfind k (massign_all kvs m) = mfind k m.
Proof.
  unfold massign_all. revert m. induction kvs as [|[k1 v] kvs IH]; intros m Hwf Hn; cbn in *.
  - reflexivity.
  - rewrite IH; [|apply wf_massign, Hwf|tauto].
    apply mfind_massign_neq; [exact Hwf|]. intros ->. apply Hn; left; reflexivity.
Qed.

Lemma massign_all_NoDup kvs m k v :
  wf_map m -> NoDup (map fst kvs) -> In (k, v) kvs ->
  mfind k (massign_all kvs m) = Some v.
Proof.
  revert m. induction kvs as [|[k1 v1] kvs IH]; intros m Hwf Hnd Hin; cbn in *.
  - contradiction.
  - inversion Hnd as [|? ? Hn1 Hnd']; subst. destruct Hin as [E|Hin].
    + injection E as -> ->. change (mfind k (massign_all kvs (massign k v m)) = Some v).
      rewrite massign_all_not_in; [|apply wf_massign, Hwf|exact Hn1].
      apply mfind_massign_eq, Hwf.
    + apply IH; [apply wf_massign, Hwf|exact Hnd'|exact Hin].
Qed.

(* Appending at the end of the key range. *)
Lemma massign_snoc k v m :
  Forall (fun k' => klt k' k) (mkeys m) -> massign k v m = m ++ [(k, v)].
Proof.
  induction m as [|[k1 v1] m IH]; cbn; intros Hf; [reflexivity|].
  inversion Hf; subst. rewrite (proj2 (kcmp_gt k k1)) by assumption.
  rewrite IH by assumption. reflexivity.
Qed.

Lemma massign_all_sorted (kvs : smap K V) :
  wf_map kvs -> massign_all kvs [] = kvs.
Proof.
  intros Hwf. apply map_ext_find.
  - apply massign_all_wf, wf_nil.
  - exact Hwf.
  - intros k. destruct (mfind k kvs) as [v|] eqn:E.
    + apply massign_all_NoDup; [apply wf_nil|apply wf_NoDup, Hwf|].
      apply mfind_In in E; assumption.
    + rewrite massign_all_not_in; [reflexivity|apply wf_nil|].
      apply mfind_None; assumption.
Qed.
End Map.

Section MapMap.
Context {K : Type} `{OrdKey K} {V W : Type}.

Lemma wf_map_map (f : K -> V -> W) (m : smap K V) :
  wf_map m -> wf_map (map (fun kv => (fst kv, f (fst kv) (snd kv))) m).
Proof.
  unfold wf_map. rewrite map_map. cbn. intros Hwf. exact Hwf.
Qed.

Lemma mfind_map (f : K -> V -> W) (m : smap K V) k :
  mfind k (map (fun kv => (fst kv, f (fst kv) (snd kv))) m) =
  option_map (f k) (mfind k m).
Proof.
  induction m as [|[k1 v1] m IH]; cbn; [reflexivity|].
  destruct (kcmp k k1) eqn:E; try reflexivity.
  - apply kcmp_eq in E as ->. reflexivity.
  - exact IH.
Qed.

Lemma wf_filter (p : K * V -> bool) (m : smap K V) :
  wf_map m -> wf_map (filter p m).
Proof.
  induction m as [|[k v] m IH]; intros Hwf; cbn; [exact Hwf|].
  apply wf_cons in Hwf as [Hwf Hf]. destruct (p (k, v)).
  - apply wf_cons. split; [apply IH, Hwf|].
    rewrite Forall_forall in *. intros a Ha. apply Hf.
    unfold mkeys in *. apply in_map_iff in Ha as [[a' b] [<- Hin]].
    apply filter_In in Hin as [Hin _]. apply (in_map fst) in Hin. exact Hin.
  - apply IH, Hwf.
Qed.

Lemma mfind_filter (p : K * V -> bool) (m : smap K V) k :
  wf_map m ->
  mfind k (filter p m) =
  match mfind k m with
  | Some v => if p (k, v) then Some v else None
  | None => None
  end.
Proof.
  intros Hwf. destruct (mfind k m) as [v|] eqn:E.
  - destruct (p (k, v)) eqn:Ep.
    + apply mfind_In; [apply wf_filter, Hwf|]. apply filter_In.
      split; [|exact Ep]. apply mfind_In in E; assumption.
    + destruct (mfind k (filter p m)) as [v'|] eqn:E'; [|reflexivity].
      apply mfind_In in E'; [|apply wf_filter, Hwf]. apply filter_In in E' as [E' Ep'].
      apply mfind_In in E'; [|exact Hwf]. congruence.
  - destruct (mfind k (filter p m)) as [v'|] eqn:E'; [|reflexivity].
    apply mfind_In in E'; [|apply wf_filter, Hwf]. apply filter_In in E' as [E' _].
    apply mfind_In in E'; [|exact Hwf]. congruence.
Qed.
End MapMap.

Section Sets.
Context {K : Type} `{OrdKey K}.

Lemma In_sinsert (k k' : K) s : In k' (sinsert k s) <-> k' = k \/ In k' s.
Proof.
  induction s as [|a s IH]; cbn.
  - firstorder.
  - destruct (kcmp k a) eqn:E; cbn.
    + apply kcmp_eq in E as ->. firstorder.
    + firstorder.
    + rewrite IH. firstorder.
Qed.

Lemma sorted_sinsert (k : K) s :
  StronglySorted klt s -> StronglySorted klt (sinsert k s).
Proof.
  induction 1 as [|a s Hs IH Hf]; cbn.
  - repeat constructor.
  - destruct (kcmp k a) eqn:E.
    + constructor; assumption.
    + constructor; [constructor; assumption|]. constructor; [exact E|].
      eapply Forall_impl; [|exact Hf]. intros b Hb. eapply klt_trans; [exact E|exact Hb].
    + constructor; [exact IH|]. rewrite Forall_forall in *. intros b Hb.
      apply In_sinsert in Hb as [->|Hb]; [apply kcmp_gt, E|apply Hf, Hb].
Qed.

Lemma sof_list_aux (ks s : list K) :
  StronglySorted klt s ->
  StronglySorted klt (fold_left (fun s k => sinsert k s) ks s) /\
  (forall k, In k (fold_left (fun s k => sinsert k s) ks s) <-> In k ks \/ In k s).
Proof.
  revert s. induction ks as [|a ks IH]; intros s Hs; cbn.
  - split; [exact Hs|]. tauto.
  - destruct (IH (sinsert a s)) as [H1 H2]; [apply sorted_sinsert, Hs|].
    split; [exact H1|]. intros k. rewrite H2, In_sinsert. firstorder.
Qed.

Lemma sof_list_sorted (ks : list K) : StronglySorted klt (sof_list ks).
Proof. apply (sof_list_aux ks []); constructor. Qed.

Lemma sof_list_In (ks : list K) k : In k (sof_list ks) <-> In k ks.
Proof.
  destruct (sof_list_aux ks []) as [_ H1]; [constructor|].
  unfold sof_list. rewrite H1. cbn. tauto.
Qed.

Lemma smem_spec (k : K) s : smem k s = true <-> In k s.
Proof.
  unfold smem. rewrite existsb_exists. split.
  - intros [x [Hin E]]. apply keqb_eq in E as ->. exact Hin.
  - intros Hin. exists k. split; [exact Hin|apply keqb_refl].
Qed.
End Sets.

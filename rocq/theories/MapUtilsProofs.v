From Verif Require Import Base BaseProofs StdMapModel StdMapProofs MapUtilsModel.

Section P.
Context {K : Type} `{OrdKey K}.

Lemma map_join_spec {V} (m other : smap K V) :
  wf_map m -> wf_map other ->
  wf_map (map_join m other) /\
  forall k, mfind k (map_join m other) =
    match mfind k other with Some v => Some v | None => mfind k m end.
Proof.
  unfold map_join. revert other. induction m as [|[k1 v1] m IH]; intros other Wm Wo; cbn [fold_left].
  - split; [exact Wo|]. intros k. cbn. destruct (mfind k other); reflexivity.
  - apply wf_cons in Wm as [Wm Hf]. cbn [fst snd].
    destruct (IH (memplace k1 v1 other) Wm (wf_memplace _ _ _ Wo)) as [I1 I2].
    split; [exact I1|]. intros k. rewrite I2, mfind_memplace by exact Wo.
    destruct (mfind k other); [reflexivity|]. cbn [mfind].
    destruct (kcmp k k1) eqn:E.
    + apply kcmp_eq in E as ->. rewrite keqb_refl. reflexivity.
    + assert (keqb k k1 = false) as -> by (unfold keqb; rewrite E; reflexivity).
      apply mfind_lt_None. eapply Forall_impl; [|exact Hf]. intros a Ha. eapply klt_trans; eauto.
    + assert (keqb k k1 = false) as -> by (unfold keqb; rewrite E; reflexivity). reflexivity.
Qed.

Lemma map_join_strict_ok {V} (m other : smap K V) :
  wf_map m -> wf_map other ->
  (forall k, In k (mkeys m) -> ~ In k (mkeys other)) ->
  map_join_strict m other = Ok (map_join m other).
Proof.
  unfold map_join_strict, map_join. revert other.
  induction m as [|[k1 v1] m IH]; intros other Wm Wo Hd; cbn [foldM fold_left fst snd]; [reflexivity|].
  apply wf_cons in Wm as [Wm Hf].
  assert (mfind k1 other = None) as E.
  { apply mfind_None; [exact Wo|]. apply Hd. left. reflexivity. }
  unfold mcontains, memplace. rewrite E. cbn [negb assert_then bind].
  apply IH; [exact Wm|apply wf_massign; exact Wo|].
  intros k Hk Hin. apply mkeys_massign_in in Hin as [->|Hin].
  - rewrite Forall_forall in Hf. exact (klt_irrefl k1 (Hf k1 Hk)).
  - apply (Hd k); [right; exact Hk|exact Hin].
Qed.

Lemma map_join_strict_dup {V} (m other : smap K V) :
  wf_map m -> wf_map other ->
  (exists k, In k (mkeys m) /\ In k (mkeys other)) -> map_join_strict m other = Abort.
Proof.
  unfold map_join_strict. revert other.
  induction m as [|[k1 v1] m IH]; intros other Wm Wo [k [Hk Ho]]; [destruct Hk|].
  cbn [foldM fst snd]. apply wf_cons in Wm as [Wm Hf].
  destruct (mcontains k1 other) eqn:E; [reflexivity|]. cbn [negb assert_then bind].
  destruct Hk as [Hk|Hk].
  - cbn in Hk. subst k1. apply (mcontains_spec _ _ Wo) in Ho. congruence.
  - apply IH; [exact Wm|apply wf_massign; exact Wo|]. exists k. split; [exact Hk|].
    apply mkeys_massign_in. right. exact Ho.
Qed.

Lemma map_join_strict_release_spec {V} (m other : smap K V) :
  wf_map m -> wf_map other ->
  wf_map (map_join_strict_release m other) /\
  forall k, mfind k (map_join_strict_release m other) =
    match mfind k m with Some v => Some v | None => mfind k other end.
Proof.
  unfold map_join_strict_release. revert other.
  induction m as [|[k1 v1] m IH]; intros other Wm Wo; cbn [fold_left fst snd].
  - split; [exact Wo|]. reflexivity.
  - apply wf_cons in Wm as [Wm Hf].
    destruct (IH (massign k1 v1 other) Wm (wf_massign _ _ _ Wo)) as [I1 I2].
    split; [exact I1|]. intros k. rewrite I2, mfind_massign by exact Wo. cbn [mfind].
    destruct (kcmp k k1) eqn:E.
    + apply kcmp_eq in E as ->. rewrite keqb_refl. rewrite mfind_lt_None; [reflexivity|exact Hf].
    + assert (keqb k k1 = false) as -> by (unfold keqb; rewrite E; reflexivity).
      rewrite mfind_lt_None; [reflexivity|].
      eapply Forall_impl; [|exact Hf]. intros a Ha. eapply klt_trans; eauto.
    + assert (keqb k k1 = false) as -> by (unfold keqb; rewrite E; reflexivity). reflexivity.
Qed.

(* ---------------- map_merge ---------------- *)

Definition call_key {V W} (c : merge_call K V W) : K :=
  match c with OnlyA k _ => k | OnlyB k _ => k | Both k _ _ => k end.

(* what a call says about the two maps *)
Definition call_ok {V W} (a : smap K V) (b : smap K W) (c : merge_call K V W) : Prop :=
  match c with
  | OnlyA k v => mfind k a = Some v /\ mfind k b = None
  | OnlyB k w => mfind k a = None /\ mfind k b = Some w
  | Both k v w => mfind k a = Some v /\ mfind k b = Some w
  end.

Lemma map_merge_nil_r {V W} (a : smap K V) :
  map_merge a ([] : smap K W) = map (fun kv => OnlyA (fst kv) (snd kv)) a.
Proof. destruct a as [|[k v] a]; reflexivity. Qed.

Lemma map_merge_keys {V W} (a : smap K V) (b : smap K W) k :
  In k (map call_key (map_merge a b)) <-> In k (mkeys a) \/ In k (mkeys b).
Proof.
  unfold mkeys. revert b. induction a as [|[ak av] a IHa].
  - intros b. destruct b as [|kw b]; cbn [map_merge]; [cbn; tauto|].
    rewrite map_map. cbn [call_key]. cbn. tauto.
  - induction b as [|[bk bv] b IHb].
    + rewrite map_merge_nil_r, map_map. cbn [call_key]. cbn. tauto.
    + cbn [map_merge]. destruct (kcmp ak bk) eqn:E; cbn [map call_key In fst].
      * apply kcmp_eq in E as ->. rewrite IHa. tauto.
      * rewrite IHa. cbn [map In fst]. tauto.
      * change ((fix go (b0 : smap K W) := _) b) with (map_merge ((ak, av) :: a) b).
        rewrite IHb. cbn [map In fst]. tauto.
Qed.

Lemma map_merge_sorted {V W} (a : smap K V) (b : smap K W) :
  wf_map a -> wf_map b -> StronglySorted klt (map call_key (map_merge a b)).
Proof.
  revert b. induction a as [|[ak av] a IHa].
  - intros b _ Wb. destruct b as [|kw b]; cbn [map_merge]; [constructor|].
    rewrite map_map. exact Wb.
  - induction b as [|[bk bv] b IHb]; intros Wa Wb.
    + rewrite map_merge_nil_r, map_map. exact Wa.
    + pose proof Wa as Wa0. pose proof Wb as Wb0.
      apply wf_cons in Wa as [Wa Ha]. apply wf_cons in Wb as [Wb Hb].
      rewrite Forall_forall in Ha, Hb.
      cbn [map_merge]. destruct (kcmp ak bk) eqn:E; cbn [map call_key].
      * apply kcmp_eq in E as ->. constructor; [apply IHa; assumption|].
        apply Forall_forall. intros k Hk. apply map_merge_keys in Hk as [Hk|Hk]; auto.
      * constructor; [apply IHa; assumption|].
        apply Forall_forall. intros k Hk. apply map_merge_keys in Hk as [Hk|Hk]; auto.
        destruct Hk as [<-|Hk]; [exact E|]. eapply klt_trans; [exact E|]. apply Hb. exact Hk.
      * change ((fix go (b0 : smap K W) := _) b) with (map_merge ((ak, av) :: a) b).
        constructor; [apply IHb; assumption|]. apply kcmp_gt in E.
        apply Forall_forall. intros k Hk. apply map_merge_keys in Hk as [Hk|Hk]; auto.
        destruct Hk as [<-|Hk]; [exact E|]. eapply klt_trans; [exact E|]. apply Ha. exact Hk.
Qed.

Lemma mfind_cons_gt {V} k k1 (v1 : V) m : klt k1 k -> mfind k ((k1, v1) :: m) = mfind k m.
Proof. intros Hlt. cbn. apply kcmp_gt in Hlt. rewrite Hlt. reflexivity. Qed.

Lemma map_merge_sound {V W} (a : smap K V) (b : smap K W) :
  wf_map a -> wf_map b -> Forall (call_ok a b) (map_merge a b).
Proof.
  revert b. induction a as [|[ak av] a IHa].
  - intros b _ Wb. destruct b as [|kw b]; cbn [map_merge]; [constructor|].
    apply Forall_forall. intros c Hc. apply in_map_iff in Hc as [[k w] [<- Hin]]. cbn.
    split; [reflexivity|]. apply (mfind_In k w (kw :: b) Wb). exact Hin.
  - induction b as [|[bk bv] b IHb]; intros Wa Wb.
    + rewrite map_merge_nil_r. apply Forall_forall. intros c Hc.
      apply in_map_iff in Hc as [[k w] [<- Hin]]. split; [|reflexivity].
      apply (mfind_In k w _ Wa). exact Hin.
    + pose proof Wa as Wa0. pose proof Wb as Wb0.
      apply wf_cons in Wa as [Wa Ha]. apply wf_cons in Wb as [Wb Hb].
      rewrite Forall_forall in Ha, Hb.
      cbn [map_merge]. destruct (kcmp ak bk) eqn:E.
      * apply kcmp_eq in E as ->. constructor.
        { cbn. rewrite kcmp_refl. auto. }
        pose proof (IHa b Wa Wb) as HF. rewrite Forall_forall in *. intros c Hc.
        assert (klt bk (call_key c)) as Hlt.
        { assert (In (call_key c) (map call_key (map_merge a b))) as Hk by (apply in_map; exact Hc).
          apply map_merge_keys in Hk as [Hk|Hk]; auto. }
        specialize (HF c Hc). destruct c; cbn [call_ok call_key] in *;
          rewrite !mfind_cons_gt by exact Hlt; exact HF.
      * constructor.
        { cbn. rewrite kcmp_refl. rewrite E. auto. }
        pose proof (IHa _ Wa Wb0) as HF. rewrite Forall_forall in *. intros c Hc.
        assert (klt ak (call_key c)) as Hlt.
        { assert (In (call_key c) (map call_key (map_merge a ((bk, bv) :: b)))) as Hk by (apply in_map; exact Hc).
          apply map_merge_keys in Hk as [Hk|Hk]; auto.
          destruct Hk as [<-|Hk]; [exact E|]. eapply klt_trans; [exact E|]. apply Hb. exact Hk. }
        specialize (HF c Hc). destruct c; cbn [call_ok call_key] in *;
          rewrite (mfind_cons_gt _ ak) by exact Hlt; exact HF.
      * change ((fix go (b0 : smap K W) := _) b) with (map_merge ((ak, av) :: a) b).
        constructor.
        { cbn. rewrite kcmp_refl. rewrite (kcmp_antisym ak bk), E. auto. }
        pose proof (IHb Wa0 Wb) as HF. rewrite Forall_forall in *. intros c Hc. apply kcmp_gt in E.
        assert (klt bk (call_key c)) as Hlt.
        { assert (In (call_key c) (map call_key (map_merge ((ak, av) :: a) b))) as Hk by (apply in_map; exact Hc).
          apply map_merge_keys in Hk as [Hk|Hk]; auto.
          destruct Hk as [<-|Hk]; [exact E|]. eapply klt_trans; [exact E|]. apply Ha. exact Hk. }
        specialize (HF c Hc). destruct c; cbn [call_ok call_key] in *;
          rewrite (mfind_cons_gt _ bk) by exact Hlt; exact HF.
Qed.

(* Running any selection of the calls through emplace *)
Lemma fold_calls {V W R} (sel : merge_call K V W -> option R) cs :
  StronglySorted klt (map call_key cs) ->
  forall acc : smap K R, wf_map acc -> (forall k, In k (mkeys acc) -> Forall (klt k) (map call_key cs)) ->
  let r := fold_left (fun m c => match sel c with Some x => memplace (call_key c) x m | None => m end) cs acc in
  wf_map r /\
  forall k x, mfind k r = Some x <->
    mfind k acc = Some x \/ (exists c, In c cs /\ call_key c = k /\ sel c = Some x).
Proof.
  induction cs as [|c cs IH]; intros Hs acc Wa Hlt; cbn [fold_left].
  - split; [exact Wa|]. intros k x. split; [auto|]. intros [E|[c [[] _]]]; exact E.
  - cbn [map] in Hs. inversion Hs as [|? ? Hs' Hf]; subst.
    assert (mfind (call_key c) acc = None) as En.
    { apply mfind_None; [exact Wa|]. intros Hin. specialize (Hlt _ Hin). cbn in Hlt.
      inversion Hlt; subst. eapply klt_irrefl; eauto. }
    destruct (sel c) as [x0|] eqn:Es.
    + destruct (IH Hs' (memplace (call_key c) x0 acc) (wf_memplace _ _ _ Wa)) as [I1 I2].
      { intros k Hk. unfold memplace in Hk. rewrite En in Hk.
        apply mkeys_massign_in in Hk as [->|Hk]; [exact Hf|].
        specialize (Hlt k Hk). cbn in Hlt. inversion Hlt; assumption. }
      split; [exact I1|]. intros k x. rewrite I2, mfind_memplace by exact Wa. split.
      * intros [E|[c' [Hc [Hk Hx]]]].
        -- destruct (mfind k acc) eqn:Ea; [left; congruence|]. right.
           destruct (keqb_spec k (call_key c)) as [->|]; [|discriminate].
           exists c. split; [left; reflexivity|]. split; [reflexivity|congruence].
        -- right. exists c'. split; [right; exact Hc|auto].
      * intros [E|[c' [[<-|Hc] [Hk Hx]]]].
        -- left. rewrite E. reflexivity.
        -- left. subst k. rewrite En, keqb_refl. congruence.
        -- right. exists c'. auto.
    + destruct (IH Hs' acc Wa) as [I1 I2].
      { intros k Hk. specialize (Hlt k Hk). cbn in Hlt. inversion Hlt; assumption. }
      split; [exact I1|]. intros k x. rewrite I2. split.
      * intros [E|[c' [Hc Hr]]]; [auto|]. right. exists c'. split; [right; exact Hc|exact Hr].
      * intros [E|[c' [[<-|Hc] [Hk Hx]]]]; [auto|congruence|]. right. exists c'. auto.
Qed.

Lemma fold_left_ext {A B} (f g : A -> B -> A) l a :
  (forall a b, f a b = g a b) -> fold_left f l a = fold_left g l a.
Proof. intros E. revert a. induction l as [|b l IH]; intros a; cbn; [reflexivity|]. rewrite E. apply IH. Qed.

Lemma map_merge_select {V W R} (sel : merge_call K V W -> option R) (a : smap K V) (b : smap K W) :
  wf_map a -> wf_map b ->
  let r := fold_left (fun m c => match sel c with Some x => memplace (call_key c) x m | None => m end)
             (map_merge a b) [] in
  wf_map r /\
  forall k, mfind k r =
    match mfind k a, mfind k b with
    | Some v, None => sel (OnlyA k v)
    | None, Some w => sel (OnlyB k w)
    | Some v, Some w => sel (Both k v w)
    | None, None => None
    end.
Proof.
  intros Wa Wb. pose proof (map_merge_sorted a b Wa Wb) as Hs.
  pose proof (map_merge_sound a b Wa Wb) as HF. rewrite Forall_forall in HF.
  destruct (fold_calls sel (map_merge a b) Hs [] wf_nil) as [W1 H1]; [intros k []|].
  split; [exact W1|]. intros k.
  match goal with |- mfind k ?e = _ => set (r := e) in * end.
  assert (forall c, In c (map_merge a b) -> call_key c = k ->
    sel c = match mfind k a, mfind k b with
    | Some v, None => sel (OnlyA k v)
    | None, Some w => sel (OnlyB k w)
    | Some v, Some w => sel (Both k v w)
    | None, None => None
    end) as Hc.
  { intros c Hin Hk. specialize (HF c Hin). destruct c; cbn in Hk, HF; subst; destruct HF as [-> ->]; reflexivity. }
  destruct (mfind k r) as [x|] eqn:Ex.
  - apply H1 in Ex as [E|[c [Hin [Hk Hx]]]]; [discriminate|].
    rewrite <- (Hc c Hin Hk). symmetry. exact Hx.
  - assert (forall x, ~ exists c, In c (map_merge a b) /\ call_key c = k /\ sel c = Some x) as Hn.
    { intros x Hx. assert (mfind k r = Some x) by (apply H1; right; exact Hx). congruence. }
    assert (In k (mkeys a) \/ In k (mkeys b) -> exists c, In c (map_merge a b) /\ call_key c = k) as Hex.
    { intros Hin. apply map_merge_keys, in_map_iff in Hin as [c [Hk Hin]]. eauto. }
    destruct (mfind k a) as [v|] eqn:Ea.
    + destruct Hex as [c [Hin Hk]]; [left; apply mfind_Some_key; [exact Wa|eauto]|].
      specialize (Hc c Hin Hk). rewrite <- Hc. destruct (sel c) as [x|] eqn:Es; [|reflexivity].
      exfalso. apply (Hn x). eauto.
    + destruct (mfind k b) as [w|] eqn:Eb; [|reflexivity].
      destruct Hex as [c [Hin Hk]]; [right; apply mfind_Some_key; [exact Wb|eauto]|].
      specialize (Hc c Hin Hk). rewrite <- Hc. destruct (sel c) as [x|] eqn:Es; [|reflexivity].
      exfalso. apply (Hn x). eauto.
Qed.

Lemma map_difference_spec {V W} (a : smap K V) (b : smap K W) :
  wf_map a -> wf_map b ->
  wf_map (map_difference a b) /\
  forall k, mfind k (map_difference a b) =
    match mfind k b with Some _ => None | None => mfind k a end.
Proof.
  intros Wa Wb.
  destruct (map_merge_select (fun c => match c with OnlyA _ v => Some v | _ => None end) a b Wa Wb) as [H1 H2].
  unfold map_difference.
  erewrite fold_left_ext.
  - split; [exact H1|]. intros k. rewrite H2. destruct (mfind k a), (mfind k b); reflexivity.
  - intros m [k v|k w|k v w]; reflexivity.
Qed.

Lemma map_symmetric_difference_spec {V} (a b : smap K V) :
  wf_map a -> wf_map b ->
  wf_map (map_symmetric_difference a b) /\
  forall k, mfind k (map_symmetric_difference a b) =
    match mfind k a, mfind k b with
    | Some v, None => Some v
    | None, Some v => Some v
    | _, _ => None
    end.
Proof.
  intros Wa Wb.
  destruct (map_merge_select (fun c => match c with OnlyA _ v => Some v | OnlyB _ v => Some v | _ => None end) a b Wa Wb) as [H1 H2].
  unfold map_symmetric_difference.
  erewrite fold_left_ext.
  - split; [exact H1|]. intros k. rewrite H2. destruct (mfind k a), (mfind k b); reflexivity.
  - intros m [k v|k w|k v w]; reflexivity.
Qed.

Lemma map_union_spec {V} (merge : K -> V -> V -> V) (a b : smap K V) :
  wf_map a -> wf_map b ->
  wf_map (map_union merge a b) /\
  forall k, mfind k (map_union merge a b) =
    match mfind k a, mfind k b with
    | Some v, None => Some v
    | None, Some v => Some v
    | Some v, Some w => Some (merge k v w)
    | None, None => None
    end.
Proof.
  intros Wa Wb.
  destruct (map_merge_select (fun c => match c with OnlyA _ v => Some v | OnlyB _ v => Some v | Both k v w => Some (merge k v w) end) a b Wa Wb) as [H1 H2].
  unfold map_union.
  erewrite fold_left_ext.
  - split; [exact H1|]. intros k. rewrite H2. destruct (mfind k a), (mfind k b); reflexivity.
  - intros m [k v|k w|k v w]; reflexivity.
Qed.

Lemma map_intersect_spec {V W R} (merge : K -> V -> W -> R) (a : smap K V) (b : smap K W) :
  wf_map a -> wf_map b ->
  wf_map (map_intersect merge a b) /\
  forall k, mfind k (map_intersect merge a b) =
    match mfind k a, mfind k b with
    | Some v, Some w => Some (merge k v w)
    | _, _ => None
    end.
Proof.
  intros Wa Wb.
  destruct (map_merge_select (fun c => match c with Both k v w => Some (merge k v w) | _ => None end) a b Wa Wb) as [H1 H2].
  unfold map_intersect.
  erewrite fold_left_ext.
  - split; [exact H1|]. intros k. rewrite H2. destruct (mfind k a), (mfind k b); reflexivity.
  - intros m [k v|k w|k v w]; reflexivity.
Qed.

Lemma fold_keys {V W} (sel : merge_call K V W -> bool) cs acc :
  fold_left (fun d c => if sel c then d ++ [call_key c] else d) cs acc =
  acc ++ map call_key (filter sel cs).
Proof.
  revert acc. induction cs as [|c cs IH]; intros acc; cbn; [rewrite app_nil_r; reflexivity|].
  rewrite IH. destruct (sel c); cbn; [rewrite <- app_assoc|]; reflexivity.
Qed.

Lemma SSorted_map_filter {A} (R : K -> K -> Prop) (f : A -> K) (p : A -> bool) l :
  StronglySorted R (map f l) -> StronglySorted R (map f (filter p l)).
Proof.
  induction l as [|a l IH]; cbn; intros Hs; [constructor|]. inversion Hs; subst.
  destruct (p a); cbn; [|auto]. constructor; [auto|].
  rewrite Forall_forall in *. intros x Hx. apply in_map_iff in Hx as [y [<- Hy]].
  apply filter_In in Hy as [Hy _]. apply H3. apply in_map. exact Hy.
Qed.

Lemma map_difference_keys_spec {V W} (a : smap K V) (b : smap K W) :
  wf_map a -> wf_map b ->
  StronglySorted klt (map_difference_keys a b) /\
  forall k, In k (map_difference_keys a b) <-> In k (mkeys a) /\ ~ In k (mkeys b).
Proof.
  intros Wa Wb. unfold map_difference_keys.
  set (sel := fun c : merge_call K V W => match c with OnlyA _ _ => true | _ => false end).
  rewrite (fold_left_ext _ (fun d c => if sel c then d ++ [call_key c] else d)) by (intros m [k v|k w|k v w]; reflexivity).
  rewrite fold_keys. cbn [app]. split; [apply SSorted_map_filter, map_merge_sorted; assumption|].
  pose proof (map_merge_sound a b Wa Wb) as HF. rewrite Forall_forall in HF.
  intros k. rewrite in_map_iff. split.
  - intros [c [Hk Hc]]. apply filter_In in Hc as [Hin Hs]. specialize (HF c Hin).
    destruct c; try discriminate. cbn in Hk, HF. subst. destruct HF as [E1 E2].
    split; [apply mfind_Some_key; [exact Wa|eauto]|apply mfind_None; assumption].
  - intros [Ha Hb].
    pose proof (proj2 (map_merge_keys a b k) (or_introl Ha)) as G. apply in_map_iff in G as [c [Hk Hin]].
    exists c. split; [exact Hk|]. apply filter_In. split; [exact Hin|]. specialize (HF c Hin).
    apply mfind_Some_key in Ha as [v Hv]; [|exact Wa]. apply mfind_None in Hb; [|exact Wb].
    destruct c; cbn in *; subst; [reflexivity|destruct HF; congruence|destruct HF; congruence].
Qed.

Lemma map_intersect_keys_spec {V W} (a : smap K V) (b : smap K W) :
  wf_map a -> wf_map b ->
  StronglySorted klt (map_intersect_keys a b) /\
  forall k, In k (map_intersect_keys a b) <-> In k (mkeys a) /\ In k (mkeys b).
Proof.
  intros Wa Wb. unfold map_intersect_keys.
  set (sel := fun c : merge_call K V W => match c with Both _ _ _ => true | _ => false end).
  rewrite (fold_left_ext _ (fun d c => if sel c then d ++ [call_key c] else d)) by (intros m [k v|k w|k v w]; reflexivity).
  rewrite fold_keys. cbn [app]. split; [apply SSorted_map_filter, map_merge_sorted; assumption|].
  pose proof (map_merge_sound a b Wa Wb) as HF. rewrite Forall_forall in HF.
  intros k. rewrite in_map_iff. split.
  - intros [c [Hk Hc]]. apply filter_In in Hc as [Hin Hs]. specialize (HF c Hin).
    destruct c; try discriminate. cbn in Hk, HF. subst. destruct HF as [E1 E2].
    split; apply mfind_Some_key; eauto.
  - intros [Ha Hb].
    pose proof (proj2 (map_merge_keys a b k) (or_introl Ha)) as G. apply in_map_iff in G as [c [Hk Hin]].
    exists c. split; [exact Hk|]. apply filter_In. split; [exact Hin|]. specialize (HF c Hin).
    apply mfind_Some_key in Ha as [v Hv]; [|exact Wa]. apply mfind_Some_key in Hb as [w Hw]; [|exact Wb].
    destruct c; cbn in *; subst; [destruct HF; congruence|destruct HF; congruence|reflexivity].
Qed.

(* ---------------- map_subset ---------------- *)

Lemma fold_emplace_sorted {V} (l : list (K * V)) (acc : smap K V) :
  wf_map (acc ++ l) -> fold_left (fun r kv => memplace (fst kv) (snd kv) r) l acc = acc ++ l.
Proof.
  revert acc. induction l as [|[k v] l IH]; intros acc Wf; cbn [fold_left fst snd]; [rewrite app_nil_r; reflexivity|].
  assert (Forall (fun k' => klt k' k) (mkeys acc) /\ wf_map acc) as [HF Wa].
  { unfold wf_map, mkeys in *. rewrite map_app in Wf. cbn in Wf. clear -Wf.
    induction (map fst acc) as [|a l' IHl]; [split; constructor|]. cbn in Wf. inversion Wf; subst.
    destruct (IHl H2) as [I1 I2]. rewrite Forall_app in H3. destruct H3 as [H3 H4].
    split; constructor; try assumption. inversion H4; assumption. }
  unfold memplace.
  assert (mfind k acc = None) as ->.
  { apply mfind_None; [exact Wa|]. intros Hin. rewrite Forall_forall in HF.
    exact (klt_irrefl k (HF k Hin)). }
  rewrite massign_snoc by exact HF. change ((k, v) :: l) with ([(k, v)] ++ l) in *.
  rewrite app_assoc in Wf |- *. apply IH. exact Wf.
Qed.

Definition kle (a b : K) : Prop := kltb b a = false.

Lemma kle_lt_trans a b c : kle a b -> klt b c -> klt a c.
Proof.
  unfold kle. intros H1 H2. destruct (klt_total a b) as [Hl|[->|Hl]].
  - eapply klt_trans; eauto.
  - exact H2.
  - unfold kltb in H1. unfold klt in Hl. rewrite Hl in H1. discriminate.
Qed.
Lemma klt_kle a b : klt a b -> kle a b.
Proof. unfold kle, kltb, klt. intros E. rewrite (kcmp_antisym a b), E. reflexivity. Qed.
Lemma kle_refl a : kle a a.
Proof. unfold kle, kltb. rewrite kcmp_refl. reflexivity. Qed.
Lemma kle_lt_eq a b : kle a b -> klt a b \/ a = b.
Proof.
  intros H1. destruct (klt_total a b) as [Hl|[->|Hl]]; auto.
  unfold kle, kltb in H1. unfold klt in Hl. rewrite Hl in H1. discriminate.
Qed.
Lemma kle_trans a b c : kle a b -> kle b c -> kle a c.
Proof.
  intros H1 H2. apply kle_lt_eq in H2 as [H2| ->]; [|exact H1].
  apply klt_kle. eapply kle_lt_trans; eauto.
Qed.

Lemma is_sorted_spec ks : is_sorted ks = true <-> StronglySorted kle ks.
Proof.
  induction ks as [|a ks IH]; [split; [constructor|reflexivity]|].
  destruct ks as [|b ks].
  - split; [intros _; repeat constructor|reflexivity].
  - cbn [is_sorted]. rewrite andb_true_iff, negb_true_iff. split.
    + intros [Hab Hs]. apply IH in Hs. constructor; [exact Hs|]. inversion Hs; subst.
      constructor; [exact Hab|]. eapply Forall_impl; [|eassumption].
      intros c Hc. eapply kle_trans; [exact Hab|exact Hc].
    + intros Hs. inversion Hs as [|? ? Hs' Hf]; subst. inversion Hf; subst.
      split; [assumption|]. apply IH. exact Hs'.
Qed.

Lemma map_subset_sequence_filter {V} (m : smap K V) ks :
  wf_map m -> StronglySorted kle ks ->
  map_subset_sequence m ks = filter (fun kv => smem (fst kv) ks) m.
Proof.
  revert ks. induction m as [|[ak av] m IHm].
  - intros ks _ _. destruct ks; reflexivity.
  - induction ks as [|bk ks IHk]; intros Wm Hs.
    + cbn. clear. induction m; cbn; auto.
    + pose proof Wm as Wm0. apply wf_cons in Wm as [Wm Hm]. rewrite Forall_forall in Hm.
      inversion Hs as [|? ? Hs' Hf]; subst. rewrite Forall_forall in Hf.
      cbn [map_subset_sequence filter fst]. destruct (kcmp ak bk) eqn:E.
      * apply kcmp_eq in E as ->. unfold smem at 1. cbn [existsb]. rewrite keqb_refl. cbn [orb].
        rewrite IHm by assumption. f_equal.
        apply filter_ext_in. intros [k v] Hin. cbn [fst]. unfold smem. cbn [existsb].
        destruct (keqb_spec k bk) as [->|]; [|reflexivity].
        exfalso. apply (klt_irrefl bk), Hm. apply (in_map fst) in Hin. exact Hin.
      * rewrite IHm by assumption.
        assert (smem ak (bk :: ks) = false) as ->; [|reflexivity].
        apply not_true_iff_false. unfold smem. rewrite existsb_exists. intros [k [Hin Hk]].
        apply keqb_eq in Hk as <-. destruct Hin as [<-|Hin].
        -- exact (klt_irrefl _ E).
        -- apply (klt_irrefl ak). specialize (Hf ak Hin).
           destruct (kle_lt_eq _ _ Hf) as [Hl|Hl]; [eapply klt_trans; [exact E|exact Hl]|].
           subst bk. exact E.
      * change ((fix go (b : list K) := _) ks) with (map_subset_sequence ((ak, av) :: m) ks).
        rewrite IHk by assumption.
        change (filter (fun kv => smem (fst kv) ks) ((ak, av) :: m)
                = filter (fun kv => smem (fst kv) (bk :: ks)) ((ak, av) :: m)).
        apply filter_ext_in. intros [k v] Hin. cbn [fst]. unfold smem. cbn [existsb].
        destruct (keqb_spec k bk) as [->|]; [|reflexivity]. exfalso. apply kcmp_gt in E.
        destruct Hin as [Heq|Hin].
        -- injection Heq as -> ->. exact (klt_irrefl _ E).
        -- apply (klt_irrefl bk). eapply klt_trans; [exact E|]. apply Hm. apply (in_map fst) in Hin. exact Hin.
Qed.

Lemma wf_filter_fst {V} (m : smap K V) (p : K * V -> bool) : wf_map m -> wf_map (filter p m).
Proof. unfold wf_map. apply SSorted_map_filter. Qed.

Lemma map_subset_eq {V} (m : smap K V) ks :
  wf_map m -> StronglySorted kle ks ->
  map_subset m ks = filter (fun kv => smem (fst kv) ks) m.
Proof.
  intros Wm Hs. unfold map_subset. rewrite map_subset_sequence_filter by assumption.
  rewrite fold_emplace_sorted; [reflexivity|]. cbn. apply wf_filter_fst. exact Wm.
Qed.

Lemma klt_sorted_kle ks : StronglySorted klt ks -> StronglySorted kle ks.
Proof.
  induction 1 as [|a l Hs IH Hf]; constructor; [exact IH|].
  eapply Forall_impl; [|exact Hf]. intros b. apply klt_kle.
Qed.

Lemma map_subset_find {V} (m : smap K V) ks :
  wf_map m -> StronglySorted kle ks ->
  wf_map (map_subset m ks) /\
  forall k, (In k ks -> mfind k (map_subset m ks) = mfind k m) /\
            (~ In k ks -> mfind k (map_subset m ks) = None).
Proof.
  intros Wm Hs. rewrite map_subset_eq by assumption. split; [apply wf_filter_fst; exact Wm|].
  assert (forall k, smem k ks = true <-> In k ks) as Hmem.
  { intros k. unfold smem. rewrite existsb_exists. split.
    - intros [x [Hin E]]. apply keqb_eq in E as ->. exact Hin.
    - intros Hin. exists k. split; [exact Hin|apply keqb_refl]. }
  intros k. split.
  - intros Hin. destruct (mfind k m) as [v|] eqn:E.
    + apply mfind_In; [apply wf_filter_fst; exact Wm|]. apply filter_In. split.
      * apply mfind_In; assumption.
      * apply Hmem. exact Hin.
    + apply mfind_None; [apply wf_filter_fst; exact Wm|]. apply mfind_None in E; [|exact Wm].
      intros Hk. apply E. unfold mkeys in *. apply in_map_iff in Hk as [x [Ex Hx]].
      apply filter_In in Hx as [Hx _]. apply in_map_iff. eauto.
  - intros Hn. apply mfind_None; [apply wf_filter_fst; exact Wm|]. intros Hk.
    unfold mkeys in Hk. apply in_map_iff in Hk as [x [Ex Hx]]. apply filter_In in Hx as [_ Hx].
    apply Hmem in Hx. subst k. contradiction.
Qed.

Lemma map_subset_set_spec {V} (m : smap K V) ks :
  wf_map m -> StronglySorted klt ks ->
  wf_map (map_subset m ks) /\
  forall k, (In k ks -> mfind k (map_subset m ks) = mfind k m) /\
            (~ In k ks -> mfind k (map_subset m ks) = None).
Proof. intros Wm Hs. apply map_subset_find; [exact Wm|]. apply klt_sorted_kle, Hs. Qed.

Lemma map_subset_sorted_spec {V} (m : smap K V) ks :
  wf_map m ->
  (StronglySorted (fun a b => ~ klt b a) ks ->
   exists out, map_subset_sorted m ks = Ok out /\ wf_map out /\
     forall k, (In k ks -> mfind k out = mfind k m) /\ (~ In k ks -> mfind k out = None)) /\
  (~ StronglySorted (fun a b => ~ klt b a) ks -> map_subset_sorted m ks = Abort).
Proof.
  intros Wm.
  assert (forall a b, kle a b <-> ~ klt b a) as Hkle.
  { intros a b. unfold kle, kltb, klt. destruct (kcmp b a); split; congruence. }
  assert (StronglySorted (fun a b => ~ klt b a) ks <-> StronglySorted kle ks) as Hss.
  { split; induction 1 as [|a l Hs IH Hf]; constructor; auto;
      (eapply Forall_impl; [|exact Hf]); intros b; apply Hkle. }
  unfold map_subset_sorted, assert_then. split.
  - intros Hs. apply Hss in Hs. rewrite (proj2 (is_sorted_spec ks)) by exact Hs.
    eexists. split; [reflexivity|]. apply map_subset_find; assumption.
  - intros Hn. destruct (is_sorted ks) eqn:E; [|reflexivity].
    exfalso. apply Hn, Hss, is_sorted_spec, E.
Qed.

Lemma map_at_or_spec {V} (m : smap K V) k d :
  (forall v, mfind k m = Some v -> map_at_or m k d = v) /\
  (mfind k m = None -> map_at_or m k d = d).
Proof. unfold map_at_or. destruct (mfind k m); split; congruence. Qed.

Lemma keys_values_spec {V} (m : smap K V) :
  wf_map m ->
  StronglySorted klt (mkeys m) /\ length (mvals m) = length (mkeys m) /\
  forall k v, mfind k m = Some v <->
    exists i, nth_error (mkeys m) i = Some k /\ nth_error (mvals m) i = Some v.
Proof.
  intros Wm. split; [exact Wm|]. split; [unfold mkeys, mvals; rewrite !map_length; reflexivity|].
  intros k v. rewrite (mfind_In k v m Wm). unfold mkeys, mvals. split.
  - intros Hin. apply In_nth_error in Hin as [i Hi]. exists i.
    rewrite !nth_error_map', Hi. auto.
  - intros [i [Hk Hv]]. rewrite nth_error_map' in Hk. rewrite nth_error_map' in Hv.
    destruct (nth_error m i) as [[k' v']|] eqn:E; [|discriminate]. cbn in *.
    injection Hk as <-. injection Hv as <-. eapply nth_error_In; eauto.
Qed.
End P.

Lemma all_of_spec xs : all_of xs = true <-> forall x, In x xs -> x = true.
Proof.
  induction xs as [|x xs IH]; cbn; [split; [intros _ x []|reflexivity]|]. destruct x; cbn.
  - rewrite IH. split; [intros Hx y [<-|Hy]; auto|intros Hx y Hy; auto].
  - split; [discriminate|]. intros Hx. rewrite <- (Hx false); auto.
Qed.
Lemma any_of_spec xs : any_of xs = true <-> exists x, In x xs /\ x = true.
Proof.
  induction xs as [|x xs IH]; cbn; [split; [discriminate|intros [x [[] _]]]|]. destruct x.
  - split; [intros _; exists true; auto|reflexivity].
  - rewrite IH. split; intros [y [Hy E]]; [eauto|]. destruct Hy as [<-|Hy]; [discriminate|eauto].
Qed.
Lemma grouped_all_any_spec {K} `{OrdKey K} (m : smap K bool) : wf_map m ->
  (grouped_all m = true <-> forall k b, mfind k m = Some b -> b = true) /\
  (grouped_any m = true <-> exists k, mfind k m = Some true).
Proof.
  intros Wm. unfold grouped_all, grouped_any, mvals. rewrite all_of_spec, any_of_spec. split; split.
  - intros Hx k b E. apply mfind_In in E; [|exact Wm]. apply Hx. apply (in_map snd) in E. exact E.
  - intros Hx b Hb. apply in_map_iff in Hb as [[k b'] [<- Hb]]. apply (Hx k). apply mfind_In; assumption.
  - intros [b [Hb ->]]. apply in_map_iff in Hb as [[k b'] [E Hb]]. cbn in E. subst. exists k. apply mfind_In; assumption.
  - intros [k E]. exists true. split; [|reflexivity]. apply mfind_In in E; [|exact Wm].
    apply (in_map snd) in E. exact E.
Qed.
Lemma vector_contains_spec {A} (eqb : A -> A -> bool) v x :
  (forall a b, eqb a b = true <-> a = b) -> (vector_contains eqb v x = true <-> In x v).
Proof.
  intros Heq. induction v as [|y v IH]; cbn; [split; [discriminate|intros []]|].
  destruct (eqb y x) eqn:E.
  - apply Heq in E as ->. tauto.
  - rewrite IH. split; [auto|]. intros [->|Hin]; [|exact Hin].
    assert (eqb x x = true) by (apply Heq; reflexivity). congruence.
Qed.

From Verif Require Import Base BaseProofs StdMapModel StdMapProofs StringKeyModel
  IndexingModel IndexingSpec IndexingProofs DatasetModel DatasetSpec DatasetProofs FoldsModel.
From Coq Require Import Permutation.

Lemma NoDup_app_l {A} (l l' : list A) : NoDup (l ++ l') -> NoDup l.
Proof.
  induction l as [|a l IH]; cbn; intros Hd; [constructor|]. inversion Hd; subst.
  constructor; [|auto]. intros Hi. apply H1, in_or_app. left. exact Hi.
Qed.
Lemma NoDup_app_r {A} (l l' : list A) : NoDup (l ++ l') -> NoDup l'.
Proof. induction l as [|a l IH]; cbn; intros Hd; [exact Hd|]. inversion Hd; subst. auto. Qed.

(* ---------------- create_fold ---------------- *)

Lemma create_fold_split {X D} inds (d : dataset X D) :
  wf_dataset d ->
  create_fold inds d =
  (train <- dataset_subset d (indices_complement inds (ds_size d)) ;;
   test <- dataset_subset d inds ;;
   assert_then (ds_size test + ds_size train =? ds_size d) (Ok (Fold train test inds))).
Proof.
  intros Hw. unfold create_fold.
  assert (Forall (fun i => i < ds_size d) (indices_complement inds (ds_size d))) as Hc.
  { apply Forall_forall. intros i Hi. apply indices_complement_spec in Hi. tauto. }
  pose proof Hw as [Hm Hl]. unfold dataset_subset. unfold ds_size in Hc at 1.
  destruct (subset_total _ _ Hc) as [fs Hfs]. rewrite Hfs.
  pose proof (proj1 (proj1 (subset_ok_iff _ _ _) Hfs)) as Lfs.
  destruct (marginal_subset_ok (ds_targets d) (indices_complement inds (ds_size d)) Hm)
    as [a [b [Ha [Hb [La [Lb Hab]]]]]].
  { rewrite <- Hl. exact Hc. }
  rewrite Hab. cbn [bind]. rewrite dataset_make_wf by (unfold wf_marginal; cbn; lia). cbn [bind].
  destruct (subset (ds_features d) inds) as [fs'| | |] eqn:Hfs'; try reflexivity. cbn [bind].
  pose proof (subset_in_range _ _ _ Hfs') as Hr.
  pose proof (proj1 (proj1 (subset_ok_iff _ _ _) Hfs')) as Lfs'.
  destruct (marginal_subset_ok (ds_targets d) inds Hm) as [a' [b' [Ha' [Hb' [La' [Lb' Hab']]]]]].
  { rewrite <- Hl. exact Hr. }
  rewrite Hab'. cbn [bind]. unfold ds_size.
  rewrite (marginal_size_wf (Marg a b)), (marginal_size_wf (Marg a' b')) by (unfold wf_marginal; cbn; lia).
  cbn [bind m_mean]. rewrite !dataset_make_wf by (unfold wf_marginal; cbn; lia). cbn [bind ds_features].
  rewrite Lfs, La, Lfs', La'. unfold assert_then. rewrite !Nat.eqb_refl. reflexivity.
Qed.

Lemma indices_complement_length inds n :
  Forall (fun i => i < n) inds ->
  length (indices_complement inds n) + length (nodup Nat.eq_dec inds) = n.
Proof.
  intros Hr.
  assert (indices_complement inds n = indices_complement (nodup Nat.eq_dec inds) n) as ->.
  { apply SSorted_lt_ext; [apply indices_complement_spec|apply indices_complement_spec|].
    intros i. rewrite !(proj2 (indices_complement_spec _ _)). rewrite nodup_In. tauto. }
  pose proof (indices_complement_permutation (nodup Nat.eq_dec inds) n) as Hp.
  assert (Permutation (nodup Nat.eq_dec inds ++ indices_complement (nodup Nat.eq_dec inds) n) (seq 0 n)) as P.
  { apply Hp; [apply NoDup_nodup|]. rewrite Forall_forall in *. intros i Hi.
    apply nodup_In in Hi. auto. }
  apply Permutation_length in P. rewrite app_length, seq_length in P. lia.
Qed.

Lemma nodup_length_lt (l : list nat) : ~ NoDup l -> length (nodup Nat.eq_dec l) < length l.
Proof.
  induction l as [|a l IH]; intros Hn; [exfalso; apply Hn; constructor|]. cbn [nodup length].
  assert (length (nodup Nat.eq_dec l) <= length l) as Hle.
  { clear. induction l as [|b l IHl]; cbn; [lia|]. destruct (in_dec _ b l); cbn; lia. }
  destruct (in_dec Nat.eq_dec a l) as [Hi|Hi]; [lia|].
  cbn [length]. assert (~ NoDup l) as Hl by (intros Hd; apply Hn; constructor; assumption).
  specialize (IH Hl). lia.
Qed.

Lemma create_fold_ok {X D} inds (d : dataset X D) :
  wf_dataset d -> NoDup inds -> Forall (fun i => i < ds_size d) inds ->
  exists f, create_fold inds d = Ok f /\
    f_test_indices f = inds /\ wf_dataset (f_train f) /\ wf_dataset (f_test f) /\
    subset (rows d) inds = Ok (rows (f_test f)) /\
    subset (rows d) (indices_complement inds (ds_size d)) = Ok (rows (f_train f)) /\
    Permutation (rows (f_test f) ++ rows (f_train f)) (rows d).
Proof.
  intros Hw Hnd Hr. rewrite create_fold_split by exact Hw.
  destruct (dataset_subset_rows d (indices_complement inds (ds_size d)) Hw) as [E1 _].
  destruct E1 as [tr [E1 [W1 [_ R1]]]].
  { apply Forall_forall. intros i Hi. apply indices_complement_spec in Hi. tauto. }
  destruct (dataset_subset_rows d inds Hw) as [E2 _].
  destruct (E2 Hr) as [te [E2' [W2 [_ R2]]]].
  rewrite E1, E2'. cbn [bind].
  assert (ds_size te + ds_size tr = ds_size d) as Hsz.
  { rewrite <- !rows_length by assumption.
    apply subset_ok_iff in R1 as [L1 _]. apply subset_ok_iff in R2 as [L2 _].
    rewrite L1, L2, rows_length by assumption.
    pose proof (indices_complement_length inds (ds_size d) Hr) as HL.
    rewrite nodup_fixed_point in HL by exact Hnd. lia. }
  unfold assert_then. rewrite (proj2 (Nat.eqb_eq _ _) Hsz).
  exists (Fold tr te inds). cbn. repeat split; try apply W1; try apply W2; auto.
  pose proof (subset_app (rows d) inds (indices_complement inds (ds_size d)) _ _ R2 R1) as Happ.
  pose proof (indices_complement_permutation inds (ds_size d) Hnd Hr) as P.
  apply subset_ok_iff in Happ as [L H].
  assert (0 < ds_size d \/ ds_size d = 0) as [Hpos|H0] by lia.
  - destruct (rows d) as [|r0 rs] eqn:Er.
    { assert (length (rows d) = 0) by (rewrite Er; reflexivity). rewrite rows_length in H0; [lia|exact Hw]. }
    rewrite <- Er in *.
    assert (rows te ++ rows tr = map (fun i => nth i (rows d) r0) (inds ++ indices_complement inds (ds_size d))) as ->.
    { apply list_ext. intros k. rewrite nth_error_map'.
      destruct (nth_error (inds ++ indices_complement inds (ds_size d)) k) as [i|] eqn:Ei; cbn.
      - destruct (H k i Ei) as [Hi E]. rewrite E. apply nth_error_nth'. exact Hi.
      - apply nth_error_None. apply nth_error_None in Ei. lia. }
    eapply Permutation_trans; [apply Permutation_map, P|].
    rewrite <- (rows_length d Hw).
    assert (map (fun i => nth i (rows d) r0) (seq 0 (length (rows d))) = rows d) as ->; [|reflexivity].
    apply list_ext. intros k. rewrite nth_error_map', nth_error_seq.
    destruct (Nat.ltb_spec k (length (rows d))) as [Hk|Hk]; cbn.
    + symmetry. apply nth_error_nth'. exact Hk.
    + symmetry. apply nth_error_None. exact Hk.
  - assert (rows te = []) as ->.
    { apply length_zero_iff_nil. rewrite rows_length by exact W2. lia. }
    assert (rows tr = []) as ->.
    { apply length_zero_iff_nil. rewrite rows_length by exact W1. lia. }
    assert (rows d = []) as ->; [|constructor].
    apply length_zero_iff_nil. rewrite rows_length by exact Hw. exact H0.
Qed.

Lemma create_fold_bad {X D} inds (d : dataset X D) :
  wf_dataset d -> ~ NoDup inds \/ (exists i, In i inds /\ ds_size d <= i) ->
  create_fold inds d = Abort.
Proof.
  intros Hw Hbad. rewrite create_fold_split by exact Hw.
  destruct (dataset_subset_rows d (indices_complement inds (ds_size d)) Hw) as [E1 _].
  destruct E1 as [tr [E1 [W1 [_ R1]]]].
  { apply Forall_forall. intros i Hi. apply indices_complement_spec in Hi. tauto. }
  rewrite E1. cbn [bind].
  destruct (dataset_subset_rows d inds Hw) as [Hok Hab].
  destruct (Forall_dec (fun i => i < ds_size d) (fun i => lt_dec i (ds_size d)) inds) as [Hr|Hr].
  - destruct (Hok Hr) as [te [E2 [W2 [_ R2]]]]. rewrite E2. cbn [bind].
    destruct Hbad as [Hnd|[i [Hi Hge]]].
    2:{ rewrite Forall_forall in Hr. specialize (Hr i Hi). lia. }
    unfold assert_then.
    assert (ds_size te + ds_size tr <> ds_size d) as Hne.
    { rewrite <- (rows_length te W2), <- (rows_length tr W1).
      apply subset_ok_iff in R1 as [L1 _]. apply subset_ok_iff in R2 as [L2 _].
      rewrite L1, L2. pose proof (indices_complement_length inds (ds_size d) Hr).
      pose proof (nodup_length_lt inds Hnd). lia. }
    rewrite (proj2 (Nat.eqb_neq _ _) Hne). reflexivity.
  - rewrite Hab; [reflexivity|]. clear -Hr. induction inds as [|a l IH].
    + exfalso. apply Hr. constructor.
    + destruct (lt_dec a (ds_size d)) as [Ha|Ha].
      * destruct IH as [i [Hi Hge]]; [intros HF; apply Hr; constructor; assumption|].
        exists i. split; [right; exact Hi|exact Hge].
      * exists a. split; [left; reflexivity|lia].
Qed.

(* ---------------- apply_mapM ---------------- *)

Lemma apply_mapM_acc {K V W} `{OrdKey K} (f : K -> V -> outcome W) (g : K -> V -> W) m (acc : smap K W) :
  wf_map (acc ++ map (fun kv => (fst kv, g (fst kv) (snd kv))) m) ->
  (forall k v, In (k, v) m -> f k v = Ok (g k v)) ->
  foldM (fun output kv => w <- f (fst kv) (snd kv) ;; Ok (memplace (fst kv) w output)) m acc
  = Ok (acc ++ map (fun kv => (fst kv, g (fst kv) (snd kv))) m).
Proof.
  revert acc. induction m as [|[k v] m IH]; intros acc Hwf Hf; cbn [foldM fst snd map].
  - rewrite app_nil_r. reflexivity.
  - rewrite Hf by (left; reflexivity). cbn [bind].
    assert (memplace k (g k v) acc = acc ++ [(k, g k v)]) as ->.
    { assert (Forall (fun k' => klt k' k) (mkeys acc)) as HF.
      { unfold wf_map, mkeys in Hwf. rewrite map_app in Hwf. cbn in Hwf.
        clear -Hwf. unfold mkeys. induction acc as [|[k1 v1] acc IH]; cbn in *; [constructor|].
        inversion Hwf; subst. constructor; [|apply IH; assumption].
        rewrite Forall_app in H3. destruct H3 as [_ H3]. inversion H3; subst. assumption. }
      unfold memplace, mcontains.
      assert (wf_map acc) as Wa.
      { unfold wf_map, mkeys in *. rewrite map_app in Hwf. clear -Hwf.
        induction (map fst acc) as [|a l IHl]; [constructor|]. cbn in Hwf. inversion Hwf; subst.
        constructor; [apply IHl; assumption|]. rewrite Forall_app in H3. tauto. }
      assert (mfind k acc = None) as ->.
      { apply mfind_None; [exact Wa|]. intros Hin. rewrite Forall_forall in HF.
        exact (klt_irrefl k (HF k Hin)). }
      apply massign_snoc. exact HF. }
    change ((k, g k v) :: map (fun kv => (fst kv, g (fst kv) (snd kv))) m)
      with ([(k, g k v)] ++ map (fun kv => (fst kv, g (fst kv) (snd kv))) m) in *.
    cbn [map fst snd] in Hwf.
    change ((k, g k v) :: map (fun kv => (fst kv, g (fst kv) (snd kv))) m)
      with ([(k, g k v)] ++ map (fun kv => (fst kv, g (fst kv) (snd kv))) m) in Hwf.
    rewrite app_assoc in Hwf |- *. apply IH; [exact Hwf|].
    intros k' v' Hin. apply Hf. right. exact Hin.
Qed.

Lemma apply_mapM_pure {K V W} `{OrdKey K} (f : K -> V -> outcome W) (g : K -> V -> W) m :
  wf_map m -> (forall k v, mfind k m = Some v -> f k v = Ok (g k v)) ->
  apply_mapM m f = Ok (map (fun kv => (fst kv, g (fst kv) (snd kv))) m).
Proof.
  intros Hwf Hf. unfold apply_mapM. rewrite (apply_mapM_acc f g); [reflexivity| |].
  - cbn. apply (wf_map_map g). exact Hwf.
  - intros k v Hin. apply Hf, mfind_In; assumption.
Qed.

Lemma apply_mapM_ok {K V W} `{OrdKey K} (f : K -> V -> outcome W) m :
  wf_map m -> (forall k v, mfind k m = Some v -> exists w, f k v = Ok w) ->
  exists out, apply_mapM m f = Ok out /\ wf_map out /\ mkeys out = mkeys m /\
    (forall k v, mfind k m = Some v -> exists w, mfind k out = Some w /\ f k v = Ok w) /\
    (forall k w, mfind k out = Some w -> exists v, mfind k m = Some v /\ f k v = Ok w).
Proof.
  intros Hwf Hf.
  assert (exists out, mapM (fun kv => w <- f (fst kv) (snd kv) ;; Ok (fst kv, w)) m = Ok out) as [out Hout].
  { assert (forall kv, In kv m -> exists w, f (fst kv) (snd kv) = Ok w) as Hf'.
    { intros [k v] Hin. apply Hf, mfind_In; assumption. }
    clear -Hf'. induction m as [|kv m IH]; [exists []; reflexivity|].
    destruct (Hf' kv (or_introl eq_refl)) as [w Hw].
    destruct IH as [out Hout]; [intros kv' Hin; apply Hf'; right; exact Hin|].
    exists ((fst kv, w) :: out). cbn. rewrite Hw. cbn. rewrite Hout. reflexivity. }
  pose proof (proj1 (mapM_ok _ _ _) Hout) as HF.
  assert (mkeys out = mkeys m) as Hk.
  { clear -HF. unfold mkeys. induction HF as [|kv r m out Hr HF IH]; cbn; [reflexivity|].
    f_equal; [|exact IH]. apply bind_ok in Hr as [w [_ E]]. injection E as <-. reflexivity. }
  assert (wf_map out) as Wo by (unfold wf_map, mkeys in *; rewrite <- Hk in Hwf; exact Hwf).
  assert (apply_mapM m f = Ok out) as Happ.
  { assert (forall acc : smap K W, wf_map (acc ++ out) ->
      foldM (fun output kv => w <- f (fst kv) (snd kv) ;; Ok (memplace (fst kv) w output)) m acc
      = Ok (acc ++ out)) as G.
    { clear -HF. induction HF as [|[k v] r m out Hr HF IH]; intros acc Wa; cbn [foldM fst snd].
      - rewrite app_nil_r. reflexivity.
      - apply bind_ok in Hr as [w [Hw E]]. injection E as <-. cbn [fst snd] in Hw, Wa |- *.
        pose proof (apply_mapM_acc (fun (_ : K) (_ : unit) => Ok w) (fun _ _ => w) [(k, tt)] acc) as G1.
        cbn [foldM fst snd map bind] in G1.
        rewrite Hw. cbn [bind].
        assert (wf_map (acc ++ [(k, w)])) as W1.
        { clear -Wa. unfold wf_map, mkeys in *. rewrite map_app in *. cbn in *.
          induction (map fst acc) as [|a l IHl]; cbn in *.
          - constructor; constructor.
          - inversion Wa; subst. constructor; [apply IHl; assumption|].
            rewrite Forall_app in *. destruct H3 as [H3 H4]. split; [exact H3|].
            inversion H4; subst. repeat constructor. assumption. }
        specialize (G1 W1 (fun _ _ _ => eq_refl)).
        injection G1 as ->. change ((k, w) :: out) with ([(k, w)] ++ out) in *.
        rewrite app_assoc in Wa |- *. apply IH. exact Wa. }
    unfold apply_mapM. rewrite G; [reflexivity|exact Wo]. }
  exists out. split; [exact Happ|]. split; [exact Wo|]. split; [exact Hk|]. split.
  - intros k v Hv. destruct (Hf k v Hv) as [w Hw]. exists w. split; [|exact Hw].
    apply mfind_In in Hv; [|exact Hwf]. apply mfind_In; [exact Wo|].
    apply In_nth_error in Hv as [i Hi]. destruct (Forall2_nth_error _ _ _ HF _ _ Hi) as [r [Hr E]].
    cbn [fst snd] in E. rewrite Hw in E. cbn in E. injection E as <-. eapply nth_error_In; eauto.
  - intros k w Hw.
    assert (In k (mkeys m)) as Hin by (rewrite <- Hk; apply mfind_Some_key; eauto).
    apply mfind_Some_key in Hin as [v Hv]; [|exact Hwf]. exists v. split; [exact Hv|].
    destruct (Hf k v Hv) as [w' Hw']. rewrite Hw'. f_equal.
    apply mfind_In in Hv; [|exact Hwf]. apply In_nth_error in Hv as [i Hi].
    destruct (Forall2_nth_error _ _ _ HF _ _ Hi) as [r [Hr E]].
    cbn [fst snd] in E. rewrite Hw' in E. cbn in E. injection E as <-.
    assert (In (k, w') out) as Ho by (eapply nth_error_In; eauto).
    apply mfind_In in Ho; [|exact Wo]. congruence.
Qed.

(* the first failing entry decides the outcome *)
Lemma apply_mapM_fail {K V W} `{OrdKey K} (f : K -> V -> outcome W) m :
  (exists kv, In kv m /\ is_ok (f (fst kv) (snd kv)) = false) -> is_ok (apply_mapM m f) = false.
Proof.
  unfold apply_mapM. generalize (@nil (K * W)) as acc.
  induction m as [|kv0 m IH]; intros acc [kv [Hin Hf]]; [destruct Hin|].
  cbn [foldM]. destruct (f (fst kv0) (snd kv0)) as [w| | |] eqn:E; cbn [bind]; try reflexivity.
  apply IH. exists kv. split; [|exact Hf]. destruct Hin as [->|Hin]; [|exact Hin].
  rewrite E in Hf. discriminate.
Qed.

(* ---------------- folds ---------------- *)

Lemma folds_from_group_indexer_spec {X D K} `{OrdKey K} (d : dataset X D) groups :
  wf_dataset d -> wf_map groups ->
  (forall k inds, mfind k groups = Some inds -> NoDup inds /\ Forall (fun i => i < ds_size d) inds) ->
  exists folds, folds_from_group_indexer d groups = Ok folds /\ wf_map folds /\
    mkeys folds = mkeys groups /\
    forall k f, mfind k folds = Some f -> exists inds, mfind k groups = Some inds /\
      f_test_indices f = inds /\ wf_dataset (f_train f) /\ wf_dataset (f_test f) /\
      subset (rows d) inds = Ok (rows (f_test f)) /\
      subset (rows d) (indices_complement inds (ds_size d)) = Ok (rows (f_train f)) /\
      Permutation (rows (f_test f) ++ rows (f_train f)) (rows d).
Proof.
  intros Hw Hg Hv. unfold folds_from_group_indexer.
  destruct (apply_mapM_ok (fun (_ : K) test_indices => create_fold test_indices d) groups Hg)
    as [folds [E [Wf [Ek [H1 H2]]]]].
  { intros k inds Hi. destruct (Hv k inds Hi) as [Hnd Hr].
    destruct (create_fold_ok inds d Hw Hnd Hr) as [f [Hf _]]. eauto. }
  exists folds. split; [exact E|]. split; [exact Wf|]. split; [exact Ek|].
  intros k f Hf. destruct (H2 k f Hf) as [inds [Hi Hc]]. exists inds. split; [exact Hi|].
  destruct (Hv k inds Hi) as [Hnd Hr].
  destruct (create_fold_ok inds d Hw Hnd Hr) as [f' [Hf' Hrest]]. rewrite Hc in Hf'.
  injection Hf' as <-. exact Hrest.
Qed.

Lemma group_inds_to_keep {A K} `{OrdKey K} (g : A -> K) xs k l :
  mfind k (build_indexer g xs) = Some l -> l = inds_to_keep xs (fun x => keqb (g x) k) 0.
Proof.
  intros Hl. destruct (build_indexer_spec g xs) as [Hwf [H1 [H2 H3]]].
  destruct (inds_to_keep_zero_spec xs (fun x => keqb (g x) k)) as [S1 [S2 _]].
  apply SSorted_lt_ext; [apply (H3 k l Hl)|exact S1|]. intros i. rewrite S2. split.
  - intros Hi. destruct (H2 k l i Hl Hi) as [x [Hx E]]. exists x. split; [exact Hx|].
    apply keqb_eq. exact E.
  - intros [x [Hx E]]. apply keqb_eq in E. destruct (H1 i x Hx) as [l' [Hl' Hi]].
    rewrite E in Hl'. congruence.
Qed.

Lemma complement_inds_to_keep {A} (xs : list A) p :
  indices_complement (inds_to_keep xs p 0) (length xs) = inds_to_keep xs (fun x => negb (p x)) 0.
Proof.
  destruct (inds_to_keep_zero_spec xs p) as [S1 [S2 _]].
  destruct (inds_to_keep_zero_spec xs (fun x => negb (p x))) as [T1 [T2 _]].
  apply SSorted_lt_ext; [apply indices_complement_spec|exact T1|].
  intros i. rewrite T2, (proj2 (indices_complement_spec _ _)), S2. split.
  - intros [Hi Hn]. destruct (nth_error xs i) as [x|] eqn:Ex.
    2:{ apply nth_error_None in Ex. lia. }
    exists x. split; [reflexivity|]. apply negb_true_iff, not_true_iff_false. intros E. apply Hn. eauto.
  - intros [x [Hx E]]. split; [apply nth_error_Some; congruence|].
    intros [y [Hy E']]. apply negb_true_iff in E. congruence.
Qed.

Lemma folds_from_grouper_spec {X D K} `{OrdKey K} (d : dataset X D) (g : X -> K) :
  wf_dataset d ->
  exists folds, folds_from_grouper d g = Ok folds /\ wf_map folds /\
    (forall k, In k (mkeys folds) <-> exists x, In x (ds_features d) /\ g x = k) /\
    (forall k f, mfind k folds = Some f ->
       rows (f_test f) = filter (fun r => keqb (g (fst r)) k) (rows d) /\
       rows (f_train f) = filter (fun r => negb (keqb (g (fst r)) k)) (rows d)).
Proof.
  intros Hw. unfold folds_from_grouper.
  destruct (build_indexer_spec g (ds_features d)) as [Hwf [H1 [H2 H3]]].
  destruct (folds_from_group_indexer_spec d (build_indexer g (ds_features d)) Hw Hwf)
    as [folds [E [Wf [Ek Hf]]]].
  { intros k inds Hi. split; [apply SSorted_lt_NoDup, (H3 k inds Hi)|].
    apply Forall_forall. intros i Hii. destruct (H2 k inds i Hi Hii) as [x [Hx _]].
    apply nth_error_Some. congruence. }
  exists folds. split; [exact E|]. split; [exact Wf|]. split.
  - intros k. rewrite Ek. apply build_indexer_keys.
  - intros k f Hk. destruct (Hf k f Hk) as [inds [Hi [_ [_ [_ [R1 [R2 _]]]]]]].
    apply group_inds_to_keep in Hi as ->.
    assert (inds_to_keep (ds_features d) (fun x => keqb (g x) k) 0 =
            inds_to_keep (rows d) (fun r => keqb (g (fst r)) k) 0) as EI.
    { rewrite <- (rows_features d Hw). apply inds_to_keep_via_map. }
    rewrite EI in R1, R2.
    rewrite <- (rows_length d Hw), complement_inds_to_keep in R2.
    rewrite subset_inds_to_keep in R1, R2. split; congruence.
Qed.

(* every observation is tested exactly once *)
Lemma folds_tests_permutation {X D K} `{OrdKey K} (d : dataset X D) (g : X -> K) folds :
  wf_dataset d -> folds_from_grouper d g = Ok folds ->
  Permutation (concat (map (fun f => rows (f_test f)) (mvals folds))) (rows d).
Proof.
  intros Hw Hfold.
  destruct (folds_from_grouper_spec d g Hw) as [folds' [E [Wf [Hk Hf]]]].
  rewrite Hfold in E. injection E as <-.
  assert (concat (map (fun f => rows (f_test f)) (mvals folds)) =
    concat (map (fun k => filter (fun r => keqb (g (fst r)) k) (rows d)) (mkeys folds))) as ->.
  { f_equal. unfold mvals, mkeys. rewrite !map_map. apply map_ext_in. intros [k f] Hin. cbn.
    apply mfind_In in Hin; [|exact Wf]. apply (Hf k f Hin). }
  assert (forall r, In r (rows d) -> In (g (fst r)) (mkeys folds)) as Hall.
  { intros r Hr. apply Hk. exists (fst r). split; [|reflexivity].
    rewrite <- (rows_features d Hw). apply in_map. exact Hr. }
  pose proof (wf_NoDup _ Wf) as Hnd.
  revert Hall. generalize (rows d) as l. induction l as [|r l IH]; intros Hall.
  - cbn. assert (concat (map (fun _ : K => @nil (X * (D * D))) (mkeys folds)) = []) as ->; [|constructor].
    clear. induction (mkeys folds); cbn; auto.
  - assert (Permutation (concat (map (fun k => filter (fun r0 => keqb (g (fst r0)) k) l) (mkeys folds))) l) as P.
    { apply IH. intros r' Hr'. apply Hall. right. exact Hr'. }
    assert (Hin := Hall r (or_introl eq_refl)).
    apply Permutation_trans with (r :: concat (map (fun k => filter (fun r0 => keqb (g (fst r0)) k) l) (mkeys folds)));
      [|constructor; exact P].
    clear -Hnd Hin. induction (mkeys folds) as [|k ks IH]; [destruct Hin|].
    cbn [map concat filter]. inversion Hnd; subst.
    destruct (keqb (g (fst r)) k) eqn:Ek.
    + apply keqb_eq in Ek. cbn. constructor. apply Permutation_app_head.
      assert (map (fun k0 => if keqb (g (fst r)) k0 then r :: filter (fun r0 => keqb (g (fst r0)) k0) l
                             else filter (fun r0 => keqb (g (fst r0)) k0) l) ks =
              map (fun k0 => filter (fun r0 => keqb (g (fst r0)) k0) l) ks) as E.
      { apply map_ext_in. intros k0 Hk0. destruct (keqb (g (fst r)) k0) eqn:E0; [|reflexivity].
        apply keqb_eq in E0. exfalso. apply H2. congruence. }
      cbn [filter]. rewrite E. reflexivity.
    + destruct Hin as [E|Hin]; [symmetry in E; apply keqb_eq in E; congruence|].
      eapply Permutation_trans; [apply Permutation_app_head, IH; assumption|].
      apply Permutation_sym, Permutation_middle.
Qed.

Lemma group_indexer_from_folds_spec {X D K} `{OrdKey K} (folds : smap K (fold X D)) :
  wf_map folds ->
  group_indexer_from_folds folds = Ok (map (fun kv => (fst kv, f_test_indices (snd kv))) folds).
Proof.
  intros Hwf. unfold group_indexer_from_folds.
  assert (forall acc, wf_map (acc ++ map (fun kv => (fst kv, f_test_indices (snd kv))) folds) ->
    foldM (fun output kv => assert_then (negb (mcontains (fst kv) output))
             (Ok (massign (fst kv) (f_test_indices (snd kv)) output))) folds acc =
    Ok (acc ++ map (fun kv => (fst kv, f_test_indices (snd kv))) folds)) as G.
  { clear Hwf. induction folds as [|[k f] folds IH]; intros acc Hwf; cbn [foldM map fst snd].
    - rewrite app_nil_r. reflexivity.
    - cbn [map fst snd] in Hwf.
      assert (Forall (fun k' => klt k' k) (mkeys acc) /\ wf_map acc) as [HF Wa].
      { unfold wf_map, mkeys in *. rewrite map_app in Hwf. cbn in Hwf. clear -Hwf.
        induction (map fst acc) as [|a l IHl]; [split; constructor|]. cbn in Hwf. inversion Hwf; subst.
        destruct (IHl H2) as [I1 I2]. rewrite Forall_app in H3. destruct H3 as [H3 H4].
        split; constructor; try assumption. inversion H4; assumption. }
      unfold mcontains.
      assert (mfind k acc = None) as ->.
      { apply mfind_None; [exact Wa|]. intros Hin. rewrite Forall_forall in HF.
        exact (klt_irrefl k (HF k Hin)). }
      cbn [negb assert_then bind]. rewrite massign_snoc by exact HF.
      change ((k, f_test_indices f) :: map (fun kv => (fst kv, f_test_indices (snd kv))) folds)
        with ([(k, f_test_indices f)] ++ map (fun kv => (fst kv, f_test_indices (snd kv))) folds) in *.
      rewrite app_assoc in Hwf |- *. apply IH. exact Hwf. }
  rewrite G; [reflexivity|]. cbn.
  unfold wf_map, mkeys in *. rewrite map_map. cbn. exact Hwf.
Qed.

Lemma folds_round_trip {X D K} `{OrdKey K} (d : dataset X D) groups folds :
  wf_dataset d -> wf_map groups ->
  (forall k inds, mfind k groups = Some inds -> NoDup inds /\ Forall (fun i => i < ds_size d) inds) ->
  folds_from_group_indexer d groups = Ok folds -> group_indexer_from_folds folds = Ok groups.
Proof.
  intros Hw Hg Hv Hf.
  destruct (folds_from_group_indexer_spec d groups Hw Hg Hv) as [folds' [E [Wf [Ek H1]]]].
  rewrite Hf in E. injection E as <-. rewrite group_indexer_from_folds_spec by exact Wf.
  f_equal. apply map_ext_find.
  - apply (wf_map_map (fun _ => f_test_indices)). exact Wf.
  - exact Hg.
  - intros k. rewrite (mfind_map (fun _ => f_test_indices)).
    destruct (mfind k folds) as [f|] eqn:Ef; cbn.
    + destruct (H1 k f Ef) as [inds [Hi [Hti _]]]. congruence.
    + symmetry. apply mfind_None; [exact Hg|]. rewrite <- Ek. apply mfind_None; assumption.
Qed.

(* ---------------- dataset_size_from_indexer ---------------- *)

Lemma unique_indices_spec {K} (m : smap K (list nat)) :
  StronglySorted lt (unique_indices m) /\
  forall i, In i (unique_indices m) <-> In i (concat (mvals m)).
Proof.
  unfold unique_indices.
  assert (forall s, StronglySorted klt s ->
    StronglySorted klt (fold_left (fun indices kv => fold_left (fun s i => sinsert i s) (snd kv) indices) m s) /\
    forall i, In i (fold_left (fun indices (kv : K * list nat) => fold_left (fun s i => sinsert i s) (snd kv) indices) m s)
      <-> In i (concat (mvals m)) \/ In i s) as G.
  { induction m as [|[k l] m IH]; intros s Hs; cbn; [split; [exact Hs|tauto]|].
    destruct (sof_list_aux l s Hs) as [S1 S2]. destruct (IH _ S1) as [I1 I2].
    split; [exact I1|]. intros i. rewrite I2, S2, in_app_iff. unfold mvals. tauto. }
  destruct (G [] (SSorted_nil _)) as [G1 G2]. split; [apply SSorted_klt_lt, G1|].
  intros i. rewrite G2. cbn. tauto.
Qed.

Lemma count_concat {K} (m : smap K (list nat)) c :
  fold_left (fun c kv => c + length (snd kv)) m c = c + length (concat (mvals m)).
Proof.
  revert c. induction m as [|[k l] m IH]; intros c; cbn; [lia|].
  rewrite IH, app_length. unfold mvals. lia.
Qed.

Lemma fold_min_spec l a : let r := fold_left Nat.min l a in
  (r = a \/ In r l) /\ r <= a /\ forall x, In x l -> r <= x.
Proof.
  revert a. induction l as [|b l IH]; intros a; cbn.
  - split; [auto|]. split; [lia|]. intros x [].
  - destruct (IH (Nat.min a b)) as [H1 [H2 H3]]. split.
    + destruct H1 as [H1|H1]; [|auto]. destruct (Nat.min_dec a b); [left|right; left]; congruence.
    + split; [lia|]. intros x [<-|Hx]; [lia|auto].
Qed.
Lemma fold_max_spec l a : let r := fold_left Nat.max l a in
  (r = a \/ In r l) /\ a <= r /\ forall x, In x l -> x <= r.
Proof.
  revert a. induction l as [|b l IH]; intros a; cbn.
  - split; [auto|]. split; [lia|]. intros x [].
  - destruct (IH (Nat.max a b)) as [H1 [H2 H3]]. split.
    + destruct H1 as [H1|H1]; [|auto]. destruct (Nat.max_dec a b); [left|right; left]; congruence.
    + split; [lia|]. intros x [<-|Hx]; [lia|auto].
Qed.

Lemma dataset_size_from_indexer_spec {K} (m : smap K (list nat)) :
  (forall n, dataset_size_from_indexer m = Ok n <->
     0 < n /\ Permutation (concat (mvals m)) (seq 0 n)) /\
  (concat (mvals m) = [] -> dataset_size_from_indexer m = UB) /\
  (concat (mvals m) <> [] -> (forall n, ~ Permutation (concat (mvals m)) (seq 0 n)) ->
     dataset_size_from_indexer m = Abort).
Proof.
  destruct (unique_indices_spec m) as [Hs Hin].
  unfold dataset_size_from_indexer. rewrite count_concat. cbn [Nat.add].
  assert (NoDup (unique_indices m)) as Hnd by (apply SSorted_lt_NoDup, Hs).
  assert (length (concat (mvals m)) = length (unique_indices m) <-> NoDup (concat (mvals m))) as Hlen.
  { split.
    - intros E. apply NoDup_incl_NoDup with (l := unique_indices m); [exact Hnd|lia|].
      intros i Hi. apply Hin. exact Hi.
    - intros Hd. apply Permutation_length, NoDup_Permutation; [exact Hd|exact Hnd|].
      intros i. symmetry. apply Hin. }
  destruct (Nat.eqb_spec (length (concat (mvals m))) (length (unique_indices m))) as [E|E].
  - cbn [assert_then]. destruct (unique_indices m) as [|i0 rest] eqn:EU.
    + assert (concat (mvals m) = []) as EC by (apply length_zero_iff_nil; rewrite E; reflexivity).
      rewrite EC. split; [|split; [reflexivity|congruence]].
      intros n. split; [discriminate|]. intros [Hn P]. apply Permutation_length in P.
      rewrite seq_length in P. cbn in P. lia.
    + assert (Permutation (concat (mvals m)) (i0 :: rest)) as P0.
      { apply NoDup_Permutation; [apply Hlen, E|exact Hnd|]. intros i. symmetry. apply Hin. }
      destruct (fold_min_spec rest i0) as [M1 [M2 M3]].
      destruct (fold_max_spec rest i0) as [X1 [X2 X3]].
      set (mn := fold_left Nat.min rest i0) in *. set (mx := fold_left Nat.max rest i0) in *.
      assert (forall n, Permutation (concat (mvals m)) (seq 0 n) -> n = length (i0 :: rest)) as HL.
      { intros n P. apply Permutation_length in P0, P. rewrite seq_length in P. congruence. }
      assert (Permutation (i0 :: rest) (seq 0 (length (i0 :: rest))) <-> mn = 0 /\ length (i0 :: rest) = mx + 1) as Hiff.
      { split.
        - intros P. assert (In 0 (i0 :: rest)) as H0.
          { eapply Permutation_in; [apply Permutation_sym, P|]. apply in_seq. cbn. lia. }
          assert (mn = 0) as ->. { destruct H0 as [->|H0]; [lia|]. specialize (M3 0 H0). lia. }
          split; [reflexivity|].
          assert (In (length rest) (i0 :: rest)) as H1.
          { eapply Permutation_in; [apply Permutation_sym, P|]. apply in_seq. cbn. lia. }
          assert (length rest <= mx) by (destruct H1 as [->|H1]; [lia|auto]).
          assert (In mx (seq 0 (length (i0 :: rest)))) as H2.
          { eapply Permutation_in; [exact P|]. destruct X1 as [->|X1]; [left; reflexivity|right; exact X1]. }
          apply in_seq in H2. cbn [length] in *. lia.
        - intros [_ HL']. apply NoDup_Permutation_bis; [exact Hnd|rewrite seq_length; lia|].
          intros i Hi. apply in_seq. cbn in Hi. destruct Hi as [<-|Hi]; [lia|]. specialize (X3 i Hi). lia. }
      split; [|split].
      * intros n. unfold assert_then. split.
        -- destruct (Nat.eqb_spec mn 0) as [E0|E0]; [|discriminate].
           destruct (Nat.eqb_spec (length (i0 :: rest)) (mx + 1)) as [E1|E1]; [|discriminate].
           intros EE. injection EE as <-. split; [lia|]. rewrite <- E1.
           eapply Permutation_trans; [exact P0|]. apply Hiff. auto.
        -- intros [Hn P]. pose proof (HL n P) as ->.
           destruct (proj1 Hiff) as [E0 E1].
           { eapply Permutation_trans; [apply Permutation_sym, P0|exact P]. }
           rewrite (proj2 (Nat.eqb_eq _ _) E0), (proj2 (Nat.eqb_eq _ _) E1). congruence.
      * intros EC. rewrite EC in P0. apply Permutation_nil in P0. discriminate.
      * intros _ HN. unfold assert_then.
        destruct (Nat.eqb_spec mn 0) as [E0|E0]; [|reflexivity].
        destruct (Nat.eqb_spec (length (i0 :: rest)) (mx + 1)) as [E1|E1]; [|reflexivity].
        exfalso. apply (HN (length (i0 :: rest))). eapply Permutation_trans; [exact P0|].
        apply Hiff. auto.
  - cbn [assert_then]. split; [|split].
    + intros n. split; [discriminate|]. intros [Hn P]. exfalso. apply E, Hlen.
      eapply Permutation_NoDup; [apply Permutation_sym, P|apply seq_NoDup].
    + intros EC. exfalso. apply E, Hlen. rewrite EC. constructor.
    + reflexivity.
Qed.

(* ---------------- concatenating predictions ---------------- *)

Definition lines_up {D K} `{OrdKey K} (m : smap K (list nat)) (vals : K -> option (list D))
  (out : list (option D)) : Prop :=
  forall k l p i, mfind k m = Some l -> nth_error l p = Some i ->
    exists v x, vals k = Some v /\ nth_error v p = Some x /\ nth_error out i = Some (Some x).

Lemma set_subset_fold {D K} `{OrdKey K} (vals : K -> option (list D)) (m : smap K (list nat)) n :
  Permutation (concat (mvals m)) (seq 0 n) ->
  (forall k l, In (k, l) m -> exists v, vals k = Some v /\ length v = length l) ->
  forall pred, length pred = n ->
  exists out, length out = n /\
    foldM (fun pred kv => match vals (fst kv) with
             | Some v => set_subset (map Some v) (snd kv) pred | None => Abort end) m pred = Ok out /\
    (forall k l p i, In (k, l) m -> nth_error l p = Some i ->
      exists v x, vals k = Some v /\ nth_error v p = Some x /\ nth_error out i = Some (Some x)).
Proof.
  intros P Hv.
  assert (NoDup (concat (mvals m))) as Hnd by (eapply Permutation_NoDup; [apply Permutation_sym, P|apply seq_NoDup]).
  assert (Forall (fun i => i < n) (concat (mvals m))) as Hr.
  { apply Forall_forall. intros i Hi. eapply Permutation_in in Hi; [|exact P]. apply in_seq in Hi. lia. }
  clear P.
  assert (forall pred, length pred = n ->
    exists out, length out = n /\
    foldM (fun pred kv => match vals (fst kv) with
             | Some v => set_subset (map Some v) (snd kv) pred | None => Abort end) m pred = Ok out /\
    (forall i, ~ In i (concat (mvals m)) -> nth_error out i = nth_error pred i) /\
    (forall k l p i, In (k, l) m -> nth_error l p = Some i ->
      exists v x, vals k = Some v /\ nth_error v p = Some x /\ nth_error out i = Some (Some x))) as G.
  { induction m as [|[k l] m IH]; intros pred Lp.
    - exists pred. cbn. repeat split; auto. intros k l p i [].
    - cbn [foldM fst snd]. destruct (Hv k l (or_introl eq_refl)) as [v [Ev Lv]]. rewrite Ev.
      cbn in Hnd, Hr. apply Forall_app in Hr as [Hr1 Hr2].
      assert (NoDup l) as Hl by (apply NoDup_app_l in Hnd; exact Hnd).
      assert (forall i, In i l -> ~ In i (concat (mvals m))) as Hdis.
      { intros i Hi Hm. clear -Hnd Hi Hm. unfold mvals in *. induction l as [|a l IHl]; [destruct Hi|].
        cbn in Hnd. inversion Hnd; subst. destruct Hi as [->|Hi]; [|auto].
        apply H1, in_or_app. right. exact Hm. }
      destruct (set_subset_outcome (map Some v) l pred) as [[out1 E1] _].
      { rewrite map_length. congruence. }
      { rewrite Lp. exact Hr1. }
      rewrite E1. cbn [bind]. apply set_subset_spec in E1 as [S1 [S2 S3]].
      destruct IH with (pred := out1) as [out [Lo [Eo [Ho1 Ho2]]]].
      + intros k' l' Hin. apply Hv. right. exact Hin.
      + apply NoDup_app_r in Hnd. exact Hnd.
      + exact Hr2.
      + congruence.
      + exists out. split; [exact Lo|]. split; [exact Eo|]. split.
        * intros i Hi. cbn in Hi. rewrite in_app_iff in Hi. rewrite Ho1 by tauto. apply S2. tauto.
        * intros k' l' p i [Ein|Hin] Hp; [|eapply Ho2; eauto].
          injection Ein as <- <-. exists v.
          destruct (nth_error v p) as [x|] eqn:Ex.
          2:{ apply nth_error_None in Ex. assert (p < length l) by (apply nth_error_Some; congruence). lia. }
          exists x. split; [exact Ev|]. split; [reflexivity|].
          rewrite Ho1 by (apply Hdis; eapply nth_error_In; eauto).
          destruct (S3 p i Hp) as [_ ->].
          { intros p' Hp' E. rewrite NoDup_nth_error in Hl. assert (p = p'); [|lia].
            apply Hl; [apply nth_error_Some; congruence|congruence]. }
          rewrite nth_error_map', Ex. reflexivity. }
  intros pred Lp. destruct (G pred Lp) as [out [H1 [H2 [_ H3]]]]. eauto.
Qed.

Lemma mkeys_length {K V} (m : smap K V) : length (mkeys m) = length m.
Proof. apply map_length. Qed.

Lemma concatenate_mean_predictions_spec {D K} `{OrdKey K}
  (indexer : smap K (list nat)) (means : smap K (list D)) n :
  wf_map indexer -> wf_map means -> mkeys means = mkeys indexer ->
  0 < n -> Permutation (concat (mvals indexer)) (seq 0 n) ->
  (forall k l, mfind k indexer = Some l -> exists v, mfind k means = Some v /\ length v = length l) ->
  exists out, concatenate_mean_predictions indexer means = Ok (map Some out) /\ length out = n /\
    (forall k l p i v, mfind k indexer = Some l -> nth_error l p = Some i -> mfind k means = Some v ->
       nth_error out i = nth_error v p).
Proof.
  intros Wi Wm Ek Hn P Hv.
  assert (exists out, length out = n /\
    foldM (fun pred kv => match mfind (fst kv) means with
             | Some v => set_subset (map Some v) (snd kv) pred | None => Abort end) indexer (repeat None n) = Ok out /\
    (forall k l p i, In (k, l) indexer -> nth_error l p = Some i ->
      exists v x, mfind k means = Some v /\ nth_error v p = Some x /\ nth_error out i = Some (Some x)))
    as [out [Lo [Eo Ho]]].
  { apply (set_subset_fold (fun k => mfind k means) indexer n P).
    - intros k l Hin. apply Hv, mfind_In; assumption.
    - apply repeat_length. }
  assert (exists out', out = map Some out') as [out' ->].
  { assert (forall i, i < n -> exists x, nth_error out i = Some (Some x)) as Hall.
    { intros i Hi. assert (In i (concat (mvals indexer))) as Hin.
      { eapply Permutation_in; [apply Permutation_sym, P|]. apply in_seq. lia. }
      apply in_concat_mvals in Hin as [k [l [Hl Hi']]]; [|exact Wi].
      apply In_nth_error in Hi' as [p Hp].
      apply mfind_In in Hl; [|exact Wi]. destruct (Ho k l p i Hl Hp) as [v [x [_ [_ Hx]]]]. eauto. }
    clear -Hall Lo. revert n Hall Lo. induction out as [|o out IH]; intros n Hall Lo; [exists []; reflexivity|].
    destruct (Hall 0) as [x Hx]; [cbn in Lo; lia|]. cbn in Hx. injection Hx as ->.
    destruct (IH (length out)) as [out' ->]; [|reflexivity|exists (x :: out'); reflexivity].
    intros i Hi. apply (Hall (S i)). cbn in Lo. lia. }
  exists out'. rewrite map_length in Lo. split; [|split; [exact Lo|]].
  - unfold concatenate_mean_predictions.
    assert (length indexer = length means) as EL by (rewrite <- !mkeys_length, Ek; reflexivity).
    rewrite (proj2 (Nat.eqb_eq _ _) EL). cbn [assert_then].
    rewrite (proj2 (proj1 (dataset_size_from_indexer_spec indexer) n)) by auto. cbn [bind].
    assert (forall pred c, foldM (fun '(pred, number_filled) kv =>
             m <- mat (fst kv) means ;;
             assert_then (length m =? length (snd kv))
               (pred' <- set_subset (map Some m) (snd kv) pred ;;
                Ok (pred', number_filled + length (snd kv)))) indexer (pred, c) =
       (o <- foldM (fun pred kv => match mfind (fst kv) means with
             | Some v => set_subset (map Some v) (snd kv) pred | None => Abort end) indexer pred ;;
        Ok (o, c + length (concat (mvals indexer))))) as G.
    { assert (forall k l, In (k, l) indexer -> exists v, mfind k means = Some v /\ length v = length l) as Hv'.
      { intros k l Hin. apply Hv, mfind_In; assumption. }
      clear -Hv'. induction indexer as [|[k l] m IH]; intros pred c; cbn [foldM fst snd].
      - cbn. rewrite Nat.add_0_r. reflexivity.
      - destruct (Hv' k l (or_introl eq_refl)) as [v [Ev Lv]]. unfold mat. rewrite Ev. cbn [of_option bind].
        rewrite (proj2 (Nat.eqb_eq _ _) Lv). cbn [assert_then].
        destruct (set_subset (map Some v) l pred) as [pred'| | |]; try reflexivity. cbn [bind].
        rewrite IH by (intros k' l' Hin; apply Hv'; right; exact Hin).
        unfold mvals. cbn [map concat snd]. rewrite app_length, Nat.add_assoc. reflexivity. }
    rewrite G, Eo. cbn [bind snd fst Nat.add].
    rewrite (Permutation_length P), seq_length. rewrite Nat.eqb_refl. reflexivity.
  - intros k l p i v Hl Hp Hm. apply mfind_In in Hl; [|exact Wi].
    destruct (Ho k l p i Hl Hp) as [v' [x [Hv' [Hx Hi]]]].
    rewrite nth_error_map' in Hi. destruct (nth_error out' i) as [y|] eqn:Ey; [|discriminate].
    cbn in Hi. congruence.
Qed.

Lemma concatenate_marginal_predictions_spec {D K} `{OrdKey K}
  (indexer : smap K (list nat)) (preds : smap K (marginal D)) n :
  wf_map indexer -> wf_map preds -> mkeys preds = mkeys indexer ->
  0 < n -> Permutation (concat (mvals indexer)) (seq 0 n) ->
  (forall k l, mfind k indexer = Some l -> exists v, mfind k preds = Some v /\ wf_marginal v /\ length (m_mean v) = length l) ->
  exists mu va, concatenate_marginal_predictions indexer preds = Ok (Marg (map Some mu) (map Some va)) /\
    length mu = n /\ length va = n /\
    (forall k l p i v, mfind k indexer = Some l -> nth_error l p = Some i -> mfind k preds = Some v ->
       nth_error mu i = nth_error (m_mean v) p /\ nth_error va i = nth_error (m_var v) p).
Proof.
  intros Wi Wm Ek Hn P Hv.
  set (means := map (fun kv => (fst kv, m_mean (snd kv))) preds).
  set (vars := map (fun kv => (fst kv, m_var (snd kv))) preds).
  assert (forall k, mfind k means = option_map m_mean (mfind k preds)) as Fm by (intros k; apply (mfind_map (fun _ => m_mean))).
  assert (forall k, mfind k vars = option_map m_var (mfind k preds)) as Fv by (intros k; apply (mfind_map (fun _ => m_var))).
  assert (mkeys means = mkeys indexer /\ mkeys vars = mkeys indexer) as [Km Kv].
  { rewrite <- Ek. unfold means, vars, mkeys. rewrite !map_map. split; reflexivity. }
  destruct (concatenate_mean_predictions_spec indexer means n Wi) as [mu [E1 [L1 H1]]]; auto.
  { apply (wf_map_map (fun _ => m_mean)). exact Wm. }
  { intros k l Hl. destruct (Hv k l Hl) as [v [E [W L]]]. exists (m_mean v). rewrite Fm, E. auto. }
  destruct (concatenate_mean_predictions_spec indexer vars n Wi) as [va [E2 [L2 H2]]]; auto.
  { apply (wf_map_map (fun _ => m_var)). exact Wm. }
  { intros k l Hl. destruct (Hv k l Hl) as [v [E [W L]]]. exists (m_var v). rewrite Fv, E.
    split; [reflexivity|]. unfold wf_marginal in W. congruence. }
  exists mu, va. split; [|split; [exact L1|split; [exact L2|]]].
  - unfold concatenate_mean_predictions in E1, E2. unfold concatenate_marginal_predictions.
    assert (length indexer = length preds) as EL by (rewrite <- !mkeys_length, Ek; reflexivity).
    assert (length indexer = length means) as EL1 by (rewrite <- !mkeys_length, Km; reflexivity).
    assert (length indexer = length vars) as EL2 by (rewrite <- !mkeys_length, Kv; reflexivity).
    rewrite (proj2 (Nat.eqb_eq _ _) EL), (proj2 (proj1 (dataset_size_from_indexer_spec indexer) n)) by auto.
    rewrite (proj2 (Nat.eqb_eq _ _) EL1), (proj2 (proj1 (dataset_size_from_indexer_spec indexer) n)) in E1 by auto.
    rewrite (proj2 (Nat.eqb_eq _ _) EL2), (proj2 (proj1 (dataset_size_from_indexer_spec indexer) n)) in E2 by auto.
    cbn [assert_then bind] in *.
    apply bind_ok in E1 as [[mu' c1] [E1 A1]]. apply bind_ok in E2 as [[va' c2] [E2 A2]].
    cbn [fst snd] in *.
    assert (forall a b c r1 r2,
      foldM (fun '(pred, number_filled) kv =>
             m <- mat (fst kv) means ;;
             assert_then (length m =? length (snd kv))
               (pred' <- set_subset (map Some m) (snd kv) pred ;;
                Ok (pred', number_filled + length (snd kv)))) indexer (a, c) = Ok r1 ->
      foldM (fun '(pred, number_filled) kv =>
             m <- mat (fst kv) vars ;;
             assert_then (length m =? length (snd kv))
               (pred' <- set_subset (map Some m) (snd kv) pred ;;
                Ok (pred', number_filled + length (snd kv)))) indexer (b, c) = Ok r2 ->
      foldM (fun '(mean, variance, number_filled) kv =>
             p <- mat (fst kv) preds ;;
             sz <- marginal_size p ;;
             assert_then (sz =? length (snd kv))
               (mean' <- set_subset (map Some (m_mean p)) (snd kv) mean ;;
                variance' <- set_subset (map Some (m_var p)) (snd kv) variance ;;
                Ok (mean', variance', number_filled + length (snd kv)))) indexer (a, b, c) =
      Ok (fst r1, fst r2, snd r1)) as G.
    { assert (forall k l, In (k, l) indexer -> exists v, mfind k preds = Some v /\ wf_marginal v /\ length (m_mean v) = length l) as Hv'.
      { intros k l Hin. apply Hv, mfind_In; assumption. }
      clear -Hv' Fm Fv. induction indexer as [|[k l] m IH]; intros a b c r1 r2 R1 R2; cbn [foldM fst snd] in *.
      - injection R1 as <-. injection R2 as <-. reflexivity.
      - destruct (Hv' k l (or_introl eq_refl)) as [v [Ev [Wv Lv]]].
        unfold mat in R1, R2 |- *. rewrite Fm, Ev in R1. rewrite Fv, Ev in R2. rewrite Ev.
        cbn [option_map of_option bind] in *. rewrite (marginal_size_wf v Wv). cbn [bind].
        unfold wf_marginal in Wv. rewrite Lv in R1 |- *. rewrite <- Wv, Lv in R2.
        rewrite !Nat.eqb_refl in *. cbn [assert_then] in *.
        destruct (set_subset (map Some (m_mean v)) l a) as [a'| | |]; try discriminate. cbn [bind] in *.
        destruct (set_subset (map Some (m_var v)) l b) as [b'| | |]; try discriminate. cbn [bind] in *.
        apply IH; auto. intros k' l' Hin. apply Hv'. right. exact Hin. }
    rewrite (G _ _ _ _ _ E1 E2). cbn [bind fst snd].
    unfold assert_then in A1, A2 |- *.
    destruct (c1 =? n); [|discriminate]. destruct (c2 =? n); [|discriminate].
    injection A1 as ->. injection A2 as ->. apply marginal_make_wf. rewrite !map_length. congruence.
  - intros k l p i v Hl Hp Hm. split.
    + apply (H1 k l p i); auto. rewrite Fm, Hm. reflexivity.
    + apply (H2 k l p i); auto. rewrite Fv, Hm. reflexivity.
Qed.

(* ---------------- cross validation ---------------- *)

Section CV.
Context {X D K F : Type} `{OrdKey K}.
Variable fit : dataset X D -> F.
Variable predict_mean : F -> list X -> list D.
Variable predict_marginal : F -> list X -> marginal D.
Hypothesis mean_size : forall f xs, length (predict_mean f xs) = length xs.
Hypothesis marginal_ok : forall f xs,
  wf_marginal (predict_marginal f xs) /\ length (m_mean (predict_marginal f xs)) = length xs.

Lemma partition_valid n (m : smap K (list nat)) :
  indexer_partitions m n ->
  forall k inds, mfind k m = Some inds -> NoDup inds /\ Forall (fun i => i < n) inds.
Proof.
  intros [Hwf [H1 _]] k inds Hi. destruct (H1 k inds Hi) as [_ [Hs Hr]].
  split; [apply SSorted_lt_NoDup, Hs|exact Hr].
Qed.

Lemma cv_mean_spec (d : dataset X D) indexer :
  wf_dataset d -> 0 < ds_size d -> indexer_partitions indexer (ds_size d) ->
  exists out, cv_mean fit predict_mean d indexer = Ok (map Some out) /\ length out = ds_size d /\
    forall k l p i, mfind k indexer = Some l -> nth_error l p = Some i ->
      exists train test,
        dataset_subset d (indices_complement l (ds_size d)) = Ok train /\
        subset (ds_features d) l = Ok test /\
        nth_error out i = nth_error (predict_mean (fit train) test) p.
Proof.
  intros Hw Hn Hp. pose proof (partition_valid _ _ Hp) as Hv.
  pose proof (partition_concat_permutation _ _ Hp) as P. destruct Hp as [Wi _].
  unfold cv_mean, cv_means.
  destruct (apply_mapM_ok (fun (_ : K) test_indices => f <- create_fold test_indices d ;;
    Ok (predict_mean (fit (f_train f)) (ds_features (f_test f)))) indexer Wi) as [means [E [Wm [Ek [H1 H2]]]]].
  { intros k inds Hi. destruct (Hv k inds Hi) as [Hnd Hr].
    destruct (create_fold_ok inds d Hw Hnd Hr) as [f [Hf _]]. rewrite Hf. cbn. eauto. }
  rewrite E. cbn [bind].
  destruct (concatenate_mean_predictions_spec indexer means (ds_size d) Wi Wm Ek Hn P) as [out [Eo [Lo Ho]]].
  { intros k l Hl. destruct (H1 k l Hl) as [v [Hvk Hc]]. exists v. split; [exact Hvk|].
    destruct (Hv k l Hl) as [Hnd Hr]. destruct (create_fold_ok l d Hw Hnd Hr) as [f [Hf [_ [_ [Wt [Rt _]]]]]].
    rewrite Hf in Hc. cbn in Hc. injection Hc as <-. rewrite mean_size.
    apply subset_ok_iff in Rt as [Lt _]. rewrite rows_length in Lt by exact Wt. exact Lt. }
  exists out. split; [exact Eo|]. split; [exact Lo|].
  intros k l p i Hl Hpi. destruct (H1 k l Hl) as [v [Hvk Hc]].
  destruct (Hv k l Hl) as [Hnd Hr]. rewrite create_fold_split in Hc by exact Hw.
  apply bind_ok in Hc as [f [Hf Hc]]. apply bind_ok in Hf as [tr [Htr Hf]].
  apply bind_ok in Hf as [te [Hte Hf]]. unfold assert_then in Hf.
  destruct (ds_size te + ds_size tr =? ds_size d); [|discriminate]. injection Hf as <-.
  cbn in Hc. injection Hc as <-. exists tr, (ds_features te). split; [exact Htr|]. split.
  - unfold dataset_subset in Hte. apply bind_ok in Hte as [fs [Hfs Hte]].
    apply bind_ok in Hte as [ts [Hts Hte]]. unfold dataset_make in Hte.
    apply bind_ok in Hte as [nn [_ Hte]]. unfold assert_then in Hte.
    destruct (length fs =? nn); [|discriminate]. injection Hte as <-. exact Hfs.
  - exact (Ho k l p i _ Hl Hpi Hvk).
Qed.

Lemma cv_marginal_spec (d : dataset X D) indexer :
  wf_dataset d -> 0 < ds_size d -> indexer_partitions indexer (ds_size d) ->
  exists mu va, cv_marginal fit predict_marginal d indexer = Ok (Marg (map Some mu) (map Some va)) /\
    length mu = ds_size d /\ length va = ds_size d /\
    forall k l p i, mfind k indexer = Some l -> nth_error l p = Some i ->
      exists train test,
        dataset_subset d (indices_complement l (ds_size d)) = Ok train /\
        subset (ds_features d) l = Ok test /\
        nth_error mu i = nth_error (m_mean (predict_marginal (fit train) test)) p /\
        nth_error va i = nth_error (m_var (predict_marginal (fit train) test)) p.
Proof.
  intros Hw Hn Hp. pose proof (partition_valid _ _ Hp) as Hv.
  pose proof (partition_concat_permutation _ _ Hp) as P. destruct Hp as [Wi _].
  unfold cv_marginal, cv_marginals.
  destruct (apply_mapM_ok (fun (_ : K) test_indices => f <- create_fold test_indices d ;;
    Ok (predict_marginal (fit (f_train f)) (ds_features (f_test f)))) indexer Wi) as [means [E [Wm [Ek [H1 H2]]]]].
  { intros k inds Hi. destruct (Hv k inds Hi) as [Hnd Hr].
    destruct (create_fold_ok inds d Hw Hnd Hr) as [f [Hf _]]. rewrite Hf. cbn. eauto. }
  rewrite E. cbn [bind].
  destruct (concatenate_marginal_predictions_spec indexer means (ds_size d) Wi Wm Ek Hn P) as [mu [va [Eo [L1 [L2 Ho]]]]].
  { intros k l Hl. destruct (H1 k l Hl) as [v [Hvk Hc]]. exists v. split; [exact Hvk|].
    destruct (Hv k l Hl) as [Hnd Hr]. destruct (create_fold_ok l d Hw Hnd Hr) as [f [Hf [_ [_ [Wt [Rt _]]]]]].
    rewrite Hf in Hc. cbn in Hc. injection Hc as <-. split; [apply marginal_ok|]. rewrite (proj2 (marginal_ok _ _)).
    apply subset_ok_iff in Rt as [Lt _]. rewrite rows_length in Lt by exact Wt. exact Lt. }
  exists mu, va. split; [exact Eo|]. split; [exact L1|]. split; [exact L2|].
  intros k l p i Hl Hpi. destruct (H1 k l Hl) as [v [Hvk Hc]].
  destruct (Hv k l Hl) as [Hnd Hr]. rewrite create_fold_split in Hc by exact Hw.
  apply bind_ok in Hc as [f [Hf Hc]]. apply bind_ok in Hf as [tr [Htr Hf]].
  apply bind_ok in Hf as [te [Hte Hf]]. unfold assert_then in Hf.
  destruct (ds_size te + ds_size tr =? ds_size d); [|discriminate]. injection Hf as <-.
  cbn in Hc. injection Hc as <-. exists tr, (ds_features te). split; [exact Htr|]. split.
  - unfold dataset_subset in Hte. apply bind_ok in Hte as [fs [Hfs Hte]].
    apply bind_ok in Hte as [ts [Hts Hte]]. unfold dataset_make in Hte.
    apply bind_ok in Hte as [nn [_ Hte]]. unfold assert_then in Hte.
    destruct (length fs =? nn); [|discriminate]. injection Hte as <-. exact Hfs.
  - exact (Ho k l p i _ Hl Hpi Hvk).
Qed.

(* With a grouper and a model predicting each feature on its own the i-th
   cross validated mean is the prediction of the i-th feature by a model fit to
   the observations of the other groups. *)
Lemma cv_mean_pointwise (d : dataset X D) (g : X -> K) (pt : F -> X -> D) :
  (forall f xs, predict_mean f xs = map (pt f) xs) ->
  wf_dataset d -> 0 < ds_size d ->
  exists out, cv_mean_grouper fit predict_mean d g = Ok (map Some out) /\ length out = ds_size d /\
    forall i x, nth_error (ds_features d) i = Some x ->
      exists train, rows train = filter (fun r => negb (keqb (g (fst r)) (g x))) (rows d) /\
        wf_dataset train /\ ds_metadata train = [] /\
        nth_error out i = Some (pt (fit train) x).
Proof.
  intros Hpt Hw Hn. unfold cv_mean_grouper.
  destruct (cv_mean_spec d (build_indexer g (ds_features d)) Hw Hn) as [out [E [L H1]]].
  { apply build_indexer_partitions. }
  exists out. split; [exact E|]. split; [exact L|]. intros i x Hx.
  destruct (build_indexer_spec g (ds_features d)) as [Hwf [B1 [B2 B3]]].
  destruct (B1 i x Hx) as [l [Hl Hi]]. apply In_nth_error in Hi as [p Hp].
  destruct (H1 (g x) l p i Hl Hp) as [train [test [Htr [Hte Ho]]]].
  exists train. destruct (dataset_subset_inv d _ train Hw Htr) as [_ [Wt [Mt Rt]]].
  split; [|split; [exact Wt|split; [exact Mt|]]].
  - apply group_inds_to_keep in Hl as ->.
    assert (inds_to_keep (ds_features d) (fun y => keqb (g y) (g x)) 0 =
            inds_to_keep (rows d) (fun r => keqb (g (fst r)) (g x)) 0) as EI.
    { rewrite <- (rows_features d Hw). apply inds_to_keep_via_map. }
    rewrite EI, <- (rows_length d Hw), complement_inds_to_keep, subset_inds_to_keep in Rt. congruence.
  - rewrite Ho, Hpt, nth_error_map'.
    apply subset_ok_iff in Hte as [_ Hte]. destruct (Hte p i Hp) as [_ ->]. rewrite Hx. reflexivity.
Qed.

Lemma cv_scores_spec {S} (metric : list D -> marginal D -> S) (d : dataset X D) indexer :
  wf_dataset d -> indexer_partitions indexer (ds_size d) ->
  exists out, cv_scores fit predict_mean metric d indexer = Ok out /\
    Forall2 (fun l s => exists train test,
        dataset_subset d (indices_complement l (ds_size d)) = Ok train /\
        dataset_subset d l = Ok test /\
        s = metric (predict_mean (fit train) (ds_features test)) (ds_targets test))
      (mvals indexer) out.
Proof.
  intros Hw Hp. pose proof (partition_valid _ _ Hp) as Hv. destruct Hp as [Wi _].
  unfold cv_scores, folds_from_group_indexer, cv_means.
  destruct (apply_mapM_ok (fun (_ : K) test_indices => create_fold test_indices d) indexer Wi)
    as [folds [Ef [Wf [Kf [Hf1 Hf2]]]]].
  { intros k inds Hi. destruct (Hv k inds Hi) as [Hnd Hr].
    destruct (create_fold_ok inds d Hw Hnd Hr) as [f [Hf _]]. eauto. }
  rewrite Ef. cbn [bind].
  destruct (apply_mapM_ok (fun (_ : K) test_indices => f <- create_fold test_indices d ;;
    Ok (predict_mean (fit (f_train f)) (ds_features (f_test f)))) indexer Wi) as [means [E [Wm [Ek [H1 H2]]]]].
  { intros k inds Hi. destruct (Hv k inds Hi) as [Hnd Hr].
    destruct (create_fold_ok inds d Hw Hnd Hr) as [f [Hf _]]. rewrite Hf. cbn. eauto. }
  rewrite E. cbn [bind].
  destruct (apply_mapM_ok (fun (key : K) f =>
    p <- mat key means ;;
    assert_then (ds_size (f_test f) =? length p)
      (Ok (metric p (ds_targets (f_test f))))) folds Wf) as [sc [Es [Ws [Ks [S1 S2]]]]].
  { intros k f Hf. destruct (Hf2 k f Hf) as [inds [Hi Hc]]. destruct (H1 k inds Hi) as [p [Hpk Hpc]].
    rewrite Hc in Hpc. cbn in Hpc. injection Hpc as <-. unfold mat. rewrite Hpk. cbn.
    rewrite mean_size. unfold ds_size. rewrite Nat.eqb_refl. cbn. eauto. }
  rewrite Es. cbn [bind]. eexists. split; [reflexivity|].
  unfold combine_values.
  assert (Forall2 (fun kl ks => fst kl = fst ks) indexer sc) as HK.
  { rewrite Kf in Ks. clear -Ks. unfold mkeys in Ks. revert sc Ks.
    induction indexer as [|a m IH]; intros [|b sc] E; cbn in *; try discriminate; constructor.
    - congruence.
    - apply IH. congruence. }
  assert (forall kl ks, In kl indexer -> In ks sc -> fst kl = fst ks ->
     exists train test,
        dataset_subset d (indices_complement (snd kl) (ds_size d)) = Ok train /\
        dataset_subset d (snd kl) = Ok test /\
        snd ks = metric (predict_mean (fit train) (ds_features test)) (ds_targets test)) as G.
  { intros [k l] [k' s] Hkl Hks EE. cbn in *. subst k'.
    apply mfind_In in Hkl; [|exact Wi]. apply mfind_In in Hks; [|exact Ws].
    destruct (S2 k s Hks) as [f [Hf Hs]]. destruct (Hf2 k f Hf) as [inds [Hi Hc]].
    rewrite Hkl in Hi. injection Hi as <-.
    destruct (H1 k l Hkl) as [p [Hpk Hpc]]. rewrite Hc in Hpc. cbn in Hpc. injection Hpc as <-.
    unfold mat in Hs. rewrite Hpk in Hs. cbn in Hs. unfold assert_then in Hs.
    destruct (ds_size (f_test f) =? _); [|discriminate]. injection Hs as <-.
    rewrite create_fold_split in Hc by exact Hw.
    apply bind_ok in Hc as [tr [Htr Hc]]. apply bind_ok in Hc as [te [Hte Hc]].
    unfold assert_then in Hc. destruct (ds_size te + ds_size tr =? ds_size d); [|discriminate].
    injection Hc as <-. exists tr, te. auto. }
  unfold mvals. clear -HK G. induction HK as [|a b m sc E HK IH]; cbn; constructor.
  - apply G; auto; left; reflexivity.
  - apply IH. intros kl ks Hkl Hks. apply G; right; assumption.
Qed.
End CV.

From Verif Require Import Base BaseProofs StdMapModel StdMapProofs IndexingModel IndexingSpec IndexingProofs DatasetModel
  DatasetSpec DatasetProofs DoubleModel RandomModel RansacModel RansacSpec RansacProofs RansacGenericModel RansacGenericSpec.
From Coq Require Import Permutation.

Lemma subset_flat {A} (v : list A) inds o : subset v inds = Ok o ->
  o = flat_map (fun i => match nth_error v i with Some r => [r] | None => [] end) inds.
Proof.
  revert o. induction inds as [|i inds IH]; intros o E.
  - apply subset_ok_iff in E as [L _]. destruct o; [reflexivity|discriminate].
  - apply subset_ok_iff in E as [L P]. destruct o as [|a o]; [discriminate|].
    destruct (P 0 i eq_refl) as [K E]. cbn [flat_map]. cbn in E. rewrite <- E. cbn. f_equal. apply IH.
    apply subset_ok_iff. split; [cbn in L; lia|]. intros j k Hk. apply (P (S j) k Hk).
Qed.

Section Data.
Context {K : Type} {OK : OrdKey K} {X D : Type}.
Variable indexer : smap K (list nat).
Variable d : dataset X D.
Hypothesis wf : wf_dataset d.
Hypothesis ix : indexes indexer d.

Lemma groups_subset ks : incl ks (mkeys indexer) ->
  exists inds sub, indices_from_groups indexer ks = Ok inds /\ dataset_subset d inds = Ok sub /\ made_of indexer d ks sub.
Proof.
  intros Hi.
  assert (exists ls, Forall2 (fun k l => mfind k indexer = Some l) ks ls) as [ls Hls].
  { induction ks as [|k ks IH]; [exists []; constructor|].
    destruct IH as [ls Hls]. { intros x Hx. apply Hi. right. exact Hx. }
    destruct (proj1 (mfind_Some_key k indexer (proj1 ix))) as [l Hl]. { apply Hi. left. reflexivity. }
    exists (l :: ls). constructor; assumption. }
  assert (Forall (fun i => i < ds_size d) (concat ls)) as Hr.
  { apply Forall_forall. intros i Hin. apply in_concat in Hin as [l [Hl Hil]].
    apply In_nth_error in Hl as [p Hp].
    destruct (nth_error ks p) as [k|] eqn:Ek.
    - destruct (Forall2_nth_error _ _ _ Hls _ _ Ek) as [l' [El Hf]]. assert (l' = l) by congruence. subst l'.
      pose proof (proj2 ix k l Hf) as Hall. rewrite Forall_forall in Hall. apply Hall. exact Hil.
    - apply nth_error_None in Ek. apply Forall2_len in Hls.
      assert (nth_error ls p <> None) as Hn by congruence. apply nth_error_Some in Hn. lia. }
  destruct (proj1 (dataset_subset_rows d (concat ls) wf) Hr) as [sub [Es [Hw [Hm Hrows]]]].
  exists (concat ls), sub. split; [|split; [exact Es|]].
  - apply indices_from_groups_spec. eauto.
  - split; [exact Hw|]. split; [exact Hm|].
    rewrite (subset_flat _ _ _ Hrows). clear -Hls.
    induction Hls as [|k l ks ls Hl Hls IH]; [reflexivity|].
    cbn [concat flat_map]. rewrite flat_map_app, IH. unfold group_rows at 2. rewrite Hl. reflexivity.
Qed.

Lemma made_of_unique ks a b : made_of indexer d ks a -> made_of indexer d ks b -> a = b.
Proof.
  intros [W1 [M1 R1]] [W2 [M2 R2]]. destruct (dataset_ext a b W1 W2) as [E1 E2]; [congruence|].
  destruct a, b. cbn in *. congruence.
Qed.

Lemma one_subset k : In k (mkeys indexer) ->
  exists inds one, mat k indexer = Ok inds /\ subset (ds_features d) inds = Ok (ds_features one) /\
    marginal_subset (ds_targets d) inds = Ok (ds_targets one) /\ made_of indexer d [k] one.
Proof.
  intros Hk. destruct (groups_subset [k]) as [inds [one [E1 [E2 H]]]].
  { intros x [<-|[]]. exact Hk. }
  cbn in E1. apply bind_ok in E1 as [l [El E1]]. cbn in E1. injection E1 as E1. rewrite app_nil_r in E1. subst l.
  exists inds, one. split; [exact El|].
  unfold dataset_subset in E2. apply bind_ok in E2 as [fs [Ef E2]]. apply bind_ok in E2 as [ts [Et E2]].
  unfold dataset_make in E2. apply bind_ok in E2 as [n [En E2]]. unfold assert_then in E2.
  destruct (length fs =? n); [|discriminate]. injection E2 as <-. cbn. auto.
Qed.
End Data.

Lemma group_rows_function {K X D} {OK : OrdKey K} (f : X -> K) (d : dataset X D) k : wf_dataset d ->
  group_rows (build_indexer f (ds_features d)) d k = filter (fun r => keqb (f (fst r)) k) (rows d).
Proof.
  intros wf. unfold group_rows.
  destruct (build_indexer_spec f (ds_features d)) as [Hwf [H1 [H2 H3]]].
  assert (forall i, (exists r, nth_error (rows d) i = Some r /\ f (fst r) = k) <->
                    exists x, nth_error (ds_features d) i = Some x /\ f x = k) as Hrow.
  { intros i. rewrite <- (rows_features d wf), nth_error_map'. split.
    - intros [r [E F]]. rewrite E. cbn. eauto.
    - intros [x [E F]]. destruct (nth_error (rows d) i) as [r|]; [|discriminate]. cbn in E. injection E as <-. eauto. }
  destruct (mfind k (build_indexer f (ds_features d))) as [l|] eqn:E.
  - assert (l = inds_to_keep (rows d) (fun r => keqb (f (fst r)) k) 0) as ->.
    { destruct (inds_to_keep_spec (rows d) (fun r => keqb (f (fst r)) k) 0) as [Hs Hk].
      apply SSorted_lt_ext; [apply (H3 k), E|exact Hs|].
      intros i. rewrite Hk, Nat.sub_0_r. split.
      - intros Hi. destruct (proj2 (Hrow i) (H2 k l i E Hi)) as [r [Hr Ef]]. exists r.
        split; [lia|]. split; [exact Hr|]. rewrite Ef. apply keqb_refl.
      - intros [r [_ [Hr Er]]]. apply keqb_eq in Er.
        destruct (proj1 (Hrow i)) as [x [Hx Ex]]; [eauto|].
        destruct (H1 i x Hx) as [l' [Hl' Hi]]. rewrite Ex in Hl'. congruence. }
    symmetry. apply subset_flat. apply subset_inds_to_keep.
  - destruct (filter (fun r => keqb (f (fst r)) k) (rows d)) as [|r l] eqn:Ef; [reflexivity|].
    exfalso. assert (In r (filter (fun r => keqb (f (fst r)) k) (rows d))) as Hr by (rewrite Ef; left; reflexivity).
    apply filter_In in Hr as [Hr Er]. apply keqb_eq in Er.
    apply In_nth_error in Hr as [i Hi]. destruct (proj1 (Hrow i)) as [x [Hx Ex]]; [eauto|].
    destruct (H1 i x Hx) as [l' [Hl' _]]. congruence.
Qed.

Lemma find_loo i a n : mfind i (map (fun i => (i, [i])) (seq a n)) = if (a <=? i) && (i <? a + n) then Some [i] else None.
Proof.
  revert a. induction n as [|n IH]; intros a; cbn [seq map mfind].
  - destruct (Nat.leb_spec a i), (Nat.ltb_spec i (a + 0)); try reflexivity; lia.
  - change (kcmp i a) with (Nat.compare i a). destruct (Nat.compare_spec i a) as [->|Hlt|Hgt].
    + destruct (Nat.leb_spec a a), (Nat.ltb_spec a (a + S n)); try reflexivity; lia.
    + destruct (Nat.leb_spec a i), (Nat.ltb_spec i (a + S n)); try reflexivity; lia.
    + rewrite IH. destruct (Nat.leb_spec (S a) i), (Nat.ltb_spec i (S a + n)), (Nat.leb_spec a i), (Nat.ltb_spec i (a + S n)); try reflexivity; lia.
Qed.

Lemma group_rows_loo {X D} (d : dataset X D) i : wf_dataset d ->
  group_rows (build_loo_indexer (ds_features d)) d i = match nth_error (rows d) i with Some r => [r] | None => [] end.
Proof.
  intros wf. unfold group_rows. rewrite build_loo_indexer_spec, find_loo. change (0 <=? i) with true. cbn [andb].
  destruct (Nat.ltb_spec i (0 + length (ds_features d))) as [Hlt|Hge]; cbn.
  - rewrite app_nil_r. reflexivity.
  - destruct (nth_error (rows d) i) eqn:E; [|reflexivity].
    assert (nth_error (rows d) i <> None) as Hn by congruence. apply nth_error_Some in Hn.
    rewrite (rows_length d wf) in Hn. unfold ds_size in Hn. cbn in Hge. lia.
Qed.

Lemma partition_indexes {K X D} {OK : OrdKey K} (m : smap K (list nat)) (d : dataset X D) :
  indexer_partitions m (length (ds_features d)) -> indexes m d.
Proof. intros [W [P _]]. split; [exact W|]. intros k l E. apply (P k l E). Qed.

Section Strategy.
Context {K : Type} {OK : OrdKey K} {X D M P : Type}.
Variable model_fit : dataset X D -> M.
Variable model_predict : M -> list X -> P.
Variable inlier_metric : P -> marginal D -> dbl.
Variable consensus_metric : dataset X D -> dbl.
Variable indexer : smap K (list nat).
Variable d : dataset X D.
Hypothesis wf : wf_dataset d.
Hypothesis ix : indexes indexer d.
Let fns := get_generic_ransac_functions model_fit model_predict inlier_metric consensus_metric d indexer.

Lemma functions_ok ks : incl ks (mkeys indexer) ->
  exists sub, made_of indexer d ks sub /\ f_fitter fns ks = Ok (model_fit sub) /\
    f_consensus fns ks = Ok (consensus_metric sub) /\ f_valid fns ks = Ok true.
Proof.
  intros Hi. destruct (groups_subset indexer d wf ix ks Hi) as [inds [sub [E1 [E2 H]]]]. exists sub.
  split; [exact H|]. cbn. unfold generic_fitter, generic_consensus_metric. rewrite E1. cbn. rewrite E2. auto.
Qed.
Lemma inlier_ok k fit : In k (mkeys indexer) ->
  exists one, made_of indexer d [k] one /\
    f_inlier fns k fit = Ok (inlier_metric (model_predict fit (ds_features one)) (ds_targets one)).
Proof.
  intros Hk. destruct (one_subset indexer d wf ix k Hk) as [inds [one [E1 [E2 [E3 H]]]]]. exists one.
  split; [exact H|]. cbn. unfold generic_inlier_metric. rewrite E1. cbn. rewrite E2. cbn. rewrite E3. reflexivity.
Qed.
Lemma functions_unknown ks : (exists k, In k ks /\ ~ In k (mkeys indexer)) ->
  f_fitter fns ks = Throw /\ f_consensus fns ks = Throw.
Proof.
  intros [k [Hk Hn]]. cbn. unfold generic_fitter, generic_consensus_metric.
  rewrite (proj2 (indices_from_groups_spec indexer ks)); [auto|].
  exists k. split; [exact Hk|]. apply mfind_None; [apply ix|exact Hn].
Qed.
Lemma inlier_unknown k fit : ~ In k (mkeys indexer) -> f_inlier fns k fit = Throw.
Proof.
  intros Hn. cbn. unfold generic_inlier_metric, mat. rewrite (proj2 (mfind_None k indexer (proj1 ix)) Hn). reflexivity.
Qed.
Lemma callbacks_exist : M -> exists fitter im cm iv, implements (mkeys indexer) fns fitter im cm iv.
Proof.
  intros m0. exists (fun ks => match f_fitter fns ks with Ok m => m | _ => m0 end),
    (fun k f => match f_inlier fns k f with Ok m => m | _ => NaN end),
    (fun ks => match f_consensus fns ks with Ok m => m | _ => NaN end),
    (fun ks => match f_valid fns ks with Ok m => m | _ => false end).
  repeat split.
  - intros ks Hk. destruct (functions_ok ks Hk) as [sub [_ [-> _]]]. reflexivity.
  - intros k f Hk. destruct (inlier_ok k f Hk) as [one [_ ->]]. reflexivity.
  - intros ks Hk. destruct (functions_ok ks Hk) as [sub [_ [_ [-> _]]]]. reflexivity.
Qed.
End Strategy.

Lemma loop_no_rejections {K F G} {OK : OrdKey K} fitter (im : K -> F -> dbl) cm (uniform : Z -> Z -> G -> Z * G)
    dfuel groups thr n minc maxi f1 f2 fc fuel1 fuel2 i best its g :
  maxi <= i + fuel1 -> maxi <= i + fuel2 ->
  ransac_loop fitter im cm (fun _ => true) uniform fuel1 dfuel groups thr n minc maxi f1 i fc best its g =
  ransac_loop fitter im cm (fun _ => true) uniform fuel2 dfuel groups thr n minc maxi f2 i fc best its g.
Proof.
  revert fuel2 i best its g. induction fuel1 as [|fuel1 IH]; intros fuel2 i best its g H1 H2.
  - destruct fuel2; cbn [ransac_loop]; (destruct (Nat.ltb_spec i maxi); [lia|reflexivity]).
  - destruct fuel2 as [|fuel2]; cbn [ransac_loop]; (destruct (Nat.ltb_spec i maxi); [|reflexivity]); [lia|].
    destruct (random_without_replacement uniform dfuel groups n g) as [[[cs g']| | |]|]; try reflexivity.
    cbn [negb]. destruct (classify im groups cs (fitter cs) thr) as [inl outl]. apply IH; lia.
Qed.
Lemma ransac_no_rejections {K F G} {OK : OrdKey K} fitter (im : K -> F -> dbl) cm (uniform : Z -> Z -> G -> Z * G)
    dfuel groups thr n minc maxi f1 f2 g :
  ransac fitter im cm (fun _ => true) uniform dfuel groups thr n minc maxi f1 g =
  ransac fitter im cm (fun _ => true) uniform dfuel groups thr n minc maxi f2 g.
Proof.
  unfold ransac. destruct (_ || (maxi =? 0)); [reflexivity|]. apply loop_no_rejections; lia.
Qed.

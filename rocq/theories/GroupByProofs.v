From Coq Require Import Reals Lra.
From Verif Require Import Base BaseProofs StdMapModel StdMapProofs IndexingModel IndexingSpec IndexingProofs DatasetModel
  DatasetSpec DatasetProofs RansacGenericSpec RansacGenericProofs GroupByModel.
From Coq Require Import Permutation.

Section Loop.
Context {K : Type} {OK : OrdKey K} {V : Type}.
Variable value : K -> list nat -> outcome V.
Let entry (kv : K * list nat) : outcome (K * V) := v <- value (fst kv) (snd kv) ;; Ok (fst kv, v).

Lemma group_loop_mapM ix : wf_map ix -> group_loop ix value = mapM entry ix.
Proof.
  intros Hwf. unfold group_loop.
  assert (forall acc : smap K V, (forall k k', In k (mkeys acc) -> In k' (mkeys ix) -> klt k k') ->
    foldM (fun output kv => v <- value (fst kv) (snd kv) ;; Ok (memplace (fst kv) v output)) ix acc =
    (m <- mapM entry ix ;; Ok (acc ++ m))) as G.
  { induction ix as [|[k l] ix IH]; intros acc Hacc; cbn [foldM mapM fst snd].
    - cbn. rewrite app_nil_r. reflexivity.
    - apply wf_cons in Hwf as [Hwf Hf]. unfold entry at 1. cbn [fst snd].
      destruct (value k l) as [v| | |]; cbn [bind]; try reflexivity.
      assert (memplace k v acc = acc ++ [(k, v)]) as ->.
      { unfold memplace. assert (mfind k acc = None) as ->.
        { clear -Hacc. induction acc as [|[k1 v1] acc IHa]; cbn; [reflexivity|].
          assert (klt k1 k) as Hlt by (apply Hacc; left; reflexivity).
          rewrite (proj2 (kcmp_gt _ _) Hlt). apply IHa. intros a b Ha Hb. apply Hacc; [right; exact Ha|exact Hb]. }
        apply massign_snoc. apply Forall_forall. intros a Ha. apply Hacc; [exact Ha|left; reflexivity]. }
      rewrite (IH Hwf).
      + destruct (mapM entry ix); cbn; try reflexivity. rewrite <- app_assoc. reflexivity.
      + intros a b Ha Hb. unfold mkeys in Ha. rewrite map_app, in_app_iff in Ha. destruct Ha as [Ha|[<-|[]]].
        * apply Hacc; [exact Ha|right; exact Hb].
        * rewrite Forall_forall in Hf. apply Hf, Hb. }
  rewrite (G []); [|intros k k' []]. destruct (mapM entry ix); reflexivity.
Qed.

Lemma group_loop_ok ix out : wf_map ix -> group_loop ix value = Ok out ->
  wf_map out /\ mkeys out = mkeys ix /\ (forall k l, mfind k ix = Some l -> exists v, mfind k out = Some v /\ value k l = Ok v).
Proof.
  intros Hwf E. rewrite (group_loop_mapM ix Hwf) in E. apply mapM_ok in E.
  assert (mkeys out = mkeys ix) as Hk.
  { clear -E. induction E as [|a b ix out Hab E IH]; [reflexivity|]. unfold mkeys in IH |- *. cbn. rewrite IH. f_equal.
    unfold entry in Hab. apply bind_ok in Hab as [v [_ Hv]]. injection Hv as <-. reflexivity. }
  assert (wf_map out) as Hw. { unfold wf_map in *. change (map fst out) with (mkeys out). rewrite Hk. exact Hwf. }
  split; [exact Hw|]. split; [exact Hk|]. intros k l Hl.
  apply (mfind_In k l ix Hwf) in Hl. apply In_nth_error in Hl as [p Hp].
  destruct (Forall2_nth_error _ _ _ E _ _ Hp) as [kv [Hkv He]]. unfold entry in He. apply bind_ok in He as [v [Hv He]].
  injection He as <-. exists v. split; [|exact Hv]. apply (mfind_In k v out Hw). apply nth_error_In with p. exact Hkv.
Qed.
Lemma group_loop_total ix : wf_map ix -> (forall k l, mfind k ix = Some l -> exists v, value k l = Ok v) ->
  exists out, group_loop ix value = Ok out.
Proof.
  intros Hwf Ht. rewrite (group_loop_mapM ix Hwf). apply mapM_total. intros [k l] Hin.
  destruct (Ht k l) as [v Hv]; [apply mfind_In; assumption|]. exists (k, v). unfold entry. cbn. rewrite Hv. reflexivity.
Qed.
Lemma group_loop_throw ix : wf_map ix ->
  (forall k l, mfind k ix = Some l -> value k l = Throw \/ exists v, value k l = Ok v) ->
  (exists k l, mfind k ix = Some l /\ value k l = Throw) -> group_loop ix value = Throw.
Proof.
  intros Hwf Ht [k [l [Hl Hv]]]. rewrite (group_loop_mapM ix Hwf). apply (mfind_In k l ix Hwf) in Hl.
  assert (forall k l, In (k, l) ix -> value k l = Throw \/ exists v, value k l = Ok v) as Hall.
  { intros a b Hab. apply Ht, mfind_In; assumption. }
  clear Ht Hwf. induction ix as [|[a b] ix IH]; [destruct Hl|]. cbn [mapM]. unfold entry at 1. cbn [fst snd].
  destruct (Hall a b (or_introl eq_refl)) as [->|[v Hab]]; [reflexivity|].
  destruct Hl as [E|Hl]; [injection E as -> ->; rewrite Hv; reflexivity|].
  rewrite Hab. cbn [bind]. rewrite IH; [reflexivity|exact Hl|]. intros c d Hcd. apply Hall. right. exact Hcd.
Qed.
End Loop.

(* the rows of a data set that are listed *)
Definition at_positions {A} (xs : list A) (l : list nat) : list A :=
  flat_map (fun i => match nth_error xs i with Some r => [r] | None => [] end) l.
Lemma at_positions_group {A K} {OK : OrdKey K} (f : A -> K) (xs : list A) k l :
  mfind k (build_indexer f xs) = Some l -> at_positions xs l = filter (fun x => keqb (f x) k) xs.
Proof.
  intros E. pose proof (get_group_spec f xs k) as [H _].
  assert (exists x, In x xs /\ f x = k) as Hx.
  { apply build_indexer_keys. apply mfind_Some_key; [apply build_indexer_spec|]. eauto. }
  specialize (H Hx). unfold get_group, mat in H. rewrite E in H. cbn in H. symmetry. apply subset_flat. exact H.
Qed.
Lemma at_positions_combine {A B} (xs : list A) (ys : list B) l :
  length xs = length ys -> Forall (fun i => i < length xs) l ->
  combine (at_positions xs l) (at_positions ys l) = at_positions (combine xs ys) l.
Proof.
  intros Hl Hf. induction Hf as [|i l Hi Hf IH]; [reflexivity|]. cbn.
  destruct (nth_error xs i) as [a|] eqn:Ea; [|apply nth_error_None in Ea; lia].
  destruct (nth_error ys i) as [b|] eqn:Eb; [|apply nth_error_None in Eb; lia].
  rewrite (proj2 (nth_error_combine xs ys i a b)) by auto. cbn. f_equal. exact IH.
Qed.

Lemma fold_plus_nat {K} (m : smap K nat) a : fold_left (fun output kv => output + snd kv) m a = a + fold_right plus 0 (mvals m).
Proof. revert a. induction m as [|kv m IH]; intros a; cbn; [lia|]. rewrite IH. unfold mvals. lia. Qed.
Lemma fold_plus_R {K} (g : R -> R) (m : smap K R) a :
  fold_left (fun output kv => output + g (snd kv))%R m a = (a + fold_right Rplus 0 (map g (mvals m)))%R.
Proof. revert a. induction m as [|kv m IH]; intros a; cbn; [lra|]. rewrite IH. unfold mvals. lra. Qed.
Lemma sum_scaled (c : R) l : fold_right Rplus 0%R (map (fun x => x / c)%R l) = (fold_right Rplus 0 l / c)%R.
Proof. induction l as [|x l IH]; cbn; [unfold Rdiv; lra|]. rewrite IH. unfold Rdiv. lra. Qed.
Lemma sum_bounds lo hi l : Forall (fun x => lo <= x <= hi)%R l ->
  (lo * INR (length l) <= fold_right Rplus 0 l <= hi * INR (length l))%R.
Proof.
  induction 1 as [|x l Hx H IH]; [cbn; lra|]. cbn [length fold_right]. rewrite S_INR. lra.
Qed.

Section Specs.
Context {K : Type} {OK : OrdKey K}.

Lemma range {A} (f : A -> K) xs k l : mfind k (build_indexer f xs) = Some l -> Forall (fun i => i < length xs) l.
Proof. intros E. destruct (build_indexer_partitions f xs) as [_ [H _]]. apply (H k l E). Qed.
Lemma indexer_wf {A} (f : A -> K) xs : wf_map (build_indexer f xs).
Proof. apply build_indexer_spec. Qed.

Lemma dataset_groups_spec {X D} (f : X -> K) (d : dataset X D) : wf_dataset d ->
  exists g, dataset_groups d (build_indexer f (ds_features d)) = Ok g /\ wf_map g /\
    (forall k sub, mfind k g = Some sub -> wf_dataset sub /\ rows sub = filter (fun r => keqb (f (fst r)) k) (rows d)) /\
    (forall k, In k (mkeys g) <-> exists x, In x (ds_features d) /\ f x = k) /\
    exists all, combine_datasets g = Ok all /\ wf_dataset all /\ Permutation (rows all) (rows d).
Proof.
  intros wf. set (ix := build_indexer f (ds_features d)). pose proof (indexer_wf f (ds_features d)) as Hw. fold ix in Hw.
  destruct (group_loop_total (fun _ inds => dataset_subset d inds) ix Hw) as [g Hg].
  { intros k l Hl. destruct (proj1 (dataset_subset_rows d l wf)) as [sub [Es _]]; [apply (range f _ k l Hl)|eauto]. }
  destruct (group_loop_ok _ ix g Hw Hg) as [Hwg [Hk Hv]].
  assert (forall k sub, mfind k g = Some sub -> exists l, mfind k ix = Some l /\ dataset_subset d l = Ok sub) as Hinv.
  { intros k sub Es. assert (In k (mkeys ix)) as Hin. { rewrite <- Hk. apply mfind_Some_key; eauto. }
    apply (mfind_Some_key k ix Hw) in Hin as [l Hl]. destruct (Hv k l Hl) as [v [E1 E2]]. exists l. split; congruence. }
  exists g. split; [exact Hg|]. split; [exact Hwg|]. split; [|split].
  - intros k sub Es. destruct (Hinv k sub Es) as [l [Hl El]].
    destruct (dataset_subset_inv d l sub wf El) as [_ [Hws [_ Hr]]]. split; [exact Hws|].
    rewrite <- (group_rows_function f d k wf). unfold group_rows. fold ix. rewrite Hl. apply subset_flat. exact Hr.
  - intros k. rewrite Hk. apply build_indexer_keys.
  - destruct (concatenate_dataset_list_rows (mvals g)) as [all [Ea [Hwa [Hr _]]]].
    { apply Forall_forall. intros sub Hin. unfold mvals in Hin. apply in_map_iff in Hin as [[k s] [<- Hin]].
      apply (mfind_In k s g Hwg) in Hin. destruct (Hinv k s Hin) as [l [_ El]].
      apply (dataset_subset_inv d l s wf El). }
    exists all. split; [exact Ea|]. split; [exact Hwa|]. rewrite Hr.
    pose proof (partition_concat_permutation _ _ (build_indexer_partitions f (ds_features d))) as Hp. fold ix in Hp.
    assert (concat (map rows (mvals g)) = at_positions (rows d) (concat (mvals ix))) as ->.
    { unfold dataset_groups in Hg. rewrite (group_loop_mapM _ ix Hw) in Hg. apply mapM_ok in Hg. clear -Hg wf.
      unfold at_positions, mvals. induction Hg as [|a b ix g Hab Hg IH]; [reflexivity|].
      apply bind_ok in Hab as [s [Hs Hb]]. injection Hb as <-.
      cbn [map concat snd]. rewrite flat_map_app, <- IH. f_equal.
      apply subset_flat. apply (dataset_subset_inv d _ s wf Hs). }
    assert (rows d = at_positions (rows d) (seq 0 (length (ds_features d)))) as E.
    { apply subset_flat. change (length (ds_features d)) with (ds_size d). rewrite <- (rows_length d wf). apply subset_seq_all. }
    rewrite E at 2. apply Permutation_flat_map. exact Hp.
Qed.

Lemma group_by_with_spec {A B} (f : A -> K) (xs : list A) (ys : list B) : length xs = length ys ->
  exists g, group_by_with xs (build_indexer f xs) ys = Ok g /\ wf_map g /\
    (forall k, In k (mkeys g) <-> exists x, In x xs /\ f x = k) /\
    forall k a b, mfind k g = Some (a, b) ->
      length a = length b /\ combine a b = filter (fun p => keqb (f (fst p)) k) (combine xs ys).
Proof.
  intros Hl. unfold group_by_with, assert_then. rewrite Hl, Nat.eqb_refl.
  set (ix := build_indexer f xs). pose proof (indexer_wf f xs) as Hw. fold ix in Hw.
  set (value := fun (_ : K) inds => a <- subset xs inds ;; b <- subset ys inds ;; Ok (a, b)).
  destruct (group_loop_total value ix Hw) as [g Hg].
  { intros k l E. pose proof (range f xs k l E) as Hr. destruct (subset_total xs l Hr) as [a Ha].
    rewrite Hl in Hr. destruct (subset_total ys l Hr) as [b Hb]. exists (a, b). unfold value. rewrite Ha. cbn. rewrite Hb. reflexivity. }
  destruct (group_loop_ok value ix g Hw Hg) as [Hwg [Hk Hv]].
  exists g. split; [exact Hg|]. split; [exact Hwg|]. split; [intros k; rewrite Hk; apply build_indexer_keys|].
  intros k a b E. assert (In k (mkeys ix)) as Hin. { rewrite <- Hk. apply mfind_Some_key; eauto. }
  apply (mfind_Some_key k ix Hw) in Hin as [l El]. destruct (Hv k l El) as [v [E1 E2]].
  assert (v = (a, b)) by congruence. subst v. unfold value in E2. apply bind_ok in E2 as [a' [Ea E2]].
  apply bind_ok in E2 as [b' [Eb E2]]. injection E2 as -> ->. split.
  - apply subset_ok_iff in Ea as [La _]. apply subset_ok_iff in Eb as [Lb _]. congruence.
  - rewrite (subset_flat _ _ _ Ea), (subset_flat _ _ _ Eb).
    fold (at_positions xs l) (at_positions ys l).
    rewrite (at_positions_combine xs ys l Hl (range f xs k l El)).
    assert (build_indexer f xs = build_indexer (fun p => f (fst p)) (combine xs ys)) as Eix.
    { unfold build_indexer. clear -Hl. generalize (@nil (K * list nat)) 0. revert ys Hl.
      induction xs as [|x xs IH]; intros [|y ys] Hl m n; cbn in *; try discriminate; [reflexivity|].
      rewrite <- IH; [reflexivity|lia]. }
    apply (at_positions_group (fun p => f (fst p))). rewrite <- Eix. exact El.
Qed.

Lemma group_by_with_grouped_spec {A B} (f : A -> K) (xs : list A) (m : smap K B) : wf_map m ->
  (mkeys m = mkeys (build_indexer f xs) ->
   exists g, group_by_with_grouped xs (build_indexer f xs) m = Ok g /\ mkeys g = mkeys m /\
     forall k v, mfind k m = Some v -> mfind k g = Some (filter (fun x => keqb (f x) k) xs, v)) /\
  (length m <> length (build_indexer f xs) -> group_by_with_grouped xs (build_indexer f xs) m = Abort) /\
  (length m = length (build_indexer f xs) -> mkeys m <> mkeys (build_indexer f xs) ->
   group_by_with_grouped xs (build_indexer f xs) m = Throw).
Proof.
  intros Hm. set (ix := build_indexer f xs). pose proof (indexer_wf f xs) as Hw. fold ix in Hw.
  unfold group_by_with_grouped, assert_then.
  set (value := fun k inds => a <- subset xs inds ;; b <- mat k m ;; Ok (a, b)).
  assert (forall k l, mfind k ix = Some l -> value k l = match mfind k m with Some b => Ok (filter (fun x => keqb (f x) k) xs, b) | None => Throw end) as Hval.
  { intros k l E. destruct (subset_total xs l (range f xs k l E)) as [a Ha]. unfold value. rewrite Ha. cbn.
    rewrite (subset_flat _ _ _ Ha). fold (at_positions xs l). rewrite (at_positions_group f xs k l E). unfold mat. destruct (mfind k m); reflexivity. }
  split; [|split].
  - intros Hk. assert (length m = length ix) as ->.
    { rewrite <- (map_length fst m), <- (map_length fst ix). f_equal. exact Hk. }
    rewrite Nat.eqb_refl. destruct (group_loop_total value ix Hw) as [g Hg].
    { intros k l E. rewrite (Hval k l E). assert (In k (mkeys m)) as Hin. { rewrite Hk. apply mfind_Some_key; eauto. }
      apply (mfind_Some_key k m Hm) in Hin as [b ->]. eauto. }
    destruct (group_loop_ok value ix g Hw Hg) as [Hwg [Hkg Hv]]. exists g. split; [exact Hg|]. split; [congruence|].
    intros k v E. assert (In k (mkeys ix)) as Hin. { rewrite <- Hk. apply mfind_Some_key; eauto. }
    apply (mfind_Some_key k ix Hw) in Hin as [l El]. destruct (Hv k l El) as [w [E1 E2]].
    rewrite (Hval k l El), E in E2. congruence.
  - intros Hn. apply Nat.eqb_neq in Hn. rewrite Hn. reflexivity.
  - intros Hlen Hn. rewrite Hlen, Nat.eqb_refl. apply group_loop_throw; [exact Hw| |].
    + intros k l E. rewrite (Hval k l E). destruct (mfind k m); eauto.
    + destruct (Exists_dec (fun k => mfind k m = None) (mkeys ix)) as [He|He].
      { intros k. destruct (mfind k m); [right; discriminate|left; reflexivity]. }
      * apply Exists_exists in He as [k [Hin E]]. apply (mfind_Some_key k ix Hw) in Hin as [l El].
        exists k, l. split; [exact El|]. rewrite (Hval k l El), E. reflexivity.
      * exfalso. apply Hn. assert (incl (mkeys ix) (mkeys m)) as Hinc.
        { intros k Hk. apply (mfind_Some_key k m Hm). destruct (mfind k m) eqn:E; [eauto|].
          exfalso. apply He, Exists_exists. eauto. }
        apply sorted_ext; [exact Hm|exact Hw|]. intros k. split; [|apply Hinc]. intros Hk.
        apply (@NoDup_length_incl _ (mkeys ix) (mkeys m) (wf_NoDup ix Hw)); [|exact Hinc|exact Hk].
        unfold mkeys. rewrite !map_length, Hlen. apply le_n.
Qed.

Lemma first_group_spec {A} (f : A -> K) (xs : list A) : xs <> [] ->
  exists k, first_group xs (build_indexer f xs) = Ok (k, filter (fun x => keqb (f x) k) xs) /\
    (exists x, In x xs /\ f x = k) /\ forall x, In x xs -> f x = k \/ klt k (f x).
Proof.
  intros Hne. pose proof (indexer_wf f xs) as Hw. pose proof (fun k => build_indexer_keys f xs k) as Hkeys.
  pose proof (range f xs) as Hr. pose proof (at_positions_group f xs) as Hp.
  unfold first_group. destruct (build_indexer f xs) as [|[k l] ix] eqn:E.
  - exfalso. destruct xs as [|x xs]; [congruence|]. destruct (proj2 (Hkeys (f x))). exists x. split; [left|]; reflexivity.
  - assert (mfind k ((k, l) :: ix) = Some l) as Hl by (apply mfind_In; [exact Hw|left; reflexivity]).
    destruct (subset_total xs l (Hr k l Hl)) as [a Ha]. exists k. cbn [fst snd]. rewrite Ha. cbn [bind].
    rewrite <- (Hp k l Hl). unfold at_positions. rewrite <- (subset_flat _ _ _ Ha). split; [reflexivity|].
    split; [apply Hkeys; left; reflexivity|]. intros x Hx.
    assert (In (f x) (mkeys ((k, l) :: ix))) as Hin by (apply Hkeys; eauto).
    destruct Hin as [Hin|Hin]; [left; symmetry; exact Hin|right].
    apply wf_cons in Hw as [_ Hf]. rewrite Forall_forall in Hf. apply Hf, Hin.
Qed.

Lemma filter_groups_spec {A} (f : A -> K) (xs : list A) (p : K -> list A -> bool) :
  exists g, filter_groups xs (build_indexer f xs) p = Ok g /\ wf_map g /\
    forall k v, mfind k g = Some v <->
      (exists x, In x xs /\ f x = k) /\ v = filter (fun x => keqb (f x) k) xs /\ p k v = true.
Proof.
  destruct (group_by_groups_spec f xs) as [g [Hg [Hw [Hf _]]]].
  exists (filter_map g p). unfold filter_groups. rewrite Hg. split; [reflexivity|].
  destruct (filter_map_spec g p Hw) as [Hwf Hfm]. split; [exact Hwf|]. intros k v. rewrite Hfm, Hf. split.
  - intros [E Hp]. destruct (filter (fun x => keqb (f x) k) xs) as [|x l] eqn:El; [discriminate|].
    injection E as <-. split; [|auto]. assert (In x (filter (fun x => keqb (f x) k) xs)) as Hx by (rewrite El; left; reflexivity).
    apply filter_In in Hx as [Hx Ex]. apply keqb_eq in Ex. eauto.
  - intros [[x [Hx Ex]] [-> Hp]]. split; [|exact Hp].
    assert (In x (filter (fun x => keqb (f x) k) xs)) as Hin by (apply filter_In; split; [exact Hx|apply keqb_eq, Ex]).
    destruct (filter (fun x => keqb (f x) k) xs); [destruct Hin|reflexivity].
Qed.

Lemma counts_sum {A} (f : A -> K) (xs : list A) : grouped_sum_nat (counts (build_indexer f xs)) = length xs.
Proof.
  pose proof (indexer_wf f xs) as Hw. unfold grouped_sum_nat. rewrite (counts_spec _ Hw), fold_plus_nat. cbn [plus].
  pose proof (partition_concat_permutation _ _ (build_indexer_partitions f xs)) as Hp.
  apply Permutation_length in Hp. rewrite seq_length in Hp. rewrite <- Hp. clear.
  unfold mvals. induction (build_indexer f xs) as [|kv m IH]; [reflexivity|]. cbn. rewrite IH, app_length. reflexivity.
Qed.

Lemma grouped_mean_spec (m : smap K R) : m <> [] ->
  grouped_sum m = fold_right Rplus 0%R (mvals m) /\
  (grouped_mean m * INR (length m) = grouped_sum m)%R /\
  forall lo hi, Forall (fun v => lo <= v <= hi)%R (mvals m) -> (lo <= grouped_mean m <= hi)%R.
Proof.
  intros Hne. assert (grouped_sum m = fold_right Rplus 0%R (mvals m)) as Hs.
  { unfold grouped_sum. rewrite (fold_plus_R (fun x => x)), map_id. lra. }
  assert (0 < INR (length m))%R as Hpos. { apply lt_0_INR. destruct m; [congruence|cbn; lia]. }
  assert (grouped_mean m = fold_right Rplus 0%R (mvals m) / INR (length m))%R as Hm.
  { unfold grouped_mean. rewrite (fold_plus_R (fun x => x / INR (length m))%R), sum_scaled. lra. }
  split; [exact Hs|]. split; [rewrite Hm, Hs; field; lra|].
  intros lo hi Hf. apply sum_bounds in Hf. unfold mvals in Hf. rewrite map_length in Hf. fold (mvals m) in Hf. rewrite Hm. split.
  - apply (Rmult_le_reg_r (INR (length m))); [exact Hpos|]. unfold Rdiv. rewrite Rmult_assoc, Rinv_l by lra. lra.
  - apply (Rmult_le_reg_r (INR (length m))); [exact Hpos|]. unfold Rdiv. rewrite Rmult_assoc, Rinv_l by lra. lra.
Qed.

Lemma grouped_all_any (m : smap K bool) : wf_map m ->
  (grouped_all m = true <-> forall k b, mfind k m = Some b -> b = true) /\
  (grouped_any m = true <-> exists k, mfind k m = Some true).
Proof.
  intros Hw. unfold grouped_all, grouped_any. rewrite forallb_forall, existsb_exists. split; split.
  - intros H k b E. apply H. apply (mfind_In k b m Hw) in E. unfold mvals. apply in_map_iff. exists (k, b). auto.
  - intros H b Hb. unfold mvals in Hb. apply in_map_iff in Hb as [[k c] [<- Hb]]. apply (H k). apply mfind_In; assumption.
  - intros [b [Hb ->]]. unfold mvals in Hb. apply in_map_iff in Hb as [[k c] [E Hb]]. cbn in E. subst c. exists k. apply mfind_In; assumption.
  - intros [k E]. exists true. split; [|reflexivity]. apply (mfind_In k true m Hw) in E. unfold mvals. apply in_map_iff. exists (k, true). auto.
Qed.
End Specs.

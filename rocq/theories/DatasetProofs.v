From Verif Require Import Base BaseProofs StdMapModel StdMapProofs StringKeyModel
  IndexingModel IndexingSpec IndexingProofs DatasetModel DatasetSpec.
From Coq Require Import Permutation.

Lemma nth_error_combine {A B} (l : list A) (l' : list B) i a b :
  nth_error (combine l l') i = Some (a, b) <-> nth_error l i = Some a /\ nth_error l' i = Some b.
Proof.
  revert l' i. induction l as [|x l IH]; intros [|y l'] [|i]; cbn; try (split; [discriminate|intros [? ?]; discriminate]).
  - split.
    + intros E. injection E as <- <-. auto.
    + intros [E1 E2]. congruence.
  - apply IH.
Qed.

Lemma combine_inj {A B} (l1 l2 : list A) (m1 m2 : list B) :
  length l1 = length m1 -> length l2 = length m2 ->
  combine l1 m1 = combine l2 m2 -> l1 = l2 /\ m1 = m2.
Proof.
  revert m1 l2 m2. induction l1 as [|a l1 IH]; intros [|b m1] [|c l2] [|d m2] H1 H2 E; cbn in *;
    try discriminate; auto.
  injection E as -> -> E. destruct (IH m1 l2 m2) as [-> ->]; auto.
Qed.

Lemma combine_fst {A B} (l : list A) (m : list B) :
  length l = length m -> map fst (combine l m) = l.
Proof. revert m. induction l as [|a l IH]; intros [|b m] E; cbn in *; try discriminate; f_equal; auto. Qed.
Lemma combine_snd {A B} (l : list A) (m : list B) :
  length l = length m -> map snd (combine l m) = m.
Proof. revert m. induction l as [|a l IH]; intros [|b m] E; cbn in *; try discriminate; f_equal; auto. Qed.

Lemma combine_app {A B} (l1 l2 : list A) (m1 m2 : list B) :
  length l1 = length m1 -> combine (l1 ++ l2) (m1 ++ m2) = combine l1 m1 ++ combine l2 m2.
Proof.
  revert m1. induction l1 as [|a l1 IH]; intros [|b m1] E; cbn in *; try discriminate; auto.
  f_equal. apply IH. lia.
Qed.

Lemma rows_length {X D} (d : dataset X D) : wf_dataset d -> length (rows d) = ds_size d.
Proof.
  intros [H1 H2]. unfold rows, ds_size, wf_marginal in *. rewrite !combine_length. lia.
Qed.

Lemma rows_features {X D} (d : dataset X D) : wf_dataset d -> map fst (rows d) = ds_features d.
Proof.
  intros [H1 H2]. apply combine_fst. rewrite combine_length. unfold wf_marginal in H1. lia.
Qed.

(* a dataset is determined by its rows and metadata *)
Lemma dataset_ext {X D} (d1 d2 : dataset X D) :
  wf_dataset d1 -> wf_dataset d2 -> rows d1 = rows d2 ->
  ds_features d1 = ds_features d2 /\ ds_targets d1 = ds_targets d2.
Proof.
  intros [H1 H2] [H3 H4] E. unfold rows, wf_marginal in *.
  apply combine_inj in E as [E1 E2]; [|rewrite combine_length; lia|rewrite combine_length; lia].
  apply combine_inj in E2 as [E2 E3]; [|lia|lia].
  split; [exact E1|]. destruct (ds_targets d1), (ds_targets d2). cbn in *. congruence.
Qed.

Lemma marginal_size_wf {D} (m : marginal D) : wf_marginal m -> marginal_size m = Ok (length (m_mean m)).
Proof. unfold wf_marginal, marginal_size, assert_then. intros ->. rewrite Nat.eqb_refl. reflexivity. Qed.

Lemma marginal_make_wf {D} (a b : list D) : length a = length b -> marginal_make a b = Ok (Marg a b).
Proof. unfold marginal_make, assert_then. intros ->. rewrite Nat.eqb_refl. reflexivity. Qed.

Lemma dataset_make_wf {X D} (fs : list X) (t : marginal D) :
  wf_marginal t -> length fs = length (m_mean t) -> dataset_make fs t = Ok (DS fs t []).
Proof.
  intros H1 H2. unfold dataset_make. rewrite marginal_size_wf by exact H1. cbn.
  unfold assert_then. rewrite H2, Nat.eqb_refl. reflexivity.
Qed.

Lemma subset_combine {A B} (l : list A) (m : list B) inds o1 o2 :
  subset l inds = Ok o1 -> subset m inds = Ok o2 -> subset (combine l m) inds = Ok (combine o1 o2).
Proof.
  intros H1 H2. apply subset_ok_iff in H1 as [L1 H1]. apply subset_ok_iff in H2 as [L2 H2].
  apply subset_ok_iff. split; [rewrite combine_length; lia|].
  intros i k Hk. destruct (H1 i k Hk) as [K1 E1]. destruct (H2 i k Hk) as [K2 E2].
  split; [rewrite combine_length; lia|].
  destruct (nth_error l k) as [a|] eqn:Ea; [|apply nth_error_None in Ea; lia].
  destruct (nth_error m k) as [b|] eqn:Eb; [|apply nth_error_None in Eb; lia].
  transitivity (Some (a, b)); [|symmetry]; apply nth_error_combine; auto.
Qed.

Lemma marginal_subset_ok {D} (t : marginal D) inds :
  wf_marginal t -> Forall (fun i => i < length (m_mean t)) inds ->
  exists a b, subset (m_mean t) inds = Ok a /\ subset (m_var t) inds = Ok b /\
    length a = length inds /\ length b = length inds /\
    marginal_subset t inds = Ok (Marg a b).
Proof.
  intros Hw Hr. destruct (subset_total _ _ Hr) as [a Ha].
  unfold wf_marginal in Hw. rewrite Hw in Hr. destruct (subset_total _ _ Hr) as [b Hb].
  exists a, b. pose proof (proj1 (proj1 (subset_ok_iff _ _ _) Ha)).
  pose proof (proj1 (proj1 (subset_ok_iff _ _ _) Hb)).
  repeat split; auto. unfold marginal_subset. rewrite Ha, Hb. cbn. apply marginal_make_wf. lia.
Qed.

Lemma dataset_subset_rows {X D} (d : dataset X D) inds :
  wf_dataset d ->
  (Forall (fun i => i < ds_size d) inds ->
   exists out, dataset_subset d inds = Ok out /\ wf_dataset out /\ ds_metadata out = [] /\
     subset (rows d) inds = Ok (rows out)) /\
  ((exists i, In i inds /\ ds_size d <= i) -> dataset_subset d inds = Abort).
Proof.
  intros [Hw Hl]. split.
  - intros Hr. unfold ds_size in Hr. destruct (subset_total _ _ Hr) as [fs Hfs].
    destruct (marginal_subset_ok (ds_targets d) inds Hw) as [a [b [Ha [Hb [La [Lb Hm]]]]]].
    { rewrite <- Hl. exact Hr. }
    pose proof (proj1 (proj1 (subset_ok_iff _ _ _) Hfs)) as Lf.
    exists (DS fs (Marg a b) []). unfold dataset_subset. rewrite Hfs, Hm. cbn [bind].
    rewrite dataset_make_wf; [|unfold wf_marginal; cbn; lia|cbn; lia].
    split; [reflexivity|]. split; [unfold wf_dataset, wf_marginal; cbn; lia|].
    split; [reflexivity|]. unfold rows; cbn. apply subset_combine; [exact Hfs|].
    apply subset_combine; assumption.
  - intros Hb. unfold dataset_subset. rewrite subset_abort by exact Hb. reflexivity.
Qed.

Lemma dataset_subset_inv {X D} (d : dataset X D) inds out :
  wf_dataset d -> dataset_subset d inds = Ok out ->
  Forall (fun i => i < ds_size d) inds /\ wf_dataset out /\ ds_metadata out = [] /\
  subset (rows d) inds = Ok (rows out).
Proof.
  intros Hw H.
  assert (Forall (fun i => i < ds_size d) inds) as Hr.
  { unfold dataset_subset in H. apply bind_ok in H as [fs [Hfs _]].
    eapply subset_in_range; eauto. }
  destruct (dataset_subset_rows d inds Hw) as [Hex _].
  destruct (Hex Hr) as [out' [E [H1 [H2 H3]]]]. rewrite H in E. injection E as <-. auto.
Qed.

Lemma subset_map_comm {A B} (f : A -> B) l inds o :
  subset l inds = Ok o -> subset (map f l) inds = Ok (map f o).
Proof.
  intros H. apply subset_ok_iff in H as [L H]. apply subset_ok_iff.
  rewrite !map_length. split; [exact L|]. intros i k Hk. destruct (H i k Hk) as [K E].
  split; [exact K|]. rewrite !nth_error_map', E. reflexivity.
Qed.

(* ---------------- filter ---------------- *)

Lemma inds_to_keep_via_map {A B} (g : A -> B) (l : list A) p s :
  inds_to_keep (map g l) p s = inds_to_keep l (fun a => p (g a)) s.
Proof.
  revert s. induction l as [|a l IH]; intros s; cbn; [reflexivity|]. rewrite !IH. reflexivity.
Qed.

Lemma dataset_filter_rows {X D} (d : dataset X D) p :
  wf_dataset d ->
  exists out, dataset_filter d p = Ok out /\ wf_dataset out /\
    rows out = filter (fun r => p (fst r)) (rows d).
Proof.
  intros Hw. unfold dataset_filter.
  assert (Hi : inds_to_keep (ds_features d) p 0 = inds_to_keep (rows d) (fun r => p (fst r)) 0).
  { rewrite <- (rows_features d Hw). apply inds_to_keep_via_map. }
  destruct (dataset_subset_rows d (inds_to_keep (ds_features d) p 0) Hw) as [Hex _].
  destruct Hex as [out [E [H1 [H2 H3]]]].
  - apply Forall_forall. intros i Hin. apply inds_to_keep_spec in Hin as [x [_ [Hx _]]].
    rewrite Nat.sub_0_r in Hx. apply nth_error_Some. congruence.
  - exists out. split; [exact E|]. split; [exact H1|].
    rewrite Hi, subset_inds_to_keep in H3. congruence.
Qed.

(* ---------------- deduplicate ---------------- *)

Lemma In_skipn_iff {A} (l : list A) n x :
  In x (skipn n l) <-> exists j, n <= j /\ nth_error l j = Some x.
Proof.
  revert n. induction l as [|a l IH]; intros [|n]; cbn.
  - split; [intros []|intros [[|j] [_ E]]; discriminate].
  - split; [intros []|intros [[|j] [_ E]]; discriminate].
  - split.
    + intros [<-|Hx]; [exists 0; auto with arith|].
      apply In_nth_error in Hx as [j Hj]. exists (S j). split; [lia|exact Hj].
    + intros [[|j] [_ E]]; cbn in E; [left; congruence|right; eapply nth_error_In; eauto].
  - rewrite IH. split.
    + intros [j [Hj E]]. exists (S j). split; [lia|exact E].
    + intros [[|j] [Hj E]]; [lia|]. exists j. split; [lia|exact E].
Qed.

Lemma appears_later_spec {X} (eqb : X -> X -> bool) (fs : list X) i x :
  (forall a b, eqb a b = true <-> a = b) ->
  nth_error fs i = Some x ->
  (appears_later eqb fs i = true <-> exists j, i < j /\ nth_error fs j = Some x).
Proof.
  intros Heq Hx. unfold appears_later. rewrite Hx, existsb_exists. split.
  - intros [y [Hy E]]. apply Heq in E as <-. apply In_skipn_iff in Hy as [j [Hj E]].
    exists j. split; [lia|exact E].
  - intros [j [Hj E]]. exists x. split; [|apply Heq; reflexivity].
    apply In_skipn_iff. exists j. split; [lia|exact E].
Qed.

Lemma last_occurrence {X} (eqb : X -> X -> bool) (fs : list X) x :
  (forall a b, eqb a b = true <-> a = b) ->
  In x fs -> exists i, nth_error fs i = Some x /\ forall j, i < j -> nth_error fs j <> Some x.
Proof.
  intros Heq. induction fs as [|a fs IH]; [intros []|]. intros Hin.
  destruct (existsb (eqb x) fs) eqn:E.
  - apply existsb_exists in E as [y [Hy Ey]]. apply Heq in Ey as <-.
    destruct (IH Hy) as [i [Hi Hl]]. exists (S i). split; [exact Hi|].
    intros [|j] Hj; [lia|]. cbn. apply Hl. lia.
  - assert (~ In x fs) as Hn.
    { intros Hx. assert (existsb (eqb x) fs = true); [|congruence].
      apply existsb_exists. exists x. split; [exact Hx|apply Heq; reflexivity]. }
    destruct Hin as [->|Hin]; [|contradiction].
    exists 0. split; [reflexivity|]. intros [|j] Hj; [lia|]. cbn. intros Ej.
    apply Hn. eapply nth_error_In; eauto.
Qed.

Lemma deduplicate_spec {X D} (eqb : X -> X -> bool) (d : dataset X D) :
  (forall a b, eqb a b = true <-> a = b) -> wf_dataset d ->
  exists out inds, deduplicate eqb d = Ok out /\ wf_dataset out /\
    StronglySorted lt inds /\
    (forall i, In i inds <->
       exists x, nth_error (ds_features d) i = Some x /\
                 forall j, i < j -> nth_error (ds_features d) j <> Some x) /\
    Forall2 (fun i r => nth_error (rows d) i = Some r) inds (rows out) /\
    NoDup (ds_features out) /\
    (forall x, In x (ds_features out) <-> In x (ds_features d)).
Proof.
  intros Heq Hw. unfold deduplicate.
  set (inds := filter _ _).
  assert (StronglySorted lt inds) as Hs by apply SSorted_lt_filter, SSorted_seq.
  assert (forall i, In i inds <->
       exists x, nth_error (ds_features d) i = Some x /\
                 forall j, i < j -> nth_error (ds_features d) j <> Some x) as Hin.
  { intros i. unfold inds. rewrite filter_In, in_seq, negb_true_iff. unfold ds_size. split.
    - intros [Hi Ha]. destruct (nth_error (ds_features d) i) as [x|] eqn:Ex.
      2:{ apply nth_error_None in Ex. lia. }
      exists x. split; [reflexivity|]. intros j Hj Ej.
      assert (appears_later eqb (ds_features d) i = true); [|congruence].
      apply (appears_later_spec eqb _ i x Heq Ex). eauto.
    - intros [x [Hx Hl]]. split.
      + assert (i < length (ds_features d)) by (apply nth_error_Some; congruence). lia.
      + apply not_true_iff_false. rewrite (appears_later_spec eqb _ i x Heq Hx).
        intros [j [Hj E]]. exact (Hl j Hj E). }
  destruct (dataset_subset_rows d inds Hw) as [Hex _].
  destruct Hex as [out [E [H1 [H2 H3]]]].
  { apply Forall_forall. intros i Hi. apply Hin in Hi as [x [Hx _]].
    apply nth_error_Some. congruence. }
  exists out, inds. split; [exact E|]. split; [exact H1|]. split; [exact Hs|].
  split; [exact Hin|].
  pose proof H3 as H4. apply subset_ok_iff in H4 as [L H4].
  assert (Forall2 (fun i r => nth_error (rows d) i = Some r) inds (rows out)) as HF.
  { apply Forall2_nth_error_iff. split; [congruence|]. intros p i r Hp Hr.
    destruct (H4 p i Hp) as [_ E2]. congruence. }
  split; [exact HF|].
  apply (subset_map_comm fst) in H3. rewrite !rows_features in H3 by assumption.
  apply subset_ok_iff in H3 as [L3 H3]. split.
  - apply NoDup_nth_error. intros p q Hp Epq.
    assert (exists i, nth_error inds p = Some i) as [i Hi].
    { destruct (nth_error inds p) eqn:Ep; [eauto|]. apply nth_error_None in Ep. lia. }
    destruct (H3 p i Hi) as [Ki Ei].
    assert (exists j, nth_error inds q = Some j) as [j Hj].
    { destruct (nth_error inds q) eqn:Eq; [eauto|]. apply nth_error_None in Eq.
      rewrite (proj2 (nth_error_None (ds_features out) q)) in Epq by lia.
      apply nth_error_None in Epq. lia. }
    destruct (H3 q j Hj) as [Kj Ej].
    assert (In i inds) as Ii by (eapply nth_error_In; eauto).
    assert (In j inds) as Ij by (eapply nth_error_In; eauto).
    apply Hin in Ii as [x [Hx Lx]]. apply Hin in Ij as [y [Hy Ly]].
    assert (x = y) as <- by congruence.
    assert (i = j) as <-.
    { destruct (Nat.lt_trichotomy i j) as [Hlt|[|Hlt]]; [|assumption|].
      - exfalso. exact (Lx j Hlt Hy).
      - exfalso. exact (Ly i Hlt Hx). }
    apply SSorted_lt_NoDup in Hs. rewrite NoDup_nth_error in Hs. apply Hs; [lia|congruence].
  - intros x. split.
    + intros Hx. apply In_nth_error in Hx as [p Hp].
      destruct (nth_error inds p) as [i|] eqn:Ei.
      * destruct (H3 p i Ei) as [_ E3]. apply nth_error_In with i. congruence.
      * apply nth_error_None in Ei. assert (p < length (ds_features out)) by (apply nth_error_Some; congruence). lia.
    + intros Hx. destruct (last_occurrence eqb _ x Heq Hx) as [i [Hi Hl]].
      assert (In i inds) as Hii by (apply Hin; eauto).
      apply In_nth_error in Hii as [p Hp]. destruct (H3 p i Hp) as [_ E3].
      apply nth_error_In with p. congruence.
Qed.

(* ---------------- align ---------------- *)

Lemma align_inner_spec {X} (eqb : X -> X -> bool) x i ys j a b :
  In (a, b) (align_inner eqb x i ys j) <->
  a = i /\ exists y, j <= b /\ nth_error ys (b - j) = Some y /\ eqb x y = true.
Proof.
  revert j. induction ys as [|y ys IH]; intros j; cbn.
  - split; [intros []|]. intros [_ [y [_ [E _]]]]. destruct (b - j); discriminate.
  - assert (In (a, b) (align_inner eqb x i ys (S j)) <->
       a = i /\ exists z, S j <= b /\ nth_error (y :: ys) (b - j) = Some z /\ eqb x z = true) as G.
    { rewrite IH. split; intros [-> [z [Hle [Hz Ez]]]]; (split; [reflexivity|]); exists z;
        (split; [exact Hle|split; [|exact Ez]]).
      - replace (b - j) with (S (b - S j)) by lia. exact Hz.
      - replace (b - j) with (S (b - S j)) in Hz by lia. exact Hz. }
    destruct (eqb x y) eqn:E; cbn [In]; rewrite G.
    + split.
      * intros [Eq|[-> [z [Hle [Hz Ez]]]]].
        -- injection Eq as <- <-. split; [reflexivity|]. exists y. rewrite Nat.sub_diag. auto.
        -- split; [reflexivity|]. exists z. split; [lia|auto].
      * intros [-> [z [Hle [Hz Ez]]]]. destruct (Nat.eq_dec b j) as [->|Hne]; [left; reflexivity|].
        right. split; [reflexivity|]. exists z. split; [lia|auto].
    + split.
      * intros [-> [z [Hle [Hz Ez]]]]. split; [reflexivity|]. exists z. split; [lia|auto].
      * intros [-> [z [Hle [Hz Ez]]]]. split; [reflexivity|]. exists z. split; [|auto].
        destruct (Nat.eq_dec b j) as [->|Hne]; [|lia].
        rewrite Nat.sub_diag in Hz. cbn in Hz. congruence.
Qed.

Lemma align_outer_spec {X} (eqb : X -> X -> bool) xs i ys a b :
  In (a, b) (align_outer eqb xs i ys) <->
  exists x y, i <= a /\ nth_error xs (a - i) = Some x /\ nth_error ys b = Some y /\ eqb x y = true.
Proof.
  revert i. induction xs as [|x xs IH]; intros i; cbn.
  - split; [intros []|]. intros [x [y [_ [E _]]]]. destruct (a - i); discriminate.
  - rewrite in_app_iff, align_inner_spec, IH. split.
    + intros [[-> [y [_ [Hy E]]]]|[x' [y [Hle [Hx [Hy E]]]]]].
      * exists x, y. rewrite Nat.sub_diag. rewrite Nat.sub_0_r in Hy. auto.
      * exists x', y. split; [lia|]. split; [|auto].
        replace (a - i) with (S (a - S i)) by lia. exact Hx.
    + intros [x' [y [Hle [Hx [Hy E]]]]].
      destruct (Nat.eq_dec a i) as [->|Hne].
      * left. split; [reflexivity|]. exists y. rewrite Nat.sub_diag in Hx. cbn in Hx.
        injection Hx as ->. rewrite Nat.sub_0_r. auto with arith.
      * right. exists x', y. split; [lia|]. split; [|auto].
        replace (a - i) with (S (a - S i)) in Hx by lia. exact Hx.
Qed.

(* lexicographic order of the emitted pairs *)
Definition lex_lt (p q : nat * nat) : Prop :=
  fst p < fst q \/ (fst p = fst q /\ snd p < snd q).

Lemma SSorted_app_intro {A} (R : A -> A -> Prop) l l' :
  StronglySorted R l -> StronglySorted R l' ->
  (forall x y, In x l -> In y l' -> R x y) -> StronglySorted R (l ++ l').
Proof.
  induction 1 as [|a l Hs IH Hf]; intros Hs' Hx; cbn; [exact Hs'|].
  constructor.
  - apply IH; [exact Hs'|]. intros x y Hx' Hy. apply Hx; [right; exact Hx'|exact Hy].
  - apply Forall_app. split; [exact Hf|]. apply Forall_forall. intros y Hy.
    apply Hx; [left; reflexivity|exact Hy].
Qed.

Lemma align_inner_sorted {X} (eqb : X -> X -> bool) x i ys j :
  StronglySorted lex_lt (align_inner eqb x i ys j).
Proof.
  revert j. induction ys as [|y ys IH]; intros j; cbn; [constructor|].
  destruct (eqb x y); [|apply IH]. constructor; [apply IH|].
  apply Forall_forall. intros [a b] Hab. apply align_inner_spec in Hab as [-> [z [Hle _]]].
  right. cbn. split; [reflexivity|lia].
Qed.

Lemma align_outer_sorted {X} (eqb : X -> X -> bool) xs i ys :
  StronglySorted lex_lt (align_outer eqb xs i ys).
Proof.
  revert i. induction xs as [|x xs IH]; intros i; cbn; [constructor|].
  apply SSorted_app_intro; [apply align_inner_sorted|apply IH|].
  intros [a b] [a' b'] H1 H2. apply align_inner_spec in H1 as [-> _].
  apply align_outer_spec in H2 as [x' [y' [Hle _]]]. left. cbn. lia.
Qed.

Lemma align_datasets_spec {X D} (eqb : X -> X -> bool) (x y : dataset X D) :
  wf_dataset x -> wf_dataset y ->
  exists x' y' pairs, align_datasets eqb x y = Ok (x', y') /\
    wf_dataset x' /\ wf_dataset y' /\
    StronglySorted lex_lt pairs /\
    (forall i j, In (i, j) pairs <-> exists a b, nth_error (ds_features x) i = Some a /\
        nth_error (ds_features y) j = Some b /\ eqb a b = true) /\
    Forall2 (fun p r => nth_error (rows x) (fst p) = Some r) pairs (rows x') /\
    Forall2 (fun p r => nth_error (rows y) (snd p) = Some r) pairs (rows y').
Proof.
  intros Hx Hy. unfold align_datasets.
  set (pairs := align_outer eqb (ds_features x) 0 (ds_features y)).
  pose proof (align_outer_sorted eqb (ds_features x) 0 (ds_features y)) as Hs.
  fold pairs in Hs.
  assert (forall i j, In (i, j) pairs <-> exists a b, nth_error (ds_features x) i = Some a /\
        nth_error (ds_features y) j = Some b /\ eqb a b = true) as Hin.
  { intros i j. unfold pairs. rewrite align_outer_spec. rewrite Nat.sub_0_r. split.
    - intros [a [b [_ H]]]. eauto.
    - intros [a [b H]]. exists a, b. split; [lia|exact H]. }
  clearbody pairs.
  destruct (dataset_subset_rows x (map fst pairs) Hx) as [Ex _].
  destruct Ex as [x' [E1 [W1 [M1 R1]]]].
  { apply Forall_forall. intros i Hi. apply in_map_iff in Hi as [[a b] [<- Hp]]. cbn.
    apply Hin in Hp as [u [v [Hu _]]]. apply nth_error_Some. congruence. }
  destruct (dataset_subset_rows y (map snd pairs) Hy) as [Ey _].
  destruct Ey as [y' [E2 [W2 [M2 R2]]]].
  { apply Forall_forall. intros i Hi. apply in_map_iff in Hi as [[a b] [<- Hp]]. cbn.
    apply Hin in Hp as [u [v [_ [Hv _]]]]. apply nth_error_Some. congruence. }
  destruct pairs as [|p0 pairs'].
  - exists empty_dataset, empty_dataset, []. split; [reflexivity|].
    split; [split; reflexivity|]. split; [split; reflexivity|]. split; [constructor|].
    split; [exact Hin|]. split; constructor.
  - remember (p0 :: pairs') as pairs eqn:Ep.
    exists x', y', pairs. rewrite E1, E2. cbn [bind].
    split; [subst pairs; reflexivity|]. split; [exact W1|]. split; [exact W2|].
    split; [exact Hs|]. split; [exact Hin|].
    apply subset_ok_iff in R1 as [L1 R1]. apply subset_ok_iff in R2 as [L2 R2].
    rewrite map_length in L1, L2. split; apply Forall2_nth_error_iff.
    + split; [congruence|]. intros k p r Hp Hr. destruct (R1 k (fst p)) as [_ E].
      { rewrite nth_error_map', Hp. reflexivity. } congruence.
    + split; [congruence|]. intros k p r Hp Hr. destruct (R2 k (snd p)) as [_ E].
      { rewrite nth_error_map', Hp. reflexivity. } congruence.
Qed.

Lemma Forall2_map_fst_nth {X D} (x : dataset X D) (g : nat * nat -> nat) pairs out :
  wf_dataset x -> wf_dataset out ->
  Forall2 (fun p r => nth_error (rows x) (g p) = Some r) pairs (rows out) ->
  Forall2 (fun p f => nth_error (ds_features x) (g p) = Some f) pairs (ds_features out).
Proof.
  intros Hx Ho H. rewrite <- (rows_features x Hx), <- (rows_features out Ho).
  induction H as [|p r ps rs Hp H IH]; cbn; constructor; [|exact IH].
  rewrite nth_error_map', Hp. reflexivity.
Qed.

Lemma align_datasets_features {X D} (eqb : X -> X -> bool) (x y x' y' : dataset X D) :
  wf_dataset x -> wf_dataset y -> align_datasets eqb x y = Ok (x', y') ->
  Forall2 (fun a b => eqb a b = true) (ds_features x') (ds_features y').
Proof.
  intros Hx Hy H. destruct (align_datasets_spec eqb x y Hx Hy)
    as [x1 [y1 [pairs [E [W1 [W2 [_ [Hin [R1 R2]]]]]]]]].
  rewrite H in E. injection E as <- <-.
  apply (Forall2_map_fst_nth x fst) in R1; [|exact Hx|exact W1].
  apply (Forall2_map_fst_nth y snd) in R2; [|exact Hy|exact W2].
  apply Forall2_nth_error_iff. apply Forall2_nth_error_iff in R1 as [L1 R1].
  apply Forall2_nth_error_iff in R2 as [L2 R2]. split; [congruence|].
  intros k a b Ha Hb. destruct (nth_error pairs k) as [[i j]|] eqn:Ep.
  - specialize (R1 k _ _ Ep Ha). specialize (R2 k _ _ Ep Hb). cbn in R1, R2.
    assert (In (i, j) pairs) as Hp by (eapply nth_error_In; eauto).
    apply Hin in Hp as [u [v [Hu [Hv E]]]]. congruence.
  - apply nth_error_None in Ep. assert (k < length (ds_features x')) by (apply nth_error_Some; congruence). lia.
Qed.

Lemma align_datasets_unique {X D} (eqb : X -> X -> bool) (x y x' y' : dataset X D) :
  (forall a b, eqb a b = true <-> a = b) ->
  wf_dataset x -> wf_dataset y -> NoDup (ds_features x) -> NoDup (ds_features y) ->
  align_datasets eqb x y = Ok (x', y') ->
  ds_features x' = ds_features y' /\
  ds_features x' = filter (fun f => existsb (eqb f) (ds_features y)) (ds_features x) /\
  rows x' = filter (fun r => existsb (eqb (fst r)) (ds_features y)) (rows x) /\
  (forall r, In r (rows y') <-> In r (rows y) /\ In (fst r) (ds_features x)).
Proof.
  intros Heq Hx Hy Nx Ny H.
  pose proof (align_datasets_features eqb x y x' y' Hx Hy H) as HF.
  destruct (align_datasets_spec eqb x y Hx Hy)
    as [x1 [y1 [pairs [E [W1 [W2 [Hs [Hin [R1 R2]]]]]]]]].
  rewrite H in E. injection E as <- <-.
  assert (ds_features x' = ds_features y') as Hxy.
  { clear -HF Heq. induction HF as [|a b l l' Hab HF IH]; [reflexivity|].
    apply Heq in Hab as ->. f_equal. exact IH. }
  assert (forall i j j', In (i, j) pairs -> In (i, j') pairs -> j = j') as Huniq.
  { intros i j j' H1 H2. apply Hin in H1 as [a [b [Ha [Hb E1]]]].
    apply Hin in H2 as [a' [b' [Ha' [Hb' E2]]]]. apply Heq in E1, E2.
    rewrite NoDup_nth_error in Ny. apply Ny; [apply nth_error_Some; congruence|congruence]. }
  assert (map fst pairs = inds_to_keep (ds_features x) (fun f => existsb (eqb f) (ds_features y)) 0) as Hinds.
  { apply SSorted_lt_ext.
    - clear -Hs Huniq. induction Hs as [|[i j] ps Hs IH Hf]; cbn; [constructor|].
      constructor.
      + apply IH. intros a b b' H1 H2. apply (Huniq a); right; assumption.
      + apply Forall_forall. intros a Ha. apply in_map_iff in Ha as [[i' j'] [<- Hp]]. cbn.
        rewrite Forall_forall in Hf. destruct (Hf _ Hp) as [Hlt|[Heq Hlt]]; cbn in *; [exact Hlt|].
        subst i'. assert (j = j') by (apply (Huniq i); [left; reflexivity|right; exact Hp]). lia.
    - apply inds_to_keep_spec.
    - intros i. destruct (inds_to_keep_zero_spec (ds_features x) (fun f => existsb (eqb f) (ds_features y))) as [_ [Hk _]].
      rewrite Hk, in_map_iff. split.
      + intros [[a b] [<- Hp]]. cbn. apply Hin in Hp as [u [v [Hu [Hv E]]]].
        exists u. split; [exact Hu|]. apply existsb_exists. exists v.
        split; [eapply nth_error_In; eauto|exact E].
      + intros [u [Hu E]]. apply existsb_exists in E as [v [Hv E]].
        apply In_nth_error in Hv as [j Hj]. exists (i, j). split; [reflexivity|].
        apply Hin. eauto. }
  assert (subset (rows x) (map fst pairs) = Ok (rows x')) as Rx.
  { apply Forall2_nth_error_iff in R1 as [L1 R1]. apply subset_ok_iff.
    rewrite map_length. split; [congruence|]. intros k i Hk. rewrite nth_error_map' in Hk.
    destruct (nth_error pairs k) as [p|] eqn:Ep; [|discriminate]. injection Hk as <-.
    destruct (nth_error (rows x') k) as [r|] eqn:Er.
    - specialize (R1 k p r Ep Er). split; [apply nth_error_Some; congruence|congruence].
    - apply nth_error_None in Er. assert (k < length pairs) by (apply nth_error_Some; congruence). lia. }
  assert (rows x' = filter (fun r => existsb (eqb (fst r)) (ds_features y)) (rows x)) as Hrows.
  { rewrite Hinds, <- (rows_features x Hx), inds_to_keep_via_map, subset_inds_to_keep in Rx.
    congruence. }
  split; [exact Hxy|]. split; [|split; [exact Hrows|]].
  - rewrite <- (rows_features x' W1), Hrows, <- (rows_features x Hx).
    generalize (rows x). intros l. induction l as [|r l IH]; cbn; [reflexivity|].
    destruct (existsb (eqb (fst r)) (ds_features y)); cbn; rewrite ?IH; reflexivity.
  - intros r. split.
    + intros Hr. apply In_nth_error in Hr as [k Hk].
      apply Forall2_nth_error_iff in R2 as [L2 R2].
      destruct (nth_error pairs k) as [[i j]|] eqn:Ep.
      2:{ apply nth_error_None in Ep. assert (k < length (rows y')) by (apply nth_error_Some; congruence). lia. }
      specialize (R2 k _ _ Ep Hk). cbn in R2. split; [eapply nth_error_In; eauto|].
      assert (In (i, j) pairs) as Hp by (eapply nth_error_In; eauto).
      apply Hin in Hp as [u [v [Hu [Hv E]]]]. apply Heq in E as ->.
      rewrite <- (rows_features y Hy), nth_error_map', R2 in Hv. cbn in Hv. injection Hv as ->.
      eapply nth_error_In; eauto.
    + intros [Hr Hf]. apply In_nth_error in Hr as [j Hj]. apply In_nth_error in Hf as [i Hi].
      assert (In (i, j) pairs) as Hp.
      { apply Hin. exists (fst r), (fst r). split; [exact Hi|]. split; [|apply Heq; reflexivity].
        rewrite <- (rows_features y Hy), nth_error_map', Hj. reflexivity. }
      apply In_nth_error in Hp as [k Hk].
      destruct (Forall2_nth_error _ _ _ R2 _ _ Hk) as [r' [Hr' E]]. cbn in E.
      apply nth_error_In with k. congruence.
Qed.

(* ---------------- concatenate ---------------- *)

Lemma concatenate_datasets_rows {X D} (x y : dataset X D) :
  wf_dataset x -> wf_dataset y ->
  exists out, concatenate_datasets x y = Ok out /\ wf_dataset out /\
    rows out = rows x ++ rows y /\ ds_metadata out = [].
Proof.
  intros [Wx Lx] [Wy Ly]. unfold wf_marginal in *. unfold concatenate_datasets, concatenate_marginals.
  rewrite marginal_make_wf by (rewrite !app_length; lia). cbn [bind].
  rewrite dataset_make_wf; [|unfold wf_marginal; cbn; rewrite !app_length; lia|cbn; rewrite !app_length; lia].
  eexists. split; [reflexivity|].
  split; [unfold wf_dataset, wf_marginal; cbn; rewrite !app_length; lia|].
  split; [|reflexivity]. unfold rows; cbn. rewrite !combine_app; auto.
  rewrite combine_length. lia.
Qed.

Lemma concatenate_datasets_bad {X D} (x y : dataset X D) :
  ~ (length (m_mean (ds_targets x) ++ m_mean (ds_targets y)) =
     length (m_var (ds_targets x) ++ m_var (ds_targets y)) /\
     length (ds_features x ++ ds_features y) =
     length (m_mean (ds_targets x) ++ m_mean (ds_targets y))) ->
  concatenate_datasets x y = Abort.
Proof.
  intros Hn. unfold concatenate_datasets, concatenate_marginals, marginal_make, assert_then.
  destruct (Nat.eqb_spec (length (m_mean (ds_targets x) ++ m_mean (ds_targets y)))
     (length (m_var (ds_targets x) ++ m_var (ds_targets y)))) as [E|E]; [|reflexivity].
  cbn [bind]. unfold dataset_make, marginal_size, assert_then; cbn [m_mean m_var].
  rewrite E, Nat.eqb_refl. cbn [bind].
  destruct (Nat.eqb_spec (length (ds_features x ++ ds_features y))
     (length (m_mean (ds_targets x) ++ m_mean (ds_targets y)))) as [E2|E2]; [tauto|].
  rewrite <- E. destruct (Nat.eqb_spec (length (ds_features x ++ ds_features y))
     (length (m_mean (ds_targets x) ++ m_mean (ds_targets y)))); [contradiction|reflexivity].
Qed.

Lemma subset_app_left {A} (l l' : list A) :
  subset (l ++ l') (seq 0 (length l)) = Ok l.
Proof.
  apply subset_ok_iff. rewrite seq_length. split; [reflexivity|]. intros i k Hk.
  rewrite nth_error_seq in Hk. destruct (Nat.ltb_spec i (length l)); [|discriminate].
  injection Hk as <-. rewrite app_length. split; [lia|].
  rewrite nth_error_app1 by exact H. reflexivity.
Qed.

Lemma subset_app_right {A} (l l' : list A) :
  subset (l ++ l') (seq (length l) (length l')) = Ok l'.
Proof.
  apply subset_ok_iff. rewrite seq_length. split; [reflexivity|]. intros i k Hk.
  assert (i < length l') as Hi.
  { destruct (Nat.lt_ge_cases i (length l')); [assumption|].
    rewrite (proj2 (nth_error_None _ _)) in Hk by (rewrite seq_length; lia). discriminate. }
  rewrite nth_error_nth' with (d := 0) in Hk by (rewrite seq_length; exact Hi).
  rewrite seq_nth in Hk by exact Hi. injection Hk as <-. rewrite app_length. split; [lia|].
  rewrite nth_error_app2 by lia. f_equal. lia.
Qed.

Lemma concatenate_then_subset {X D} (x y out : dataset X D) :
  wf_dataset x -> wf_dataset y -> concatenate_datasets x y = Ok out ->
  exists x' y', dataset_subset out (seq 0 (ds_size x)) = Ok x' /\
    dataset_subset out (seq (ds_size x) (ds_size y)) = Ok y' /\
    ds_features x' = ds_features x /\ ds_targets x' = ds_targets x /\
    ds_features y' = ds_features y /\ ds_targets y' = ds_targets y.
Proof.
  intros Wx Wy H. destruct (concatenate_datasets_rows x y Wx Wy) as [out' [E [Wo [Ro _]]]].
  rewrite H in E. injection E as <-.
  assert (ds_size out = ds_size x + ds_size y) as Hsz.
  { rewrite <- !rows_length by assumption. rewrite Ro, app_length. reflexivity. }
  destruct (dataset_subset_rows out (seq 0 (ds_size x)) Wo) as [E1 _].
  destruct E1 as [x' [E1 [W1 [_ R1]]]].
  { apply Forall_forall. intros i Hi. apply in_seq in Hi. lia. }
  destruct (dataset_subset_rows out (seq (ds_size x) (ds_size y)) Wo) as [E2 _].
  destruct E2 as [y' [E2 [W2 [_ R2]]]].
  { apply Forall_forall. intros i Hi. apply in_seq in Hi. lia. }
  exists x', y'. split; [exact E1|]. split; [exact E2|].
  rewrite Ro, <- (rows_length x Wx), subset_app_left in R1. injection R1 as R1.
  rewrite Ro, <- (rows_length x Wx), <- (rows_length y Wy), subset_app_right in R2. injection R2 as R2.
  destruct (dataset_ext x' x W1 Wx (eq_sym R1)) as [F1 T1].
  destruct (dataset_ext y' y W2 Wy (eq_sym R2)) as [F2 T2]. auto.
Qed.

Lemma concatenate_dataset_list_rows {X D} (ds : list (dataset X D)) :
  Forall wf_dataset ds ->
  exists out, concatenate_dataset_list ds = Ok out /\ wf_dataset out /\
    rows out = concat (map rows ds) /\ ds_metadata out = [].
Proof.
  intros Hw. unfold concatenate_dataset_list.
  assert (length (concat (map m_mean (map ds_targets ds))) =
          length (concat (map m_var (map ds_targets ds))) /\
          length (concat (map ds_features ds)) = length (concat (map m_mean (map ds_targets ds))) /\
          combine (concat (map ds_features ds))
             (combine (concat (map m_mean (map ds_targets ds))) (concat (map m_var (map ds_targets ds))))
          = concat (map rows ds)) as [L1 [L2 R]].
  { induction Hw as [|d ds [W L] Hw IH]; cbn; [auto|]. unfold wf_marginal in W.
    destruct IH as [I1 [I2 I3]]. rewrite !app_length, !combine_app, I3 by (rewrite ?combine_length; lia).
    repeat split; lia. }
  assert (concatenate_marginal_list (map ds_targets ds) =
    Ok (Marg (concat (map m_mean (map ds_targets ds))) (concat (map m_var (map ds_targets ds))))) as ->.
  { unfold concatenate_marginal_list. destruct (map ds_targets ds) as [|t ts] eqn:E; [reflexivity|].
    rewrite <- E in *. unfold assert_then.
    assert (forallb (fun d => length (m_mean d) =? length (m_var d)) (map ds_targets ds) = true) as ->.
    { apply forallb_forall. intros m Hm. apply in_map_iff in Hm as [d [<- Hd]].
      rewrite Forall_forall in Hw. apply Nat.eqb_eq, (Hw d Hd). }
    apply marginal_make_wf, L1. }
  cbn [bind]. rewrite dataset_make_wf by (unfold wf_marginal; cbn; assumption).
  eexists. split; [reflexivity|]. split; [unfold wf_dataset, wf_marginal; cbn; auto|].
  split; [exact R|reflexivity].
Qed.

Lemma concatenate_datasets_variant_rows {X Y D} (x : dataset X D) (y : dataset Y D) :
  wf_dataset x -> wf_dataset y ->
  exists out, concatenate_datasets_variant x y = Ok out /\ wf_dataset out /\
    rows out = map (fun r => (inl (fst r), snd r)) (rows x) ++
               map (fun r => (inr (fst r), snd r)) (rows y).
Proof.
  intros [Wx Lx] [Wy Ly]. unfold wf_marginal in *.
  unfold concatenate_datasets_variant, concatenate_marginals.
  rewrite marginal_make_wf by (rewrite !app_length; lia). cbn [bind].
  rewrite dataset_make_wf;
    [|unfold wf_marginal; cbn; rewrite !app_length; lia|cbn; rewrite !app_length, !map_length; lia].
  eexists. split; [reflexivity|].
  split; [unfold wf_dataset, wf_marginal; cbn; rewrite !app_length, !map_length; lia|].
  unfold rows; cbn. rewrite (combine_app (m_mean (ds_targets x))) by exact Wx.
  rewrite combine_app by (rewrite map_length, combine_length; lia).
  f_equal.
  - generalize (combine (m_mean (ds_targets x)) (m_var (ds_targets x))). generalize (ds_features x).
    intros l. induction l as [|a l IH]; intros [|b m]; cbn; auto. f_equal. apply IH.
  - generalize (combine (m_mean (ds_targets y)) (m_var (ds_targets y))). generalize (ds_features y).
    intros l. induction l as [|a l IH]; intros [|b m]; cbn; auto. f_equal. apply IH.
Qed.

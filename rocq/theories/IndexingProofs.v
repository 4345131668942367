From Verif Require Import Base BaseProofs StdMapModel StdMapProofs IndexingModel IndexingSpec.
From Coq Require Import Permutation.

(* ---------------- subset ---------------- *)

Lemma checked_get_ok {A} (v : list A) i a :
  checked_get v i = Ok a <-> nth_error v i = Some a.
Proof. unfold checked_get. destruct (nth_error v i); cbn; split; congruence. Qed.

Lemma checked_get_bad {A} (v : list A) i :
  length v <= i -> checked_get v i = Abort.
Proof. intros H. unfold checked_get. apply nth_error_None in H as ->. reflexivity. Qed.

Lemma mapM_abort {A B} (f : A -> outcome B) xs :
  (forall x, In x xs -> f x = Abort \/ exists b, f x = Ok b) ->
  (exists x, In x xs /\ f x = Abort) -> mapM f xs = Abort.
Proof.
  induction xs as [|x xs IH]; intros Hd [y [Hy Hf]]; cbn.
  - destruct Hy.
  - destruct (Hd x (or_introl eq_refl)) as [->|[b Hb]]; [reflexivity|].
    rewrite Hb. cbn. rewrite IH.
    + reflexivity.
    + intros z Hz. apply Hd. right; exact Hz.
    + destruct Hy as [->|Hy]; [congruence|eauto].
Qed.

Lemma mapM_ok_or_abort {A B} (f : A -> outcome B) xs :
  (forall x, In x xs -> f x = Abort \/ exists b, f x = Ok b) ->
  mapM f xs = Abort \/ exists b, mapM f xs = Ok b.
Proof.
  induction xs as [|x xs IH]; intros Hd; cbn; [eauto|].
  destruct (Hd x (or_introl eq_refl)) as [->|[b ->]]; [auto|]. cbn.
  destruct IH as [->|[bs ->]]; [intros y Hy; apply Hd; right; exact Hy|auto|].
  cbn. eauto.
Qed.

Lemma mapM_total {A B} (f : A -> outcome B) xs :
  (forall x, In x xs -> exists b, f x = Ok b) -> exists b, mapM f xs = Ok b.
Proof.
  induction xs as [|x xs IH]; intros Hd; cbn; [eauto|].
  destruct (Hd x (or_introl eq_refl)) as [b ->]. cbn.
  destruct IH as [bs ->]; [intros y Hy; apply Hd; right; exact Hy|].
  cbn. eauto.
Qed.

Lemma subset_ok_iff {A} (v : list A) inds out :
  subset v inds = Ok out <->
  length out = length inds /\
  (forall i k, nth_error inds i = Some k ->
     k < length v /\ nth_error out i = nth_error v k).
Proof.
  unfold subset. rewrite mapM_ok, Forall2_nth_error_iff. split.
  - intros [Hl H]. split; [congruence|]. intros i k Hk.
    assert (exists a, nth_error out i = Some a) as [a Ha].
    { destruct (nth_error out i) eqn:E; [eauto|]. apply nth_error_None in E.
      assert (nth_error inds i <> None) as Hn by congruence.
      apply nth_error_Some in Hn. lia. }
    specialize (H i k a Hk Ha). apply checked_get_ok in H.
    split; [|congruence]. apply nth_error_Some. congruence.
  - intros [Hl H]. split; [congruence|]. intros i k a Hk Ha.
    apply checked_get_ok. destruct (H i k Hk) as [_ E]. congruence.
Qed.

Lemma subset_abort {A} (v : list A) inds :
  (exists k, In k inds /\ length v <= k) -> subset v inds = Abort.
Proof.
  intros [k [Hk Hl]]. apply mapM_abort.
  - intros x _. unfold checked_get. destruct (nth_error v x); cbn; eauto.
  - exists k. split; [exact Hk|]. apply checked_get_bad; exact Hl.
Qed.

Lemma subset_total {A} (v : list A) inds :
  Forall (fun k => k < length v) inds -> exists out, subset v inds = Ok out.
Proof.
  induction inds as [|k inds IH]; intros H; cbn.
  - unfold subset; cbn; eauto.
  - inversion H; subst. destruct IH as [out Hout]; [assumption|].
    unfold subset in *. cbn. unfold checked_get at 1.
    destruct (nth_error v k) eqn:E.
    + cbn. rewrite Hout. cbn. eauto.
    + apply nth_error_None in E. lia.
Qed.

Lemma subset_in_range {A} (v : list A) inds out :
  subset v inds = Ok out -> Forall (fun k => k < length v) inds.
Proof.
  rewrite subset_ok_iff. intros [_ H]. apply Forall_forall. intros k Hk.
  apply In_nth_error in Hk as [i Hi]. apply (H i k Hi).
Qed.

(* explicit value of a successful subset *)
Lemma subset_map {A} (d : A) (v : list A) inds :
  Forall (fun k => k < length v) inds ->
  subset v inds = Ok (map (fun k => nth k v d) inds).
Proof.
  intros H. apply mapM_map. intros k Hk. rewrite Forall_forall in H.
  apply checked_get_ok. apply nth_error_nth'. apply H, Hk.
Qed.

Lemma subset_app {A} (v : list A) i1 i2 o1 o2 :
  subset v i1 = Ok o1 -> subset v i2 = Ok o2 -> subset v (i1 ++ i2) = Ok (o1 ++ o2).
Proof.
  unfold subset. revert o1. induction i1 as [|i i1 IH]; intros o1 H1 H2; cbn in *.
  - injection H1 as <-. exact H2.
  - apply bind_ok in H1 as [a [Ha H1]]. apply bind_ok in H1 as [o [Ho E]].
    injection E as <-. rewrite Ha. cbn. rewrite (IH o Ho H2). reflexivity.
Qed.

Lemma subset_seq_all {A} (v : list A) : subset v (seq 0 (length v)) = Ok v.
Proof.
  apply subset_ok_iff. rewrite seq_length. split; [reflexivity|].
  intros i k Hk. rewrite nth_error_seq in Hk.
  destruct (Nat.ltb_spec i (length v)); [|discriminate].
  injection Hk as <-. split; [exact H|reflexivity].
Qed.

Lemma subset_signed_ok_iff {A} (v : list A) inds out :
  subset_signed v inds = Ok out <->
  length out = length inds /\
  (forall i k, nth_error inds i = Some k ->
     (0 <= k < Z.of_nat (length v))%Z /\ nth_error out i = nth_error v (Z.to_nat k)).
Proof.
  unfold subset_signed. rewrite mapM_ok, Forall2_nth_error_iff. split.
  - intros [Hl H]. split; [congruence|]. intros i k Hk.
    assert (exists a, nth_error out i = Some a) as [a Ha].
    { destruct (nth_error out i) eqn:E; [eauto|]. apply nth_error_None in E.
      assert (nth_error inds i <> None) as Hn by congruence.
      apply nth_error_Some in Hn. lia. }
    specialize (H i k a Hk Ha). unfold assert_then in H.
    destruct (Z.leb_spec 0 k); [|discriminate]. apply checked_get_ok in H.
    assert (Z.to_nat k < length v). { apply nth_error_Some. congruence. }
    split; [lia|congruence].
  - intros [Hl H]. split; [congruence|]. intros i k a Hk Ha.
    destruct (H i k Hk) as [Hr E]. unfold assert_then.
    destruct (Z.leb_spec 0 k); [|lia]. apply checked_get_ok. congruence.
Qed.

Lemma subset_signed_abort {A} (v : list A) inds :
  (exists k, In k inds /\ ((k < 0)%Z \/ (Z.of_nat (length v) <= k)%Z)) ->
  subset_signed v inds = Abort.
Proof.
  intros [k [Hk Hl]]. apply mapM_abort.
  - intros x _. unfold assert_then, checked_get.
    destruct (Z.leb 0 x); [|left; reflexivity].
    destruct (nth_error v (Z.to_nat x)); cbn; eauto.
  - exists k. split; [exact Hk|]. unfold assert_then.
    destruct (Z.leb_spec 0 k); [|reflexivity].
    apply checked_get_bad. lia.
Qed.

(* ---------------- matrices ---------------- *)

Lemma mat_get_some {A} (M : matrix A) i j :
  wf_mat M -> i < length (mat_rows M) -> j < mat_cols M ->
  exists a, mat_get M i j = Some a.
Proof.
  intros Hwf Hi Hj. unfold mat_get.
  destruct (nth_error (mat_rows M) i) as [r|] eqn:E.
  - destruct (nth_error r j) eqn:E2; [eauto|].
    apply nth_error_None in E2. unfold wf_mat in Hwf. rewrite Forall_forall in Hwf.
    apply nth_error_In in E. specialize (Hwf _ E). lia.
  - apply nth_error_None in E. lia.
Qed.

Lemma subset_matrix_entry {A} (M : matrix A) i j a :
  assert_then (i <? length (mat_rows M))
    (assert_then (j <? mat_cols M) (of_option Abort (mat_get M i j))) = Ok a <->
  i < length (mat_rows M) /\ j < mat_cols M /\ mat_get M i j = Some a.
Proof.
  unfold assert_then.
  destruct (Nat.ltb_spec i (length (mat_rows M))).
  - destruct (Nat.ltb_spec j (mat_cols M)).
    + destruct (mat_get M i j); cbn; split.
      * intros E. injection E as ->. auto.
      * intros [_ [_ E]]. congruence.
      * discriminate.
      * intros [_ [_ E]]. discriminate.
    + split; [discriminate|lia].
  - split; [discriminate|lia].
Qed.

Lemma subset_matrix_spec {A} (M : matrix A) rows cols out :
  subset_matrix M rows cols = Ok out ->
  mat_cols out = length cols /\ length (mat_rows out) = length rows /\ wf_mat out /\
  (forall p q i j, nth_error rows p = Some i -> nth_error cols q = Some j ->
     i < length (mat_rows M) /\ j < mat_cols M /\
     mat_get out p q = mat_get M i j).
Proof.
  unfold subset_matrix. intros H. apply bind_ok in H as [rs [Hrs E]].
  injection E as <-. cbn. apply mapM_ok in Hrs.
  split; [reflexivity|]. split; [symmetry; eapply Forall2_len; eauto|]. split.
  - unfold wf_mat; cbn. apply Forall_forall. intros r Hr.
    apply In_nth_error in Hr as [p Hp]. apply Forall2_nth_error_iff in Hrs as [Hl Hrs].
    destruct (nth_error rows p) as [i|] eqn:Ei.
    + specialize (Hrs p i r Ei Hp). apply mapM_length in Hrs. exact Hrs.
    + apply nth_error_None in Ei. assert (nth_error rs p <> None) as Hn by congruence.
      apply nth_error_Some in Hn. lia.
  - intros p q i j Hi Hj.
    destruct (Forall2_nth_error _ _ _ Hrs _ _ Hi) as [r [Hr Hrow]].
    apply mapM_ok in Hrow.
    destruct (Forall2_nth_error _ _ _ Hrow _ _ Hj) as [a [Ha Hent]].
    apply subset_matrix_entry in Hent as [H1 [H2 H3]].
    split; [exact H1|]. split; [exact H2|]. unfold mat_get at 1; cbn.
    rewrite Hr, Ha. symmetry; exact H3.
Qed.

Lemma subset_matrix_total {A} (M : matrix A) rows cols :
  wf_mat M ->
  Forall (fun i => i < length (mat_rows M)) rows ->
  Forall (fun j => j < mat_cols M) cols ->
  exists out, subset_matrix M rows cols = Ok out.
Proof.
  intros Hwf Hr Hc. unfold subset_matrix. rewrite Forall_forall in Hr, Hc.
  edestruct (mapM_total (fun i : nat =>
     mapM (fun j : nat => assert_then (i <? length (mat_rows M))
        (assert_then (j <? mat_cols M) (of_option Abort (mat_get M i j)))) cols) rows)
    as [rs Hrs].
  { intros i Hi. apply mapM_total. intros j Hj.
    destruct (mat_get_some M i j Hwf (Hr i Hi) (Hc j Hj)) as [a Ha].
    exists a. apply subset_matrix_entry. auto. }
  rewrite Hrs. cbn. eauto.
Qed.

Lemma subset_matrix_abort {A} (M : matrix A) rows cols :
  wf_mat M ->
  (exists i j, In i rows /\ In j cols /\
      (length (mat_rows M) <= i \/ mat_cols M <= j)) ->
  subset_matrix M rows cols = Abort.
Proof.
  intros Hwf [i [j [Hi [Hj Hbad]]]]. unfold subset_matrix.
  assert (forall i j, In j cols ->
     (assert_then (i <? length (mat_rows M))
     (assert_then (j <? mat_cols M) (of_option Abort (mat_get M i j))) = Abort \/
     exists b, assert_then (i <? length (mat_rows M))
     (assert_then (j <? mat_cols M) (of_option Abort (mat_get M i j))) = Ok b)) as Hd.
  { intros i0 j0 _. unfold assert_then.
    destruct (i0 <? length (mat_rows M)); [|auto]. destruct (j0 <? mat_cols M); [|auto].
    destruct (mat_get M i0 j0); cbn; eauto. }
  rewrite mapM_abort; [reflexivity| |].
  - intros x _. apply mapM_ok_or_abort. intros y Hy. apply Hd, Hy.
  - exists i. split; [exact Hi|]. apply mapM_abort; [intros x Hx; apply Hd, Hx|].
    exists j. split; [exact Hj|]. unfold assert_then.
    destruct (Nat.ltb_spec i (length (mat_rows M))); [|reflexivity].
    destruct (Nat.ltb_spec j (mat_cols M)); [lia|reflexivity].
Qed.

Lemma subset_cols_spec {A} (M : matrix A) cols out :
  wf_mat M -> subset_cols M cols = Ok out ->
  mat_cols out = length cols /\ length (mat_rows out) = length (mat_rows M) /\ wf_mat out /\
  (forall i q j, i < length (mat_rows M) -> nth_error cols q = Some j ->
     j < mat_cols M /\ mat_get out i q = mat_get M i j).
Proof.
  intros Hwf H. unfold subset_cols, assert_then in H.
  destruct (forallb (fun j => j <? mat_cols M) cols) eqn:Ef; [|discriminate].
  apply bind_ok in H as [rs [Hrs E]]. injection E as <-. cbn.
  apply mapM_ok in Hrs. split; [reflexivity|].
  split; [symmetry; eapply Forall2_len; eauto|]. split.
  - unfold wf_mat; cbn. apply Forall_forall. intros r Hr.
    apply In_nth_error in Hr as [p Hp]. apply Forall2_nth_error_iff in Hrs as [Hl Hrs].
    destruct (nth_error (mat_rows M) p) as [i|] eqn:Ei.
    + specialize (Hrs p i r Ei Hp). apply mapM_length in Hrs. exact Hrs.
    + apply nth_error_None in Ei. assert (nth_error rs p <> None) as Hn by congruence.
      apply nth_error_Some in Hn. lia.
  - intros i q j Hi Hj. rewrite forallb_forall in Ef. split.
    { apply Nat.ltb_lt, Ef. eapply nth_error_In; eauto. }
    destruct (nth_error (mat_rows M) i) as [r|] eqn:Er.
    2:{ apply nth_error_None in Er. lia. }
    destruct (Forall2_nth_error _ _ _ Hrs _ _ Er) as [r' [Hr' Hs]].
    apply subset_ok_iff in Hs as [_ Hs]. destruct (Hs q j Hj) as [_ E].
    unfold mat_get; cbn. rewrite Hr', Er. exact E.
Qed.

Lemma subset_cols_outcome {A} (M : matrix A) cols :
  wf_mat M ->
  (Forall (fun j => j < mat_cols M) cols -> exists out, subset_cols M cols = Ok out) /\
  ((exists j, In j cols /\ mat_cols M <= j) -> subset_cols M cols = Abort).
Proof.
  intros Hwf. unfold subset_cols, assert_then. split.
  - intros Hc. assert (forallb (fun j => j <? mat_cols M) cols = true) as ->.
    { apply forallb_forall. rewrite Forall_forall in Hc. intros j Hj.
      apply Nat.ltb_lt, Hc, Hj. }
    assert (exists rs, mapM (fun r => subset r cols) (mat_rows M) = Ok rs) as [rs ->].
    { unfold wf_mat in Hwf. induction Hwf as [|r rs Hr Hwf IH]; cbn; [eauto|].
      destruct (subset_total r cols) as [o ->].
      - eapply Forall_impl; [|exact Hc]. cbn. intros; lia.
      - cbn. destruct IH as [rs' ->]. cbn. eauto. }
    cbn. eauto.
  - intros [j [Hj Hbad]].
    assert (forallb (fun j => j <? mat_cols M) cols = false) as ->; [|reflexivity].
    apply not_true_iff_false. rewrite forallb_forall. intros H.
    specialize (H j Hj). apply Nat.ltb_lt in H. lia.
Qed.

Lemma subset_rows_spec {A} (M : matrix A) rows out :
  wf_mat M -> subset_rows M rows = Ok out ->
  mat_cols out = mat_cols M /\ length (mat_rows out) = length rows /\ wf_mat out /\
  (forall p i j, nth_error rows p = Some i ->
     i < length (mat_rows M) /\ mat_get out p j = mat_get M i j).
Proof.
  intros Hwf H. unfold subset_rows in H. apply bind_ok in H as [rs [Hrs E]].
  injection E as <-. cbn. apply subset_ok_iff in Hrs as [Hl Hs].
  split; [reflexivity|]. split; [exact Hl|]. split.
  - unfold wf_mat in *; cbn. rewrite Forall_forall in *. intros r Hr.
    apply In_nth_error in Hr as [p Hp].
    destruct (nth_error rows p) as [i|] eqn:Ei.
    + destruct (Hs p i Ei) as [Hi E]. apply Hwf. rewrite Hp in E.
      eapply nth_error_In; eauto.
    + apply nth_error_None in Ei. assert (nth_error rs p <> None) as Hn by congruence.
      apply nth_error_Some in Hn. lia.
  - intros p i j Hi. destruct (Hs p i Hi) as [Hlt E]. split; [exact Hlt|].
    unfold mat_get; cbn. rewrite E. reflexivity.
Qed.

Lemma subset_rows_outcome {A} (M : matrix A) rows :
  (Forall (fun i => i < length (mat_rows M)) rows ->
     exists out, subset_rows M rows = Ok out) /\
  ((exists i, In i rows /\ length (mat_rows M) <= i) -> subset_rows M rows = Abort).
Proof.
  unfold subset_rows. split.
  - intros Hr. destruct (subset_total (mat_rows M) rows Hr) as [o ->]. cbn. eauto.
  - intros Hr. rewrite (subset_abort _ _ Hr). reflexivity.
Qed.

Lemma mat_ext {A} (M N : matrix A) :
  wf_mat M -> wf_mat N -> mat_cols M = mat_cols N ->
  length (mat_rows M) = length (mat_rows N) ->
  (forall i j, i < length (mat_rows M) -> j < mat_cols M -> mat_get M i j = mat_get N i j) ->
  M = N.
Proof.
  destruct M as [cm rm], N as [cn rn]; cbn. intros Hm Hn <- Hl H. f_equal.
  apply list_ext. intros i. unfold wf_mat in *; cbn in *. rewrite Forall_forall in Hm, Hn.
  destruct (nth_error rm i) as [r|] eqn:Er; destruct (nth_error rn i) as [s|] eqn:Es.
  - f_equal. apply list_ext. intros j.
    destruct (Nat.lt_ge_cases j cm) as [Hj|Hj].
    + assert (i < length rm) as Hi by (apply nth_error_Some; congruence).
      specialize (H i j Hi Hj). unfold mat_get in H; cbn in H. rewrite Er, Es in H. exact H.
    + apply nth_error_In in Er, Es. specialize (Hm _ Er). specialize (Hn _ Es).
      rewrite (proj2 (nth_error_None r j)), (proj2 (nth_error_None s j)) by lia. reflexivity.
  - apply nth_error_None in Es. assert (i < length rm) by (apply nth_error_Some; congruence). lia.
  - apply nth_error_None in Er. assert (i < length rn) by (apply nth_error_Some; congruence). lia.
  - reflexivity.
Qed.

Lemma subset_matrix_via_rows_cols {A} (M : matrix A) rows cols R out :
  wf_mat M -> subset_rows M rows = Ok R -> subset_cols R cols = Ok out ->
  subset_matrix M rows cols = Ok out.
Proof.
  intros Hwf HR HC.
  pose proof (subset_rows_spec _ _ _ Hwf HR) as [H1 [H2 [HwR H3]]].
  pose proof (subset_cols_spec _ _ _ HwR HC) as [H4 [H5 [HwO H6]]].
  destruct (subset_matrix_total M rows cols Hwf) as [o Ho].
  - unfold subset_rows in HR. apply bind_ok in HR as [rs [Hrs _]].
    eapply subset_in_range; eauto.
  - unfold subset_cols, assert_then in HC.
    destruct (forallb (fun j => j <? mat_cols R) cols) eqn:Ef; [|discriminate].
    rewrite forallb_forall in Ef. apply Forall_forall. intros j Hj.
    apply Nat.ltb_lt. rewrite <- H1. apply Ef, Hj.
  - rewrite Ho. f_equal.
    pose proof (subset_matrix_spec _ _ _ _ Ho) as [G1 [G2 [Gw G3]]].
    apply mat_ext; try assumption; try congruence.
    intros p q Hp Hq.
    destruct (nth_error rows p) as [i|] eqn:Ei.
    2:{ apply nth_error_None in Ei. lia. }
    destruct (nth_error cols q) as [j|] eqn:Ej.
    2:{ apply nth_error_None in Ej. lia. }
    destruct (G3 p q i j Ei Ej) as [_ [_ ->]].
    destruct (H3 p i j Ei) as [_ E3].
    destruct (H6 p q j) as [_ ->]; [lia|exact Ej|]. symmetry; exact E3.
Qed.

Lemma symmetric_subset_spec {A} (M : matrix A) inds out :
  symmetric_subset M inds = Ok out ->
  length (mat_rows M) = mat_cols M /\
  mat_cols out = length inds /\ length (mat_rows out) = length inds /\ wf_mat out /\
  (forall p q i j, nth_error inds p = Some i -> nth_error inds q = Some j ->
     i < mat_cols M /\ j < mat_cols M /\ mat_get out p q = mat_get M i j).
Proof.
  unfold symmetric_subset, assert_then.
  destruct (Nat.eqb_spec (length (mat_rows M)) (mat_cols M)) as [E|]; [|discriminate].
  intros H. apply subset_matrix_spec in H as [H1 [H2 [H3 H4]]].
  split; [exact E|]. split; [exact H1|]. split; [exact H2|]. split; [exact H3|].
  intros p q i j Hi Hj. destruct (H4 p q i j Hi Hj) as [G1 [G2 G3]].
  rewrite E in G1. auto.
Qed.

Lemma symmetric_subset_outcome {A} (M : matrix A) inds :
  wf_mat M ->
  (length (mat_rows M) = mat_cols M -> Forall (fun i => i < mat_cols M) inds ->
     exists out, symmetric_subset M inds = Ok out) /\
  (length (mat_rows M) <> mat_cols M \/ (exists i, In i inds /\ mat_cols M <= i) ->
     symmetric_subset M inds = Abort).
Proof.
  intros Hwf. unfold symmetric_subset, assert_then. split.
  - intros E Hr. rewrite (proj2 (Nat.eqb_eq _ _) E).
    apply subset_matrix_total; [exact Hwf| |exact Hr].
    rewrite E. exact Hr.
  - intros [Hne|[i [Hi Hb]]].
    + rewrite (proj2 (Nat.eqb_neq _ _) Hne). reflexivity.
    + destruct (Nat.eqb_spec (length (mat_rows M)) (mat_cols M)); [|reflexivity].
      apply subset_matrix_abort; [exact Hwf|]. exists i, i. auto.
Qed.

Lemma symmetric_subset_symmetric {A} (M : matrix A) inds out :
  (forall i j, mat_get M i j = mat_get M j i) ->
  symmetric_subset M inds = Ok out ->
  forall p q, mat_get out p q = mat_get out q p.
Proof.
  intros Hs H p q. apply symmetric_subset_spec in H as [_ [Hc [Hr [Hw He]]]].
  destruct (nth_error inds p) as [i|] eqn:Ep; destruct (nth_error inds q) as [j|] eqn:Eq.
  - destruct (He p q i j Ep Eq) as [_ [_ ->]]. destruct (He q p j i Eq Ep) as [_ [_ ->]].
    apply Hs.
  - apply nth_error_None in Eq. unfold mat_get.
    rewrite (proj2 (nth_error_None (mat_rows out) q)) by lia.
    destruct (nth_error (mat_rows out) p) as [r|] eqn:Er; [|reflexivity].
    apply nth_error_None. unfold wf_mat in Hw. rewrite Forall_forall in Hw.
    apply nth_error_In in Er. rewrite (Hw _ Er). lia.
  - apply nth_error_None in Ep. unfold mat_get.
    rewrite (proj2 (nth_error_None (mat_rows out) p)) by lia.
    destruct (nth_error (mat_rows out) q) as [r|] eqn:Er; [|reflexivity].
    symmetry. apply nth_error_None. unfold wf_mat in Hw. rewrite Forall_forall in Hw.
    apply nth_error_In in Er. rewrite (Hw _ Er). lia.
  - apply nth_error_None in Ep, Eq. unfold mat_get.
    rewrite (proj2 (nth_error_None (mat_rows out) p)),
            (proj2 (nth_error_None (mat_rows out) q)) by lia. reflexivity.
Qed.

(* ---------------- set_subset ---------------- *)

Lemma set_subset_loop_ok {A} (from : list A) inds to :
  length inds = length from -> Forall (fun i => i < length to) inds ->
  exists out, set_subset_loop from inds to = Ok out.
Proof.
  revert from to. induction inds as [|i inds IH]; intros from to Hl Hr; cbn.
  - eauto.
  - destruct from as [|f from]; [discriminate|]. inversion Hr; subst.
    unfold assert_then. rewrite (proj2 (Nat.ltb_lt _ _)) by assumption.
    apply IH; [cbn in Hl; lia|]. rewrite set_nth_length. assumption.
Qed.

Lemma set_subset_loop_spec {A} (from : list A) inds to out :
  length inds = length from ->
  set_subset_loop from inds to = Ok out ->
  Forall (fun i => i < length to) inds /\
  length out = length to /\
  (forall j, ~ In j inds -> nth_error out j = nth_error to j) /\
  (forall i j, nth_error inds i = Some j ->
     (forall i', i < i' -> nth_error inds i' <> Some j) ->
     nth_error out j = nth_error from i).
Proof.
  revert from to. induction inds as [|i inds IH]; intros from to Hl H; cbn in H.
  - injection H as <-. repeat split; auto. intros [|i] j; discriminate.
  - destruct from as [|f from]; [discriminate|]. unfold assert_then in H.
    destruct (Nat.ltb_spec i (length to)); [|discriminate].
    destruct (IH from (set_nth to i f)) as [H1 [H2 [H3 H4]]]; [cbn in Hl; lia|exact H|].
    rewrite set_nth_length in *. split; [constructor; assumption|].
    split; [exact H2|]. split.
    + intros j Hj. rewrite H3 by (intros Hin; apply Hj; right; exact Hin).
      apply nth_error_set_nth_neq. intros ->. apply Hj; left; reflexivity.
    + intros [|p] j Hp Hlast; cbn in Hp.
      * injection Hp as ->. cbn. rewrite H3.
        -- rewrite nth_error_set_nth_eq by assumption. reflexivity.
        -- intros Hin. apply In_nth_error in Hin as [q Hq].
           apply (Hlast (S q)); [lia|exact Hq].
      * cbn. apply H4; [exact Hp|]. intros q Hq. apply (Hlast (S q)). lia.
Qed.

Lemma set_subset_outcome {A} (from : list A) inds to :
  (length inds = length from -> Forall (fun i => i < length to) inds ->
   exists out, set_subset from inds to = Ok out) /\
  (length inds <> length from \/ (exists i, In i inds /\ length to <= i) ->
   set_subset from inds to = Abort).
Proof.
  unfold set_subset, assert_then. split.
  - intros Hl Hr. rewrite (proj2 (Nat.eqb_eq _ _) Hl). apply set_subset_loop_ok; assumption.
  - intros H. destruct (Nat.eqb_spec (length inds) (length from)) as [Hl|Hl]; [|reflexivity].
    destruct H as [H|[i [Hi Hb]]]; [contradiction|].
    revert from to Hl Hb. induction inds as [|k inds IH]; intros from to Hl Hb; [destruct Hi|].
    destruct from as [|f from]; [discriminate|]. cbn. unfold assert_then.
    destruct (Nat.ltb_spec k (length to)); [|reflexivity].
    apply IH; [|cbn in Hl; lia|rewrite set_nth_length; exact Hb].
    destruct Hi as [->|Hi]; [lia|exact Hi].
Qed.

Lemma set_subset_spec {A} (from : list A) inds to out :
  set_subset from inds to = Ok out ->
  length out = length to /\
  (forall j, ~ In j inds -> nth_error out j = nth_error to j) /\
  (forall i j, nth_error inds i = Some j ->
     (forall i', i < i' -> nth_error inds i' <> Some j) ->
     j < length to /\ nth_error out j = nth_error from i).
Proof.
  unfold set_subset, assert_then.
  destruct (Nat.eqb_spec (length inds) (length from)) as [Hl|]; [|discriminate].
  intros H. apply set_subset_loop_spec in H as [H1 [H2 [H3 H4]]]; [|exact Hl].
  split; [exact H2|]. split; [exact H3|]. intros i j Hi Hlast. split.
  - rewrite Forall_forall in H1. apply H1. eapply nth_error_In; eauto.
  - apply H4; assumption.
Qed.

Lemma NoDup_nth_error_last {A} (l : list A) i j :
  NoDup l -> nth_error l i = Some j -> forall i', i < i' -> nth_error l i' <> Some j.
Proof.
  intros Hnd Hi i' Hlt Hi'. rewrite NoDup_nth_error in Hnd.
  assert (i = i'); [|lia]. apply Hnd; [apply nth_error_Some; congruence|congruence].
Qed.

Lemma set_subset_then_subset {A} (from : list A) inds to out :
  NoDup inds -> set_subset from inds to = Ok out -> subset out inds = Ok from.
Proof.
  intros Hnd H. assert (length inds = length from) as Hl.
  { unfold set_subset, assert_then in H.
    destruct (Nat.eqb_spec (length inds) (length from)); [assumption|discriminate]. }
  apply set_subset_spec in H as [H1 [H2 H3]]. apply subset_ok_iff.
  split; [congruence|]. intros i k Hk.
  destruct (H3 i k Hk) as [G1 G2]; [apply NoDup_nth_error_last; assumption|].
  split; [lia|congruence].
Qed.

Lemma subset_then_set_subset {A} (v : list A) inds out :
  subset v inds = Ok out -> set_subset out inds v = Ok v.
Proof.
  intros H. apply subset_ok_iff in H as [Hl H]. unfold set_subset, assert_then.
  rewrite (proj2 (Nat.eqb_eq _ _)) by congruence.
  revert out Hl H. induction inds as [|i inds IH]; intros out Hl H; cbn; [reflexivity|].
  destruct out as [|o out]; [discriminate|].
  destruct (H 0 i eq_refl) as [Hi Ho]. cbn in Ho. unfold assert_then.
  rewrite (proj2 (Nat.ltb_lt _ _) Hi). rewrite (set_nth_same v i o) by congruence.
  apply IH; [cbn in Hl; lia|]. intros p k Hp. apply (H (S p) k Hp).
Qed.

Lemma set_subset_diag_agrees {A} (from : list A) inds to :
  Forall (fun i => i < length to) inds ->
  set_subset_diag from inds to = set_subset from inds to.
Proof.
  unfold set_subset_diag, set_subset, assert_then.
  destruct (Nat.eqb_spec (length inds) (length from)) as [Hl|]; [|reflexivity].
  clear Hl. revert from to. induction inds as [|i inds IH]; intros from to Hr; cbn.
  - reflexivity.
  - destruct from as [|f from]; [reflexivity|]. inversion Hr; subst. unfold assert_then.
    rewrite (proj2 (Nat.ltb_lt i (length to))) by assumption.
    rewrite (proj2 (Nat.ltb_lt i (length to * length to))) by nia.
    apply IH. rewrite set_nth_length. assumption.
Qed.

(* ---------------- set difference ---------------- *)

Section SetDiff.
Context {K : Type} `{OrdKey K}.

Lemma merge_difference_spec (x y : list K) :
  StronglySorted klt x -> StronglySorted klt y ->
  forall k, In k (merge_difference x y) <-> In k x /\ ~ In k y.
Proof.
  revert y. induction x as [|a x IHx]; intros y Hx Hy k.
  - destruct y; cbn; tauto.
  - induction y as [|b y IHy]; [cbn; tauto|].
    inversion Hx as [|? ? Hsx Hfx]; subst. inversion Hy as [|? ? Hsy Hfy]; subst.
    rewrite Forall_forall in Hfx, Hfy. cbn. destruct (kcmp a b) eqn:E.
    + apply kcmp_eq in E as ->. rewrite IHx by assumption. split.
      * intros [H1 H2]. split; [right; exact H1|]. intros [->|H3]; [|contradiction].
        apply (klt_irrefl k), Hfx, H1.
      * intros [[->|H1] H2]; [exfalso; apply H2; left; reflexivity|]. split; [exact H1|].
        intros H3. apply H2; right; exact H3.
    + cbn. rewrite IHx by assumption. split.
      * intros [->|[H1 H2]].
        -- split; [left; reflexivity|]. intros [->|H3]; [exact (klt_irrefl _ E)|].
           apply (klt_irrefl k). eapply klt_trans; [exact E|apply Hfy, H3].
        -- split; [right; exact H1|exact H2].
      * intros [[->|H1] H2]; [left; reflexivity|right; split; assumption].
    + apply kcmp_gt in E. rewrite IHy by exact Hsy. cbn. split.
      * intros [H1 H2]. split; [exact H1|]. intros [->|H3]; [|contradiction].
        destruct H1 as [->|H1]; [exact (klt_irrefl _ E)|].
        apply (klt_irrefl k). eapply klt_trans; [exact E|apply Hfx, H1].
      * intros [H1 H2]. split; [exact H1|tauto].
Qed.

Lemma set_difference_spec (x y : list K) :
  StronglySorted klt x -> StronglySorted klt y ->
  StronglySorted klt (set_difference x y) /\
  forall k, In k (set_difference x y) <-> In k x /\ ~ In k y.
Proof.
  intros Hx Hy. split; [apply sof_list_sorted|].
  intros k. unfold set_difference. rewrite sof_list_In.
  apply merge_difference_spec; assumption.
Qed.

Lemma vector_set_difference_spec (x y : list K) :
  StronglySorted klt (vector_set_difference x y) /\
  forall k, In k (vector_set_difference x y) <-> In k x /\ ~ In k y.
Proof.
  destruct (set_difference_spec (sof_list x) (sof_list y)) as [H1 H2];
    [apply sof_list_sorted|apply sof_list_sorted|].
  split; [exact H1|]. intros k. unfold vector_set_difference.
  rewrite H2, !sof_list_In. reflexivity.
Qed.
End SetDiff.

Lemma klt_nat (a b : nat) : klt a b <-> a < b.
Proof. unfold klt; cbn. apply Nat.compare_lt_iff. Qed.

Lemma SSorted_klt_lt l : StronglySorted klt l <-> StronglySorted lt l.
Proof.
  split; induction 1 as [|a l Hs IH Hf]; constructor; auto;
    eapply Forall_impl; try exact Hf; intros b; apply klt_nat.
Qed.

Lemma indices_complement_spec inds n :
  StronglySorted lt (indices_complement inds n) /\
  forall i, In i (indices_complement inds n) <-> i < n /\ ~ In i inds.
Proof.
  destruct (vector_set_difference_spec (seq 0 n) inds) as [H1 H2].
  split; [apply SSorted_klt_lt, H1|]. intros i. unfold indices_complement.
  rewrite H2, in_seq. split; intros [G1 G2]; split; auto; lia.
Qed.

Lemma SSorted_lt_NoDup l : StronglySorted lt l -> NoDup l.
Proof. intros H. apply sorted_NoDup. apply SSorted_klt_lt. exact H. Qed.

Lemma indices_complement_permutation inds n :
  NoDup inds -> Forall (fun i => i < n) inds ->
  Permutation (inds ++ indices_complement inds n) (seq 0 n).
Proof.
  intros Hnd Hr. destruct (indices_complement_spec inds n) as [H1 H2].
  rewrite Forall_forall in Hr.
  apply NoDup_Permutation.
  - apply NoDup_app_intro; [exact Hnd|apply SSorted_lt_NoDup, H1|].
    intros i Hi Hc. apply H2 in Hc. tauto.
  - apply seq_NoDup.
  - intros i. rewrite in_app_iff, H2, in_seq. split.
    + intros [Hi|[Hi _]]; [apply Hr in Hi|]; lia.
    + intros Hi. destruct (in_dec Nat.eq_dec i inds); [left; assumption|right].
      split; [lia|assumption].
Qed.

Lemma indices_from_groups_spec {K} `{OrdKey K} (m : smap K (list nat)) ks :
  (forall out, indices_from_groups m ks = Ok out <->
     exists ls, Forall2 (fun k l => mfind k m = Some l) ks ls /\ out = concat ls) /\
  ((exists k, In k ks /\ mfind k m = None) -> indices_from_groups m ks = Throw).
Proof.
  induction ks as [|k ks [IH1 IH2]]; cbn.
  - split.
    + intros out. split.
      * intros E. injection E as <-. exists []. split; [constructor|reflexivity].
      * intros [ls [Hf ->]]. inversion Hf; reflexivity.
    + intros [k [[] _]].
  - unfold mat. split.
    + intros out. destruct (mfind k m) as [l|] eqn:E; cbn.
      * rewrite bind_ok. split.
        -- intros [r [Hr Eo]]. injection Eo as <-. apply IH1 in Hr as [ls [Hf ->]].
           exists (l :: ls). split; [constructor; assumption|reflexivity].
        -- intros [ls [Hf ->]]. inversion Hf as [|? l' ? ls' Hl Hf']; subst.
           exists (concat ls'). split; [apply IH1; eauto|]. cbn. congruence.
      * split; [discriminate|]. intros [ls [Hf _]].
        inversion Hf; subst; congruence.
    + intros [k' [[->|Hk] Hn]].
      * rewrite Hn. reflexivity.
      * destruct (mfind k m) as [l|] eqn:E; cbn; [|reflexivity].
        rewrite IH2 by eauto. reflexivity.
Qed.

(* ---------------- filter ---------------- *)

Lemma filter_vector_eq {A} (l : list A) p : filter_vector l p = filter p l.
Proof. induction l as [|x l IH]; cbn; [reflexivity|]. rewrite IH. reflexivity. Qed.

Lemma filter_set_spec {K} `{OrdKey K} (s : list K) p :
  StronglySorted klt (filter_set s p) /\
  forall k, In k (filter_set s p) <-> In k s /\ p k = true.
Proof.
  unfold filter_set.
  assert (forall acc, StronglySorted klt acc ->
    StronglySorted klt (fold_left (fun out k => if p k then sinsert k out else out) s acc) /\
    forall k, In k (fold_left (fun out k => if p k then sinsert k out else out) s acc) <->
      In k acc \/ (In k s /\ p k = true)) as G.
  { induction s as [|a s IH]; intros acc Hacc; cbn.
    - split; [exact Hacc|]. tauto.
    - destruct (p a) eqn:E.
      + destruct (IH (sinsert a acc)) as [H1 H2]; [apply sorted_sinsert, Hacc|].
        split; [exact H1|]. intros k. rewrite H2, In_sinsert. split; [|firstorder].
        intros [[->|H3]|[H3 H4]]; auto.
      + destruct (IH acc Hacc) as [H1 H2]. split; [exact H1|]. intros k. rewrite H2. split.
        * intros [H3|[H3 H4]]; auto.
        * intros [H3|[[->|H3] H4]]; auto. congruence. }
  destruct (G []) as [H1 H2]; [constructor|]. split; [exact H1|].
  intros k. rewrite H2. cbn. tauto.
Qed.

Lemma fold_emplace_find {K V W} `{OrdKey K} (c : K -> V -> bool) (f : K -> V -> W)
  (m : smap K V) (acc : smap K W) :
  wf_map acc -> wf_map m ->
  let r := fold_left (fun out kv => if c (fst kv) (snd kv)
             then memplace (fst kv) (f (fst kv) (snd kv)) out else out) m acc in
  wf_map r /\
  forall k, mfind k r =
    match mfind k acc with
    | Some w => Some w
    | None => match mfind k m with
              | Some v => if c k v then Some (f k v) else None
              | None => None
              end
    end.
Proof.
  revert acc. induction m as [|[k1 v1] m IH]; intros acc Hacc Hm; cbn.
  - split; [exact Hacc|]. intros k. destruct (mfind k acc); reflexivity.
  - apply wf_cons in Hm as [Hm Hf].
    destruct (c k1 v1) eqn:Ec.
    + destruct (IH (memplace k1 (f k1 v1) acc)) as [H1 H2];
        [apply wf_memplace, Hacc|exact Hm|].
      split; [exact H1|]. intros k. rewrite H2, mfind_memplace by exact Hacc.
      destruct (mfind k acc); [reflexivity|].
      destruct (kcmp k k1) eqn:E.
      * apply kcmp_eq in E. subst k. rewrite keqb_refl, Ec. reflexivity.
      * unfold keqb. rewrite E. rewrite mfind_lt_None; [reflexivity|].
        eapply Forall_impl; [|exact Hf]. intros a Ha. eapply klt_trans; eauto.
      * unfold keqb. rewrite E. reflexivity.
    + destruct (IH acc Hacc Hm) as [H1 H2]. split; [exact H1|].
      intros k. rewrite H2. destruct (mfind k acc); [reflexivity|].
      destruct (kcmp k k1) eqn:E.
      * apply kcmp_eq in E. subst k. rewrite (mfind_lt_None _ _ Hf), Ec. reflexivity.
      * rewrite mfind_lt_None; [reflexivity|].
        eapply Forall_impl; [|exact Hf]. intros a Ha. eapply klt_trans; eauto.
      * reflexivity.
Qed.

Lemma filter_map_spec {K V} `{OrdKey K} (m : smap K V) (p : K -> V -> bool) :
  wf_map m ->
  wf_map (filter_map m p) /\
  forall k v, mfind k (filter_map m p) = Some v <-> mfind k m = Some v /\ p k v = true.
Proof.
  intros Hwf.
  destruct (fold_emplace_find p (fun _ v => v) m [] wf_nil Hwf) as [H1 H2].
  split; [exact H1|]. intros k v. unfold filter_map. rewrite H2. cbn.
  destruct (mfind k m) as [v'|]; [|split; [discriminate|intros [E _]; discriminate]].
  destruct (p k v') eqn:E; split.
  - intros G. injection G as ->. auto.
  - intros [G _]; exact G.
  - discriminate.
  - intros [G1 G2]. congruence.
Qed.

Lemma apply_map_spec {K V W} `{OrdKey K} (m : smap K V) (f : K -> V -> W) :
  wf_map m ->
  apply_map m f = map (fun kv => (fst kv, f (fst kv) (snd kv))) m.
Proof.
  intros Hwf.
  destruct (fold_emplace_find (fun _ _ => true) f m [] wf_nil Hwf) as [H1 H2].
  cbn in H1, H2. apply map_ext_find; [exact H1|apply wf_map_map, Hwf|].
  intros k. unfold apply_map. rewrite H2, mfind_map. cbn.
  destruct (mfind k m); reflexivity.
Qed.

Lemma counts_spec {K} `{OrdKey K} (m : smap K (list nat)) :
  wf_map m -> counts m = map (fun kv => (fst kv, length (snd kv))) m.
Proof. intros Hwf. exact (apply_map_spec m (fun _ l => length l) Hwf). Qed.

Lemma inds_to_keep_spec {A} (xs : list A) p s :
  StronglySorted lt (inds_to_keep xs p s) /\
  (forall i, In i (inds_to_keep xs p s) <->
     exists x, s <= i /\ nth_error xs (i - s) = Some x /\ p x = true).
Proof.
  revert s. induction xs as [|x xs IH]; intros s; cbn.
  - split; [constructor|]. intros i. split; [intros []|].
    intros [x [_ [E _]]]. destruct (i - s); discriminate.
  - destruct (IH (S s)) as [H1 H2].
    assert (forall i, In i (inds_to_keep xs p (S s)) <->
       exists y, S s <= i /\ nth_error (x :: xs) (i - s) = Some y /\ p y = true) as H3.
    { intros i. rewrite H2. split; intros [y [Hle [Hn Hp]]]; exists y;
        (split; [exact Hle|split; [|exact Hp]]).
      - replace (i - s) with (S (i - S s)) by lia. exact Hn.
      - replace (i - s) with (S (i - S s)) in Hn by lia. exact Hn. }
    destruct (p x) eqn:E.
    + split.
      * constructor; [exact H1|]. apply Forall_forall. intros i Hi.
        apply H3 in Hi as [y [Hle _]]. lia.
      * intros i. cbn [In]. rewrite H3. split.
        -- intros [<-|[y [Hle [Hn Hp]]]].
           ++ exists x. rewrite Nat.sub_diag. auto.
           ++ exists y. split; [lia|auto].
        -- intros [y [Hle [Hn Hp]]]. destruct (Nat.eq_dec s i) as [|Hne]; [left; assumption|].
           right. exists y. split; [lia|auto].
    + split; [exact H1|]. intros i. rewrite H3. split.
      * intros [y [Hle [Hn Hp]]]. exists y. split; [lia|auto].
      * intros [y [Hle [Hn Hp]]]. exists y. split; [|auto].
        destruct (Nat.eq_dec s i) as [->|Hne]; [|lia].
        rewrite Nat.sub_diag in Hn. cbn in Hn. congruence.
Qed.

Lemma inds_to_keep_map {A} (xs : list A) p s :
  forall d, map (fun i => nth (i - s) xs d) (inds_to_keep xs p s) = filter p xs.
Proof.
  intros d. revert s. induction xs as [|x xs IH]; intros s; cbn; [reflexivity|].
  assert (map (fun i => nth (i - s) (x :: xs) d) (inds_to_keep xs p (S s)) = filter p xs) as G.
  { rewrite <- (IH (S s)). apply map_ext_in. intros i Hi.
    apply inds_to_keep_spec in Hi as [y [Hle _]].
    replace (i - s) with (S (i - S s)) by lia. reflexivity. }
  destruct (p x); cbn [map]; [|exact G].
  rewrite Nat.sub_diag. cbn [nth]. f_equal. exact G.
Qed.

Lemma subset_inds_to_keep {A} (xs : list A) p :
  subset xs (inds_to_keep xs p 0) = Ok (filter p xs).
Proof.
  destruct xs as [|x0 xs']; [reflexivity|]. set (xs := x0 :: xs').
  rewrite (subset_map x0).
  - f_equal. rewrite <- (inds_to_keep_map xs p 0 x0). apply map_ext. intros i.
    rewrite Nat.sub_0_r. reflexivity.
  - apply Forall_forall. intros i Hi. apply inds_to_keep_spec in Hi as [y [_ [Hn _]]].
    rewrite Nat.sub_0_r in Hn. apply nth_error_Some. congruence.
Qed.

(* ---------------- unique ---------------- *)

Lemma unique_value_spec {K} `{OrdKey K} (l : list K) k :
  unique_value l = Ok k <-> (l <> [] /\ forall x, In x l -> x = k).
Proof.
  unfold unique_value, unique_values.
  pose proof (sof_list_sorted l) as Hs. pose proof (sof_list_In l) as Hin.
  destruct (sof_list l) as [|a [|b s]] eqn:E.
  - split; [discriminate|]. intros [Hne _]. destruct l as [|x l]; [congruence|].
    exfalso. apply (Hin x). left; reflexivity.
  - split.
    + intros G. injection G as ->. split.
      * intros ->. apply (Hin k). left; reflexivity.
      * intros x Hx. apply Hin in Hx as [->|[]]. reflexivity.
    + intros [Hne Hall]. f_equal. apply Hall, Hin. left; reflexivity.
  - split; [discriminate|]. intros [_ Hall]. exfalso.
    assert (a = k) by (apply Hall, Hin; left; reflexivity).
    assert (b = k) by (apply Hall, Hin; right; left; reflexivity). subst.
    inversion Hs as [|? ? _ Hf]; subst. inversion Hf; subst.
    eapply klt_irrefl; eauto.
Qed.

Lemma unique_value_release_agrees {K} `{OrdKey K} (l : list K) k :
  unique_value l = Ok k -> unique_value_release l = Ok k.
Proof.
  unfold unique_value, unique_value_release.
  destruct (unique_values l) as [|a [|b s]]; congruence.
Qed.

(* ---------------- group by ---------------- *)

Section GroupBy.
Context {A K : Type} `{OrdKey K}.
Variable f : A -> K.

Definition gval (m : smap K (list nat)) k : list nat :=
  match mfind k m with Some l => l | None => [] end.

(* invariant after having processed the prefix [xs] *)
Definition GInv (xs : list A) (m : smap K (list nat)) : Prop :=
  wf_map m /\
  (forall k l, mfind k m = Some l -> l <> [] /\ StronglySorted lt l) /\
  (forall k i, In i (gval m k) <-> exists x, nth_error xs i = Some x /\ f x = k).

Lemma wf_mpush {B} k (i : B) (m : smap K (list B)) : wf_map m -> wf_map (mpush k i m).
Proof. apply wf_massign. Qed.

Lemma SSorted_snoc l i :
  StronglySorted lt l -> Forall (fun j => j < i) l -> StronglySorted lt (l ++ [i]).
Proof.
  induction 1 as [|a l Hs IH Hf]; intros Hlt; cbn.
  - repeat constructor.
  - inversion Hlt; subst. constructor; [apply IH; assumption|].
    apply Forall_app. split; [exact Hf|]. repeat constructor. assumption.
Qed.

Lemma nth_error_snoc (xs : list A) x i y :
  nth_error (xs ++ [x]) i = Some y <->
  nth_error xs i = Some y \/ (i = length xs /\ y = x).
Proof.
  destruct (Nat.lt_ge_cases i (length xs)) as [Hlt|Hge].
  - rewrite nth_error_app1 by exact Hlt. split; [auto|]. intros [E|[E _]]; [exact E|lia].
  - rewrite nth_error_app2 by exact Hge. split.
    + destruct (i - length xs) as [|[|n]] eqn:E; cbn; try discriminate.
      intros G. injection G as ->. right. split; [lia|reflexivity].
    + intros [E|[-> ->]].
      * assert (i < length xs) by (apply nth_error_Some; congruence). lia.
      * rewrite Nat.sub_diag. reflexivity.
Qed.

Lemma GInv_step xs m x :
  GInv xs m ->
  GInv (xs ++ [x]) (fst (build_step f (m, length xs) x)).
Proof.
  intros [Hwf [Hne Hin]]. unfold build_step; cbn.
  set (m1 := if mcontains (f x) m then m else massign (f x) [] m).
  assert (wf_map m1) as Hwf1.
  { unfold m1. destruct (mcontains (f x) m); [exact Hwf|apply wf_massign, Hwf]. }
  assert (forall k, gval m1 k = gval m k) as Hg1.
  { intros k. unfold m1, mcontains. destruct (mfind (f x) m) as [l|] eqn:E; [reflexivity|].
    unfold gval. rewrite mfind_massign by exact Hwf.
    destruct (keqb_spec k (f x)) as [->|]; [rewrite E|]; reflexivity. }
  assert (forall k, k <> f x -> mfind k m1 = mfind k m) as Hf1.
  { intros k Hk. unfold m1. destruct (mcontains (f x) m); [reflexivity|].
    apply mfind_massign_neq; assumption. }
  assert (forall k, gval (mpush (f x) (length xs) m1) k =
     if keqb k (f x) then gval m (f x) ++ [length xs] else gval m k) as Hg.
  { intros k. unfold gval at 1, mpush. rewrite mfind_massign by exact Hwf1.
    destruct (keqb_spec k (f x)) as [->|Hk].
    - rewrite <- Hg1. unfold gval. destruct (mfind (f x) m1); reflexivity.
    - rewrite Hf1 by exact Hk. reflexivity. }
  split; [apply wf_mpush, Hwf1|]. split.
  - intros k l Hl. unfold mpush in Hl. rewrite mfind_massign in Hl by exact Hwf1.
    destruct (keqb_spec k (f x)) as [->|Hk].
    + injection Hl as <-. split; [destruct (mfind (f x) m1) as [[|]|]; discriminate|].
      fold (gval m1 (f x)). rewrite Hg1. apply SSorted_snoc.
      * unfold gval. destruct (mfind (f x) m) as [l|] eqn:E; [|constructor].
        apply (Hne _ _ E).
      * apply Forall_forall. intros j Hj. apply Hin in Hj as [y [Hy _]].
        apply nth_error_Some. congruence.
    + rewrite Hf1 in Hl by exact Hk. apply (Hne _ _ Hl).
  - intros k i. rewrite Hg. destruct (keqb_spec k (f x)) as [->|Hk].
    + rewrite in_app_iff, Hin. cbn. split.
      * intros [[y [Hy Ey]]|[<-|[]]].
        -- exists y. split; [apply nth_error_snoc; left; exact Hy|exact Ey].
        -- exists x. split; [apply nth_error_snoc; right; auto|reflexivity].
      * intros [y [Hy Ey]]. apply nth_error_snoc in Hy as [Hy|[-> ->]]; [left; eauto|].
        right; left; reflexivity.
    + rewrite Hin. split; intros [y [Hy Ey]]; exists y; (split; [|exact Ey]).
      * apply nth_error_snoc; left; exact Hy.
      * apply nth_error_snoc in Hy as [Hy|[-> ->]]; [exact Hy|congruence].
Qed.

Lemma build_fold_spec xs done m :
  GInv done m ->
  exists m', fold_left (build_step f) xs (m, length done) = (m', length (done ++ xs)) /\
             GInv (done ++ xs) m'.
Proof.
  revert done m. induction xs as [|x xs IH]; intros done m Hinv; cbn [fold_left].
  - exists m. rewrite app_nil_r. auto.
  - pose proof (GInv_step _ _ x Hinv) as Hstep.
    remember (build_step f (m, length done) x) as st eqn:Est.
    assert (st = (fst st, length (done ++ [x]))) as ->.
    { subst st. unfold build_step. cbn. rewrite app_length, Nat.add_1_r. reflexivity. }
    cbn [fst] in Hstep.
    destruct (IH _ _ Hstep) as [m' [E Hm']]. exists m'.
    rewrite <- app_assoc in E, Hm'. cbn in E, Hm'. auto.
Qed.

Lemma build_indexer_inv xs : GInv xs (build_indexer f xs).
Proof.
  destruct (build_fold_spec xs [] []) as [m [E Hm]].
  - split; [apply wf_nil|]. split; [intros k l E; discriminate|].
    intros k i. cbn. split; [intros []|]. intros [x [E _]]. destruct i; discriminate.
  - replace (build_indexer f xs) with m; [exact Hm|]. exact (eq_sym (f_equal fst E)).
Qed.

Lemma build_indexer_spec xs :
  wf_map (build_indexer f xs) /\
  (forall i x, nth_error xs i = Some x ->
     exists l, mfind (f x) (build_indexer f xs) = Some l /\ In i l) /\
  (forall k l i, mfind k (build_indexer f xs) = Some l -> In i l ->
     exists x, nth_error xs i = Some x /\ f x = k) /\
  (forall k l, mfind k (build_indexer f xs) = Some l ->
     l <> [] /\ StronglySorted lt l).
Proof.
  destruct (build_indexer_inv xs) as [Hwf [Hne Hin]].
  split; [exact Hwf|]. split; [|split].
  - intros i x Hx. assert (In i (gval (build_indexer f xs) (f x))) as Hi.
    { apply Hin. eauto. }
    unfold gval in Hi. destruct (mfind (f x) (build_indexer f xs)) as [l|]; [eauto|destruct Hi].
  - intros k l i Hl Hi. apply Hin. unfold gval. rewrite Hl. exact Hi.
  - exact Hne.
Qed.

Lemma build_indexer_keys xs k :
  In k (mkeys (build_indexer f xs)) <-> exists x, In x xs /\ f x = k.
Proof.
  destruct (build_indexer_spec xs) as [Hwf [H1 [H2 H3]]].
  rewrite mfind_Some_key by exact Hwf. split.
  - intros [l Hl]. destruct (H3 _ _ Hl) as [Hne _]. destruct l as [|i l]; [congruence|].
    destruct (H2 k _ i Hl (or_introl eq_refl)) as [x [Hx E]]. exists x.
    split; [eapply nth_error_In; eauto|exact E].
  - intros [x [Hx <-]]. apply In_nth_error in Hx as [i Hi].
    destruct (H1 i x Hi) as [l [Hl _]]. eauto.
Qed.
End GroupBy.

(* Abstract partition facts about an indexer *)
Section Partition.
Context {K : Type} `{OrdKey K}.

Lemma concat_partition_NoDup (m : smap K (list nat)) :
  wf_map m ->
  (forall k l, mfind k m = Some l -> NoDup l) ->
  (forall k1 l1 k2 l2 i, mfind k1 m = Some l1 -> mfind k2 m = Some l2 ->
     In i l1 -> In i l2 -> k1 = k2) ->
  NoDup (concat (mvals m)).
Proof.
  induction m as [|[k l] m IH]; intros Hwf Hnd Hdis; cbn; [constructor|].
  pose proof (mfind_In k l ((k, l) :: m) Hwf) as Hfind.
  assert (forall k' l', mfind k' m = Some l' -> mfind k' ((k, l) :: m) = Some l') as Hlift.
  { intros k' l' Hl'. apply mfind_In; [exact Hwf|]. right. apply mfind_In_keys, Hl'. }
  pose proof Hwf as Hwf0. apply wf_cons in Hwf as [Hwf Hf].
  assert (mfind k ((k, l) :: m) = Some l) as Hk by (apply Hfind; left; reflexivity).
  apply NoDup_app_intro.
  - apply (Hnd k), Hk.
  - apply IH; [exact Hwf| |].
    + intros k' l' Hl'. apply (Hnd k'), Hlift, Hl'.
    + intros k1 l1 k2 l2 i H1 H2. apply Hdis; apply Hlift; assumption.
  - intros i Hi Hc. apply in_concat in Hc as [l' [Hl' Hi']].
    unfold mvals in Hl'. apply in_map_iff in Hl' as [[k' l''] [E Hin]]. cbn in E; subst l''.
    apply mfind_In in Hin; [|exact Hwf].
    assert (k = k') as <- by (eapply Hdis; eauto).
    rewrite (mfind_lt_None _ _ Hf) in Hin. discriminate.
Qed.

Lemma in_concat_mvals (m : smap K (list nat)) i :
  wf_map m ->
  (In i (concat (mvals m)) <-> exists k l, mfind k m = Some l /\ In i l).
Proof.
  intros Hwf. rewrite in_concat. unfold mvals. split.
  - intros [l [Hl Hi]]. apply in_map_iff in Hl as [[k l'] [E Hin]]. cbn in E; subst l'.
    exists k, l. split; [apply mfind_In; assumption|exact Hi].
  - intros [k [l [Hl Hi]]]. exists l. split; [|exact Hi].
    apply mfind_In_keys in Hl. apply in_map_iff. exists (k, l). auto.
Qed.

Lemma partition_concat_permutation (m : smap K (list nat)) n :
  indexer_partitions m n -> Permutation (concat (mvals m)) (seq 0 n).
Proof.
  intros [Hwf [H1 [H2 H3]]]. apply NoDup_Permutation.
  - apply concat_partition_NoDup; [exact Hwf| |exact H3].
    intros k l Hl. apply SSorted_lt_NoDup, (H1 k l Hl).
  - apply seq_NoDup.
  - intros i. rewrite in_concat_mvals by exact Hwf. rewrite in_seq. split.
    + intros [k [l [Hl Hi]]]. destruct (H1 k l Hl) as [_ [_ Hr]].
      rewrite Forall_forall in Hr. specialize (Hr i Hi). lia.
    + intros Hi. apply H2. lia.
Qed.
End Partition.

Lemma build_indexer_partitions {A K} `{OrdKey K} (f : A -> K) xs :
  indexer_partitions (build_indexer f xs) (length xs).
Proof.
  destruct (build_indexer_spec f xs) as [Hwf [H1 [H2 H3]]].
  split; [exact Hwf|]. split; [|split].
  - intros k l Hl. destruct (H3 _ _ Hl) as [G1 G2]. split; [exact G1|]. split; [exact G2|].
    apply Forall_forall. intros i Hi. destruct (H2 _ _ _ Hl Hi) as [x [Hx _]].
    apply nth_error_Some. congruence.
  - intros i Hi. destruct (nth_error xs i) as [x|] eqn:E.
    + destruct (H1 i x E) as [l [Hl Hin]]. eauto.
    + apply nth_error_None in E. lia.
  - intros k1 l1 k2 l2 i E1 E2 I1 I2.
    destruct (H2 _ _ _ E1 I1) as [x [Hx Ex]]. destruct (H2 _ _ _ E2 I2) as [y [Hy Ey]].
    congruence.
Qed.

(* ---------------- leave one out, k fold ---------------- *)

Lemma build_loo_indexer_spec {A} (xs : list A) :
  build_loo_indexer xs = map (fun i => (i, [i])) (seq 0 (length xs)).
Proof.
  unfold build_loo_indexer.
  assert (forall done, fold_left (fun '(output, i) (_ : A) => (massign i [i] output, S i)) xs
     (map (fun i => (i, [i])) (seq 0 done), done) =
     (map (fun i => (i, [i])) (seq 0 (done + length xs)), done + length xs)) as G.
  { induction xs as [|x xs IH]; intros done; cbn [fold_left length].
    - rewrite Nat.add_0_r. reflexivity.
    - rewrite massign_snoc.
      + replace (map (fun i => (i, [i])) (seq 0 done) ++ [(done, [done])])
          with (map (fun i => (i, [i])) (seq 0 (S done))).
        * rewrite IH. rewrite Nat.add_succ_r. reflexivity.
        * rewrite seq_S, map_app. reflexivity.
      + apply Forall_forall. unfold mkeys. intros k Hk. rewrite map_map in Hk. cbn in Hk.
        rewrite map_id in Hk. apply in_seq in Hk. apply klt_nat. lia. }
  specialize (G 0). cbn [seq map] in G. rewrite G. reflexivity.
Qed.

(* i mod k groups are the groups of the grouper "position mod k" *)
Lemma kfold_as_grouper {A} k (xs : list A) :
  0 < k ->
  build_kfold_indexer k xs = Ok (build_indexer (fun i => i mod k) (seq 0 (length xs))).
Proof.
  intros Hk. unfold build_kfold_indexer, build_indexer.
  assert (forall (m : smap nat (list nat)) s, wf_map m ->
    foldM (fun '(output, i) (_ : A) => if k =? 0 then UB
             else Ok (mpush (i mod k) i output, S i)) xs (m, s) =
    Ok (fold_left (build_step (fun i => i mod k)) (seq s (length xs)) (m, s))) as G.
  { induction xs as [|x xs IH]; intros m s Hwf; cbn [foldM length seq fold_left]; [reflexivity|].
    rewrite (proj2 (Nat.eqb_neq k 0)) in * by lia. cbn [bind].
    assert (build_step (fun i => i mod k) (m, s) s = (mpush (s mod k) s m, S s)) as ->.
    { unfold build_step, mcontains. destruct (mfind (s mod k) m) as [l|] eqn:E; [reflexivity|].
      f_equal. apply map_ext_find.
      - apply wf_mpush, wf_massign, Hwf.
      - apply wf_mpush, Hwf.
      - intros j. unfold mpush.
        rewrite mfind_massign_eq, E by exact Hwf.
        rewrite !mfind_massign; try exact Hwf; [|apply wf_massign, Hwf].
        destruct (keqb j (s mod k)); reflexivity. }
    apply IH, wf_mpush, Hwf. }
  rewrite G by apply wf_nil. reflexivity.
Qed.

Lemma build_kfold_spec {A} k (xs : list A) :
  0 < k ->
  exists m, build_kfold_indexer k xs = Ok m /\
    indexer_partitions m (length xs) /\
    mkeys m = seq 0 (Nat.min k (length xs)) /\
    (forall j l, mfind j m = Some l ->
       forall i, In i l <-> i < length xs /\ i mod k = j).
Proof.
  intros Hk. exists (build_indexer (fun i => i mod k) (seq 0 (length xs))).
  split; [apply kfold_as_grouper, Hk|].
  pose proof (build_indexer_partitions (fun i => i mod k) (seq 0 (length xs))) as Hp.
  rewrite seq_length in Hp. split; [exact Hp|].
  destruct (build_indexer_spec (fun i => i mod k) (seq 0 (length xs))) as [Hwf [H1 [H2 H3]]].
  split.
  - apply sorted_ext.
    + exact Hwf.
    + apply SSorted_klt_lt. clear. generalize (Nat.min k (length xs)) 0.
      induction n as [|n IH]; intros s; cbn; constructor; [apply IH|].
      apply Forall_forall. intros j Hj. apply in_seq in Hj. lia.
    + intros j. rewrite build_indexer_keys, in_seq. split.
      * intros [i [Hi <-]]. apply in_seq in Hi.
        pose proof (Nat.mod_upper_bound i k) as Hb.
        pose proof (Nat.mod_le i k) as Hle. lia.
      * intros Hj. exists j. split; [apply in_seq; lia|]. apply Nat.mod_small. lia.
  - intros j l Hl i. split.
    + intros Hi. destruct (H2 _ _ _ Hl Hi) as [x [Hx E]].
      rewrite nth_error_seq in Hx. destruct (Nat.ltb_spec i (length xs)); [|discriminate].
      injection Hx as <-. auto.
    + intros [Hi E]. destruct (H1 i i) as [l' [Hl' Hin]].
      { rewrite nth_error_seq. destruct (Nat.ltb_spec i (length xs)); [reflexivity|lia]. }
      rewrite E in Hl'. congruence.
Qed.

Lemma kfold_zero {A} (xs : list A) :
  build_kfold_indexer 0 xs = if length xs =? 0 then Ok [] else UB.
Proof. destruct xs; reflexivity. Qed.

(* sizes of the folds *)
Lemma filter_mod_count k j n :
  0 < k -> j < k ->
  length (filter (fun i => i mod k =? j) (seq 0 n)) = (n + (k - 1 - j)) / k.
Proof.
  intros Hk Hj. induction n as [|n IH].
  - cbn. symmetry. apply Nat.div_small. lia.
  - rewrite seq_S, filter_app, app_length, IH. cbn [filter Nat.add].
    destruct (Nat.eqb_spec (n mod k) j) as [E|E]; cbn [length].
    + assert (n = k * (n / k) + j) as Hn by (rewrite <- E; apply Nat.div_mod; lia).
      set (q := n / k) in *.
      replace (S (n + (k - 1 - j))) with (0 + (S q) * k) by nia.
      replace (n + (k - 1 - j)) with ((k - 1) + q * k) by nia.
      rewrite !Nat.div_add by lia. rewrite (Nat.div_small (k - 1)) by lia.
      rewrite Nat.div_0_l by lia. lia.
    + pose proof (Nat.div_mod n k) as Hn. pose proof (Nat.mod_upper_bound n k) as Hr.
      set (q := n / k) in *. set (r := n mod k) in *.
      rewrite Nat.add_0_r.
      destruct (Nat.lt_ge_cases j r) as [Hlt|Hge].
      * replace (S (n + (k - 1 - j))) with ((r - j) + (S q) * k) by nia.
        replace (n + (k - 1 - j)) with ((r - 1 - j) + (S q) * k) by nia.
        rewrite !Nat.div_add by lia. rewrite !Nat.div_small by lia. reflexivity.
      * replace (S (n + (k - 1 - j))) with ((S r + (k - 1 - j)) + q * k) by nia.
        replace (n + (k - 1 - j)) with ((r + (k - 1 - j)) + q * k) by nia.
        rewrite !Nat.div_add by lia. rewrite !Nat.div_small by lia. reflexivity.
Qed.

Lemma SSorted_lt_filter p l : StronglySorted lt l -> StronglySorted lt (filter p l).
Proof.
  induction 1 as [|a l Hs IH Hf]; cbn; [constructor|].
  destruct (p a); [|exact IH]. constructor; [exact IH|].
  rewrite Forall_forall in *. intros b Hb. apply filter_In in Hb. apply Hf, Hb.
Qed.

Lemma SSorted_seq s n : StronglySorted lt (seq s n).
Proof.
  revert s. induction n as [|n IH]; intros s; cbn; constructor; [apply IH|].
  apply Forall_forall. intros j Hj. apply in_seq in Hj. lia.
Qed.

Lemma SSorted_lt_ext l l' :
  StronglySorted lt l -> StronglySorted lt l' ->
  (forall k, In k l <-> In k l') -> l = l'.
Proof. intros H1 H2. apply sorted_ext; apply SSorted_klt_lt; assumption. Qed.

Lemma kfold_group_is_filter {A} k (xs : list A) m j l :
  0 < k -> build_kfold_indexer k xs = Ok m -> mfind j m = Some l ->
  l = filter (fun i => i mod k =? j) (seq 0 (length xs)).
Proof.
  intros Hk Hm Hl. destruct (build_kfold_spec k xs Hk) as [m' [Hm' [Hp [_ Hin]]]].
  rewrite Hm in Hm'. injection Hm' as <-.
  destruct Hp as [_ [Hp _]]. apply SSorted_lt_ext.
  - apply (Hp j l Hl).
  - apply SSorted_lt_filter, SSorted_seq.
  - intros i. rewrite (Hin j l Hl), filter_In, in_seq, Nat.eqb_eq. intuition lia.
Qed.

Lemma kfold_balanced {A} k (xs : list A) m j1 l1 j2 l2 :
  0 < k -> build_kfold_indexer k xs = Ok m ->
  mfind j1 m = Some l1 -> mfind j2 m = Some l2 ->
  length l1 <= S (length l2).
Proof.
  intros Hk Hm H1 H2.
  destruct (build_kfold_spec k xs Hk) as [m' [Hm' [Hp [Hkeys _]]]].
  rewrite Hm in Hm'. injection Hm' as <-.
  assert (forall j l, mfind j m = Some l -> j < k) as Hb.
  { intros j l Hj. assert (In j (mkeys m)) as Hin.
    { apply mfind_Some_key; [apply Hp|eauto]. }
    rewrite Hkeys, in_seq in Hin. lia. }
  rewrite (kfold_group_is_filter k xs m j1 l1), (kfold_group_is_filter k xs m j2 l2) by assumption.
  rewrite !filter_mod_count; eauto.
  pose proof (Hb _ _ H1). pose proof (Hb _ _ H2).
  transitivity ((length xs + (k - 1 - j2) + 1 * k) / k).
  - apply Nat.div_le_mono; lia.
  - rewrite Nat.div_add by lia. lia.
Qed.

(* ---------------- groups and combine ---------------- *)

Lemma groups_of_spec {A K} `{OrdKey K} (parent : list A) (m : smap K (list nat)) :
  wf_map m ->
  (forall k l, mfind k m = Some l -> Forall (fun i => i < length parent) l) ->
  exists g, groups_of parent m = Ok g /\ mkeys g = mkeys m /\ wf_map g /\
    (forall k l, mfind k m = Some l ->
       exists v, mfind k g = Some v /\ subset parent l = Ok v) /\
    subset parent (concat (mvals m)) = Ok (combine_groups g).
Proof.
  intros Hwf Hr. unfold groups_of.
  (* the groups in order *)
  assert (exists vs, Forall2 (fun l v => subset parent l = Ok v) (mvals m) vs) as [vs Hvs].
  { clear -Hwf Hr. induction m as [|[k l] m IH]; [exists []; constructor|].
    pose proof Hwf as Hwf0. apply wf_cons in Hwf0 as [Hwf0 Hf].
    destruct IH as [vs Hvs]; [exact Hwf0| |].
    - intros k' l' Hl'. apply (Hr k'). apply mfind_In; [exact Hwf|]. right.
      apply mfind_In_keys, Hl'.
    - destruct (subset_total parent l) as [v Hv].
      { apply (Hr k). apply mfind_In; [exact Hwf|]. left; reflexivity. }
      exists (v :: vs). constructor; assumption. }
  set (g := List.combine (mkeys m) vs).
  assert (length (mkeys m) = length vs) as Hlen.
  { apply Forall2_len in Hvs. unfold mkeys, mvals in *. rewrite map_length in *. lia. }
  assert (mkeys g = mkeys m) as Hkeys.
  { unfold g, mkeys at 1. revert Hlen. generalize (mkeys m). clear.
    intros ks. revert vs. induction ks as [|k ks IH]; intros [|v vs] E; cbn in *;
      try discriminate; auto. f_equal. apply IH. lia. }
  assert (mvals g = vs) as Hvals.
  { unfold g, mvals. revert Hlen. generalize (mkeys m). clear.
    intros ks. revert vs. induction ks as [|k ks IH]; intros [|v vs] E; cbn in *;
      try discriminate; auto. f_equal. apply IH. lia. }
  assert (wf_map g) as Hwfg.
  { unfold wf_map. change (map fst g) with (mkeys g). rewrite Hkeys. exact Hwf. }
  exists g. split; [|split; [exact Hkeys|split; [exact Hwfg|split]]].
  - (* the loop *)
    assert (forall (acc : smap K (list A)),
       (forall k k', In k (mkeys acc) -> In k' (mkeys m) -> klt k k') ->
       foldM (fun output kv => g0 <- subset parent (snd kv);; Ok (memplace (fst kv) g0 output))
         m acc = Ok (acc ++ g)) as G.
    { unfold g. clear g Hkeys Hvals Hwfg. revert vs Hvs Hlen.
      induction m as [|[k l] m IH]; intros vs Hvs Hlen acc Hacc; cbn [foldM fst snd].
      - inversion Hvs; subst. cbn. rewrite app_nil_r. reflexivity.
      - inversion Hvs as [|? v ? vs' Hv Hvs']; subst. rewrite Hv. cbn [bind].
        change (mkeys ((k, l) :: m)) with (k :: mkeys m). cbn [List.combine].
        pose proof Hwf as Hwf0. apply wf_cons in Hwf0 as [Hwf0 Hf].
        assert (memplace k v acc = acc ++ [(k, v)]) as ->.
        { unfold memplace. assert (mfind k acc = None) as ->.
          { clear -Hacc. induction acc as [|[k1 v1] acc IHa]; cbn; [reflexivity|].
            assert (klt k1 k) as Hlt by (apply Hacc; left; reflexivity).
            rewrite (proj2 (kcmp_gt _ _) Hlt). apply IHa. intros a b Ha Hb.
            apply Hacc; [right; exact Ha|exact Hb]. }
          apply massign_snoc. apply Forall_forall. intros a Ha. apply Hacc; [exact Ha|left; reflexivity]. }
        change ((k, v) :: List.combine (mkeys m) vs') with ([(k, v)] ++ List.combine (mkeys m) vs').
        rewrite app_assoc. apply IH.
        + exact Hwf0.
        + intros k' l' Hl'. apply (Hr k'). apply mfind_In; [exact Hwf|]. right.
          apply mfind_In_keys, Hl'.
        + exact Hvs'.
        + injection Hlen as Hlen. exact Hlen.
        + intros a b Ha Hb. unfold mkeys in Ha. rewrite map_app, in_app_iff in Ha.
          destruct Ha as [Ha|[<-|[]]].
          * apply Hacc; [exact Ha|right; exact Hb].
          * rewrite Forall_forall in Hf. apply Hf, Hb. }
    rewrite (G []); [reflexivity|]. intros k k' [].
  - intros k l Hl. apply mfind_In in Hl; [|exact Hwf].
    apply In_nth_error in Hl as [p Hp].
    assert (nth_error (mvals m) p = Some l) as Hpl.
    { unfold mvals. rewrite nth_error_map', Hp. reflexivity. }
    assert (nth_error (mkeys m) p = Some k) as Hpk.
    { unfold mkeys. rewrite nth_error_map', Hp. reflexivity. }
    destruct (Forall2_nth_error _ _ _ Hvs _ _ Hpl) as [v [Hv Hs]].
    exists v. split; [|exact Hs]. apply mfind_In; [exact Hwfg|].
    apply nth_error_In with p. unfold g.
    clear -Hpk Hv. revert p vs Hpk Hv. generalize (mkeys m). intros ks.
    induction ks as [|a ks IH]; intros [|p] [|b vs] H1 H2; cbn in *; try discriminate.
    + congruence.
    + apply IH; assumption.
  - unfold combine_groups. rewrite Hvals. clear -Hvs.
    induction Hvs as [|l v ls vs Hv Hvs IH]; cbn; [reflexivity|].
    apply subset_app; assumption.
Qed.

Lemma group_by_groups_spec {A K} `{OrdKey K} (f : A -> K) (xs : list A) :
  exists g, groups_of xs (build_indexer f xs) = Ok g /\ wf_map g /\
    (forall k, mfind k g =
       match filter (fun x => keqb (f x) k) xs with
       | [] => None
       | l => Some l
       end) /\
    Permutation (combine_groups g) xs.
Proof.
  pose proof (build_indexer_partitions f xs) as Hp.
  destruct (build_indexer_spec f xs) as [Hwf [H1 [H2 H3]]].
  destruct (groups_of_spec xs (build_indexer f xs) Hwf) as [g [Hg [Hkeys [Hwfg [Hfind Hcomb]]]]].
  { intros k l Hl. apply Hp in Hl. apply Hl. }
  exists g. split; [exact Hg|]. split; [exact Hwfg|]. split.
  - intros k. destruct (mfind k (build_indexer f xs)) as [l|] eqn:E.
    + destruct (Hfind k l E) as [v [Hv Hs]]. rewrite Hv.
      assert (l = inds_to_keep xs (fun x => keqb (f x) k) 0) as ->.
      { apply SSorted_lt_ext; [apply (H3 k), E|apply inds_to_keep_spec|].
        intros i. destruct (inds_to_keep_spec xs (fun x => keqb (f x) k) 0) as [_ Hk].
        rewrite Hk, Nat.sub_0_r. split.
        - intros Hi. destruct (H2 k l i E Hi) as [x [Hx <-]]. exists x.
          split; [lia|]. split; [exact Hx|apply keqb_refl].
        - intros [x [_ [Hx Ex]]]. apply keqb_eq in Ex. subst k.
          destruct (H1 i x Hx) as [l' [Hl' Hi]]. congruence. }
      rewrite subset_inds_to_keep in Hs. injection Hs as <-.
      destruct (filter (fun x => keqb (f x) k) xs) eqn:Ef; [|reflexivity].
      exfalso. destruct (H3 _ _ E) as [Hne _]. apply Hne.
      pose proof (subset_inds_to_keep xs (fun x => keqb (f x) k)) as Hs.
      rewrite Ef in Hs. apply subset_ok_iff in Hs as [Hl _]. cbn in Hl.
      destruct (inds_to_keep xs (fun x => keqb (f x) k) 0); [reflexivity|discriminate].
    + assert (mfind k g = None) as ->.
      { apply mfind_None; [exact Hwfg|]. rewrite Hkeys. apply mfind_None; assumption. }
      destruct (filter (fun x => keqb (f x) k) xs) as [|x l] eqn:Ef; [reflexivity|].
      exfalso. assert (In x (filter (fun x => keqb (f x) k) xs)) as Hx
        by (rewrite Ef; left; reflexivity).
      apply filter_In in Hx as [Hx Ex]. apply keqb_eq in Ex.
      apply mfind_None in E; [|exact Hwf]. apply E. apply build_indexer_keys. eauto.
  - destruct xs as [|d xs'].
    { cbn in Hg. injection Hg as <-. constructor. }
    set (xs := d :: xs') in *. clearbody xs.
    apply partition_concat_permutation in Hp.
    assert (Forall (fun i => i < length xs) (concat (mvals (build_indexer f xs)))) as Hr.
    { apply subset_in_range in Hcomb. exact Hcomb. }
    rewrite (subset_map d) in Hcomb by exact Hr. injection Hcomb as <-.
    apply (Permutation_map (fun k => nth k xs d)) in Hp.
    eapply Permutation_trans; [exact Hp|].
    pose proof (subset_seq_all xs) as Hs. rewrite (subset_map d) in Hs.
    + assert (Hs' : map (fun k => nth k xs d) (seq 0 (length xs)) = xs) by congruence.
      rewrite Hs'. apply Permutation_refl.
    + apply Forall_forall. intros i Hi. apply in_seq in Hi. lia.
Qed.

Lemma get_group_spec {A K} `{OrdKey K} (f : A -> K) (xs : list A) k :
  ((exists x, In x xs /\ f x = k) ->
     get_group xs (build_indexer f xs) k = Ok (filter (fun x => keqb (f x) k) xs)) /\
  ((forall x, In x xs -> f x <> k) -> get_group xs (build_indexer f xs) k = Throw).
Proof.
  destruct (group_by_groups_spec f xs) as [g [Hg [Hwfg [Hfind _]]]].
  destruct (build_indexer_spec f xs) as [Hwf [H1 [H2 H3]]].
  destruct (groups_of_spec xs (build_indexer f xs) Hwf) as [g' [Hg' [_ [_ [Hf' _]]]]].
  { intros k0 l Hl. apply (build_indexer_partitions f xs) in Hl. apply Hl. }
  rewrite Hg in Hg'. injection Hg' as <-.
  unfold get_group, mat. split.
  - intros Hex. apply build_indexer_keys, mfind_Some_key in Hex; [|exact Hwf].
    destruct Hex as [l Hl]. rewrite Hl. cbn.
    destruct (Hf' k l Hl) as [v [Hv Hs]]. rewrite Hs.
    rewrite Hfind in Hv. destruct (filter (fun x => keqb (f x) k) xs); congruence.
  - intros Hno. assert (mfind k (build_indexer f xs) = None) as ->; [|reflexivity].
    apply mfind_None; [exact Hwf|]. rewrite build_indexer_keys. intros [x [Hx E]].
    exact (Hno x Hx E).
Qed.

(* ---------------- min / max ---------------- *)

Lemma min_entry_spec {K V} (lt : V -> V -> bool) (m : smap K V) kv :
  (forall a b c, lt a b = true -> lt b c = true -> lt a c = true) ->
  (forall a, lt a a = false) ->
  (forall a b c, lt a b = false -> lt b c = false -> lt a c = false) ->
  min_entry lt m = Ok kv ->
  In kv m /\ forall x, In x m -> lt (snd x) (snd kv) = false.
Proof.
  intros Htr Hir Hco H. destruct m as [|x0 m]; [discriminate|]. cbn in H. injection H as <-.
  revert x0. induction m as [|y m IH]; intros x0; cbn.
  - split; [left; reflexivity|]. intros x [<-|[]]. apply Hir.
  - destruct (lt (snd y) (snd x0)) eqn:E.
    + destruct (IH y) as [H1 H2]. split; [right; exact H1|].
      intros x [<-|Hx]; [|apply H2, Hx].
      specialize (H2 y (or_introl eq_refl)).
      destruct (lt (snd x0) (snd (fold_left _ m y))) eqn:E2; [|reflexivity].
      rewrite (Htr _ _ _ E E2) in H2. discriminate.
    + destruct (IH x0) as [H1 H2]. split.
      * destruct H1 as [<-|H1]; [left; reflexivity|right; right; exact H1].
      * intros x [<-|[<-|Hx]]; [apply H2; left; reflexivity| |apply H2; right; exact Hx].
        apply Hco with (snd x0); [exact E|]. apply H2. left; reflexivity.
Qed.

Lemma max_entry_spec {K V} (lt : V -> V -> bool) (m : smap K V) kv :
  (forall a b c, lt a b = true -> lt b c = true -> lt a c = true) ->
  (forall a, lt a a = false) ->
  (forall a b c, lt a b = false -> lt b c = false -> lt a c = false) ->
  max_entry lt m = Ok kv ->
  In kv m /\ forall x, In x m -> lt (snd kv) (snd x) = false.
Proof.
  intros Htr Hir Hco H.
  apply (min_entry_spec (fun a b => lt b a) m kv); auto.
  - intros a b c H1 H2. eapply Htr; eauto.
  - intros a b c H1 H2. eapply Hco; eauto.
Qed.

Lemma inds_to_keep_zero_spec {A} (xs : list A) (p : A -> bool) :
  StronglySorted lt (inds_to_keep xs p 0) /\
  (forall i, In i (inds_to_keep xs p 0) <-> exists x, nth_error xs i = Some x /\ p x = true) /\
  subset xs (inds_to_keep xs p 0) = Ok (filter p xs).
Proof.
  destruct (inds_to_keep_spec xs p 0) as [H1 H2]. split; [exact H1|].
  split; [|apply subset_inds_to_keep]. intros i. rewrite H2, Nat.sub_0_r. split.
  - intros [x [_ H]]. eauto.
  - intros [x H]. exists x. split; [lia|exact H].
Qed.

From Verif Require Import Base.

Lemma Forall2_len {A B} (R : A -> B -> Prop) xs ys :
  Forall2 R xs ys -> length xs = length ys.
Proof. induction 1; cbn; congruence. Qed.

Lemma bind_ok {A B} (x : outcome A) (k : A -> outcome B) b :
  bind x k = Ok b <-> exists a, x = Ok a /\ k a = Ok b.
Proof.
  split.
  - destruct x; cbn; intros H; try discriminate. eauto.
  - intros [a [-> H]]. exact H.
Qed.

Lemma mapM_ok {A B} (f : A -> outcome B) xs ys :
  mapM f xs = Ok ys <-> Forall2 (fun x y => f x = Ok y) xs ys.
Proof.
  revert ys. induction xs as [|x xs IH]; intros ys; cbn.
  - split; intros H.
    + injection H as <-. constructor.
    + inversion H; reflexivity.
  - rewrite bind_ok. split.
    + intros [y [Hy H]]. rewrite bind_ok in H. destruct H as [ys' [H1 H2]].
      injection H2 as <-. constructor; [exact Hy|]. apply IH; exact H1.
    + intros H. inversion H as [|? y ? ys' Hy Hys]; subst.
      exists y. split; [exact Hy|]. rewrite bind_ok. exists ys'.
      split; [apply IH; exact Hys|reflexivity].
Qed.

Lemma mapM_map {A B} (f : A -> outcome B) (g : A -> B) xs :
  (forall x, In x xs -> f x = Ok (g x)) -> mapM f xs = Ok (map g xs).
Proof.
  induction xs as [|x xs IH]; cbn; intros H; [reflexivity|].
  rewrite H by (left; reflexivity). cbn.
  rewrite IH; [reflexivity|]. intros z Hz. apply H. right; exact Hz.
Qed.

Lemma mapM_not_ok_iff {A B} (f : A -> outcome B) xs :
  is_ok (mapM f xs) = forallb (fun x => is_ok (f x)) xs.
Proof.
  induction xs as [|x xs IH]; cbn; [reflexivity|].
  destruct (f x); cbn; try reflexivity.
  rewrite <- IH. destruct (mapM f xs); reflexivity.
Qed.

Lemma mapM_length {A B} (f : A -> outcome B) xs ys :
  mapM f xs = Ok ys -> length ys = length xs.
Proof. rewrite mapM_ok. intros H. symmetry. eapply Forall2_len; eauto. Qed.

Lemma Forall2_nth_error {A B} (R : A -> B -> Prop) xs ys :
  Forall2 R xs ys ->
  forall i x, nth_error xs i = Some x ->
  exists y, nth_error ys i = Some y /\ R x y.
Proof.
  induction 1 as [|x y xs ys Hxy H IH]; intros [|i] z Hz; cbn in *;
    try discriminate.
  - injection Hz as <-. eauto.
  - eauto.
Qed.

Lemma Forall2_nth_error_iff {A B} (R : A -> B -> Prop) xs ys :
  Forall2 R xs ys <->
  length xs = length ys /\
  (forall i x y, nth_error xs i = Some x -> nth_error ys i = Some y -> R x y).
Proof.
  split.
  - intros H. split; [eapply Forall2_len; eauto|].
    intros i x y Hx Hy. destruct (Forall2_nth_error _ _ _ H _ _ Hx) as [y' [Hy' HR]].
    congruence.
  - revert ys. induction xs as [|x xs IH]; intros [|y ys] [Hl H]; cbn in Hl;
      try discriminate; constructor.
    + apply (H 0); reflexivity.
    + apply IH. split; [lia|]. intros i a b Ha Hb. apply (H (S i)); assumption.
Qed.

Lemma list_ext {A} (l l' : list A) :
  (forall i, nth_error l i = nth_error l' i) -> l = l'.
Proof.
  revert l'. induction l as [|a l IH]; intros [|b l'] H.
  - reflexivity.
  - specialize (H 0). discriminate.
  - specialize (H 0). discriminate.
  - f_equal.
    + specialize (H 0). cbn in H. congruence.
    + apply IH. intros i. apply (H (S i)).
Qed.

Lemma set_nth_length {A} (l : list A) i a : length (set_nth l i a) = length l.
Proof. revert i; induction l as [|x l IH]; intros [|i]; cbn; auto. Qed.

Lemma nth_error_set_nth_eq {A} (l : list A) i a :
  i < length l -> nth_error (set_nth l i a) i = Some a.
Proof.
  revert i; induction l as [|x l IH]; intros [|i] H; cbn in *; try lia; auto.
  apply IH; lia.
Qed.

Lemma nth_error_set_nth_neq {A} (l : list A) i j a :
  i <> j -> nth_error (set_nth l i a) j = nth_error l j.
Proof.
  revert i j; induction l as [|x l IH]; intros [|i] [|j] H; cbn; auto; try lia.
Qed.

Lemma nth_error_set_nth {A} (l : list A) i j a :
  nth_error (set_nth l i a) j =
  if Nat.eqb i j then (if j <? length l then Some a else None)
  else nth_error l j.
Proof.
  destruct (Nat.eqb_spec i j) as [->|H].
  - destruct (Nat.ltb_spec j (length l)) as [Hj|Hj].
    + apply nth_error_set_nth_eq; exact Hj.
    + apply nth_error_None. rewrite set_nth_length. exact Hj.
  - apply nth_error_set_nth_neq; exact H.
Qed.

Lemma set_nth_same {A} (l : list A) i a :
  nth_error l i = Some a -> set_nth l i a = l.
Proof.
  revert i; induction l as [|x l IH]; intros [|i] H; cbn in *; try discriminate.
  - congruence.
  - rewrite IH; auto.
Qed.

Lemma nth_error_seq a n i :
  nth_error (seq a n) i = if i <? n then Some (a + i) else None.
Proof.
  destruct (Nat.ltb_spec i n) as [H|H].
  - rewrite nth_error_nth' with (d := 0) by (rewrite seq_length; exact H).
    rewrite seq_nth by exact H. reflexivity.
  - apply nth_error_None. rewrite seq_length. exact H.
Qed.

Lemma nth_error_map' {A B} (f : A -> B) l i :
  nth_error (map f l) i = option_map f (nth_error l i).
Proof. revert i; induction l as [|a l IH]; intros [|i]; cbn; auto. Qed.

Lemma NoDup_app_intro {A} (l l' : list A) :
  NoDup l -> NoDup l' -> (forall x, In x l -> ~ In x l') -> NoDup (l ++ l').
Proof.
  induction 1 as [|a l Ha Hnd IH]; intros Hnd' Hd; cbn; [exact Hnd'|].
  constructor.
  - rewrite in_app_iff. intros [Hin|Hin]; [contradiction|].
    apply (Hd a); [left; reflexivity|exact Hin].
  - apply IH; [exact Hnd'|]. intros x Hx. apply Hd. right; exact Hx.
Qed.

From Verif Require Import Base BaseProofs CompressModel CompressSpec.

Section Proofs.
Variable B : Type.
Variable zero : B.
Variable max_size : nat.
Variable ZB : nat -> nat.
Variable ZC : nat -> list B -> Z -> zstd_result B.
Variable ZG : list B -> content_size.
Variable ZD : nat -> list B -> zstd_result B.
Hypothesis H : zstd_contract B max_size ZB ZC ZG ZD.
Notation frame := (frame_of B ZG ZD).

Lemma skipn_twice (A : Type) a b (l : list A) : skipn a (skipn b l) = skipn (b + a) l.
Proof. revert l; induction b; intros [|x l]; cbn; auto using skipn_nil. Qed.
Lemma resize_nil n : n <= max_size -> resize B zero max_size [] n = Ok (repeat zero n).
Proof.
  intros L. unfold resize. destruct (Nat.ltb_spec max_size n); [lia|]. rewrite firstn_nil. cbn. now rewrite Nat.sub_0_r.
Qed.
Lemma resize_length s n s' : resize B zero max_size s n = Ok s' -> length s' = n /\ n <= max_size.
Proof.
  unfold resize. destruct (Nat.ltb_spec max_size n); [discriminate|]. intros E. injection E as <-. split; [|lia].
  rewrite app_length, firstn_length, repeat_length. lia.
Qed.
Lemma resize_ok s n : n <= max_size -> exists s', resize B zero max_size s n = Ok s' /\ length s' = n.
Proof.
  intros L. unfold resize. destruct (Nat.ltb_spec max_size n); [lia|]. eexists. split; [reflexivity|].
  rewrite app_length, firstn_length, repeat_length. lia.
Qed.

Lemma internal_compress_ok data level : fits B max_size ZB data ->
  exists c, internal_compress B zero max_size ZB ZC data level = Ok c /\ frame c data.
Proof.
  intros [_ F]. unfold internal_compress. rewrite resize_nil by exact F. cbn. rewrite repeat_length.
  destruct (zc_frame _ _ _ _ _ _ H (ZB (length data)) data level (Nat.le_refl _)) as (c & E & L & Fr). rewrite E. cbn.
  unfold write. rewrite repeat_length. destruct (Nat.ltb_spec (ZB (length data)) (length c)); [lia|]. cbn.
  exists c. split; [|exact Fr]. unfold resize. destruct (Nat.ltb_spec max_size (length c)); [lia|]. f_equal.
  rewrite firstn_app, Nat.sub_diag, firstn_all, app_length, skipn_length, repeat_length. cbn.
  replace (length c - (length c + (ZB (length data) - length c))) with 0 by lia. cbn. now rewrite !app_nil_r.
Qed.

Lemma internal_maybe_frame c src output : frame c src -> length src <= length output ->
  internal_maybe_decompress B ZG ZD c output (length src) = Ok (kOK, src ++ skipn (length src) output).
Proof.
  intros [E D] L. unfold internal_maybe_decompress. rewrite E, Nat.eqb_refl, D. cbn. unfold write.
  destruct (Nat.ltb_spec (length output) (length src)); [lia|]. cbn. now rewrite Nat.eqb_refl.
Qed.
Lemma internal_maybe_other c src output n : frame c src -> n <> length src ->
  internal_maybe_decompress B ZG ZD c output n = Ok (kZstdExpectedRequestedSizeMismatch, output).
Proof.
  intros [E D] L. unfold internal_maybe_decompress. rewrite E. destruct (Nat.eqb_spec (length src) n); [congruence|reflexivity].
Qed.
(* any input at all *)
Lemma internal_maybe_any input output n : n <= length output -> n <= max_size ->
  exists r m, internal_maybe_decompress B ZG ZD input output n = Ok (r, m) /\ length m = length output /\
    skipn n m = skipn n output /\
    (r = kOK <-> ZG input = Size n /\ exists d, length d = n /\ ZD n input = inl d) /\
    (forall d, r = kOK -> ZD n input = inl d -> firstn n m = d).
Proof.
  intros L Lm. unfold internal_maybe_decompress. destruct (ZG input) as [| |k] eqn:G.
  1,2: eexists; eexists; split; [reflexivity|]; repeat split; try (intros; discriminate); intros [X _]; discriminate.
  destruct (Nat.eqb_spec k n) as [->|N]; cbn.
  2: { eexists; eexists; split; [reflexivity|]. repeat split; try (intros; discriminate). intros [X _]. congruence. }
  pose proof (zc_bounded _ _ _ _ _ _ H n input) as W. unfold write.
  destruct (Nat.ltb_spec (length output) (length (written B (ZD n input)))); [lia|]. cbn.
  set (w := written B (ZD n input)) in *.
  assert (A : length (w ++ skipn (length w) output) = length output) by (rewrite app_length, skipn_length; lia).
  assert (S : skipn n (w ++ skipn (length w) output) = skipn n output).
  { rewrite skipn_app, skipn_all2, skipn_twice by lia. cbn. f_equal. lia. }
  destruct (Nat.eqb_spec (returned B (ZD n input)) n) as [R|R]; cbn; eexists; eexists; (split; [reflexivity|]);
    (split; [exact A|]); (split; [exact S|]).
  - destruct (ZD n input) as [d|[d code]] eqn:Z; cbn in *.
    + split; [split; auto|]. { intros _. split; [reflexivity|]. exists d. auto. }
      intros d' _ E. injection E as <-. subst w. rewrite firstn_app, R, Nat.sub_diag, <- R, firstn_all. cbn. apply app_nil_r.
    + pose proof (zc_error _ _ _ _ _ _ H n input d code Z). lia.
  - split; [|discriminate]. split; [discriminate|]. intros [_ [d [Ld E]]]. rewrite E in R. cbn in R. contradiction.
Qed.

Lemma string_round_trip input level : fits B max_size ZB input -> exists c,
  compress_string B zero max_size ZB ZC input level = Ok c /\
  decompress_string B zero max_size ZG ZD c = Ok input /\
  forall output, maybe_decompress_string B zero max_size ZG ZD c output = Ok (true, input).
Proof.
  intros F. destruct (internal_compress_ok input level F) as (c & E & Fr). exists c. split; [exact E|].
  destruct F as [L _]. pose proof Fr as [G D]. split.
  - unfold decompress_string. rewrite G. cbn. rewrite resize_nil by exact L. cbn. unfold internal_decompress.
    rewrite (internal_maybe_frame c input _ Fr) by (rewrite repeat_length; lia). cbn.
    rewrite skipn_all2 by (rewrite repeat_length; lia). now rewrite app_nil_r.
  - intros output. unfold maybe_decompress_string. rewrite G. destruct (resize_ok output (length input) L) as (s & -> & Ls). cbn.
    rewrite (internal_maybe_frame c input _ Fr) by lia. cbn. rewrite skipn_all2 by lia. now rewrite app_nil_r.
Qed.
Lemma string_any input :
  match decompress_string B zero max_size ZG ZD input with
  | Ok s => ZG input = Size (length s) /\ ZD (length s) input = inl s
  | Throw => exists n, ZG input = Size n /\ max_size < n
  | Abort => forall s, ~ (ZG input = Size (length s) /\ ZD (length s) input = inl s)
  | UB => False
  end.
Proof.
  unfold decompress_string. destruct (ZG input) as [| |n] eqn:G; cbn.
  1,2: intros s [X _]; discriminate.
  destruct (le_lt_dec n max_size) as [L|L].
  - rewrite resize_nil by exact L. cbn. unfold internal_decompress.
    destruct (internal_maybe_any input (repeat zero n) n) as (r & m & E & Lm & _ & K & C); [rewrite repeat_length; lia|exact L|].
    rewrite E. cbn. rewrite repeat_length in Lm. destruct r eqn:Er; cbn.
    2-5: intros s [X D]; injection X as X; rewrite <- X in D; destruct K as [_ K];
         pose proof (K (conj G (ex_intro _ s (conj (eq_sym X) D)))) as Y; discriminate Y.
    destruct K as [K _]. destruct (K eq_refl) as [_ [d [Ld D]]]. specialize (C d eq_refl D).
    rewrite <- Lm, firstn_all in C. subst d. rewrite Lm. auto.
  - unfold resize. destruct (Nat.ltb_spec max_size n); [|lia]. cbn. exists n. auto.
Qed.
Lemma maybe_string_any input output :
  match maybe_decompress_string B zero max_size ZG ZD input output with
  | Ok (true, s) => ZG input = Size (length s) /\ ZD (length s) input = inl s
  | Ok (false, _) => forall s, ~ (ZG input = Size (length s) /\ ZD (length s) input = inl s)
  | Throw => exists n, ZG input = Size n /\ max_size < n
  | Abort | UB => False
  end.
Proof.
  unfold maybe_decompress_string. destruct (ZG input) as [| |n] eqn:G; cbn.
  1,2: intros s [X _]; discriminate.
  destruct (le_lt_dec n max_size) as [L|L].
  - destruct (resize_ok output n L) as (o & -> & Lo). cbn.
    destruct (internal_maybe_any input o n) as (r & m & E & Lm & _ & K & C); [lia|exact L|].
    rewrite E. cbn. rewrite Lo in Lm. destruct r eqn:Er; cbn.
    2-5: intros s [X D]; injection X as X; rewrite <- X in D; destruct K as [_ K];
         pose proof (K (conj G (ex_intro _ s (conj (eq_sym X) D)))) as Y; discriminate Y.
    destruct K as [K _]. destruct (K eq_refl) as [_ [d [Ld D]]]. specialize (C d eq_refl D).
    rewrite <- Lm, firstn_all in C. subst d. rewrite Lm. auto.
  - unfold resize. destruct (Nat.ltb_spec max_size n); [|lia]. cbn. exists n. auto.
Qed.
Lemma maybe_string_throws input output n : ZG input = Size n -> max_size < n ->
  maybe_decompress_string B zero max_size ZG ZD input output = Throw.
Proof.
  intros G L. unfold maybe_decompress_string, resize. rewrite G. destruct (Nat.ltb_spec max_size n); [reflexivity|lia].
Qed.

Section Elements.
Variable E : Type.
Variable width : nat.
Variable to_bytes : E -> list B.
Variable of_bytes : list B -> E.
Hypothesis P : plain_bytes width to_bytes of_bytes.
Notation mem := (memory B E to_bytes).
Notation els := (elements B E width of_bytes).

Lemma mem_length d : length (mem d) = length d * width.
Proof.
  unfold memory. induction d; cbn; auto. rewrite app_length, (pb_width _ _ _ P). lia.
Qed.
Lemma mem_app d e : mem (d ++ e) = mem d ++ mem e.
Proof. unfold memory. now rewrite map_app, concat_app. Qed.
Lemma mem_firstn n d : mem (firstn n d) = firstn (n * width) (mem d).
Proof.
  revert d. induction n; intros [|x d]; cbn; auto.
  - now rewrite firstn_nil.
  - unfold memory in *. cbn. rewrite IHn, firstn_app, (pb_width _ _ _ P).
    rewrite (firstn_all2 (to_bytes x)) by (rewrite (pb_width _ _ _ P); lia). do 2 f_equal. lia.
Qed.
Lemma mem_skipn n d : mem (skipn n d) = skipn (n * width) (mem d).
Proof.
  revert d. induction n; intros [|x d]; cbn; auto.
  - now rewrite skipn_nil.
  - unfold memory in *. cbn. rewrite IHn, skipn_app, (pb_width _ _ _ P).
    rewrite (skipn_all2 (to_bytes x)) by (rewrite (pb_width _ _ _ P); lia). cbn. f_equal. lia.
Qed.
Lemma els_mem d : els (length d) (mem d) = d.
Proof.
  unfold memory. induction d; cbn; auto.
  rewrite firstn_app, skipn_app, (pb_width _ _ _ P), Nat.sub_diag. cbn. rewrite app_nil_r.
  rewrite (firstn_all2 (to_bytes a)), (skipn_all2 (to_bytes a)) by (rewrite (pb_width _ _ _ P); lia). cbn.
  now rewrite (pb_of_to _ _ _ P), IHd.
Qed.
Lemma els_length n m : length (els n m) = n.
Proof. revert m; induction n; cbn; auto. Qed.
Lemma mem_els n m : length m = n * width -> mem (els n m) = m.
Proof.
  revert m. induction n; intros m L.
  - destruct m; [reflexivity|discriminate].
  - unfold memory in *. cbn. rewrite (pb_to_of _ _ _ P) by (rewrite firstn_length; lia).
    rewrite IHn by (rewrite skipn_length; lia). apply firstn_skipn.
Qed.

Lemma elements_round_trip data n level : n <= length data -> fits B max_size ZB (mem (firstn n data)) -> exists c,
  compress_elements B zero max_size ZB ZC E width to_bytes data n level = Ok c /\
  (forall output, n <= length output ->
     decompress_elements B ZG ZD E width to_bytes of_bytes c output n = Ok (firstn n data ++ skipn n output) /\
     maybe_decompress_elements B ZG ZD E width to_bytes of_bytes c output n = Ok (true, firstn n data ++ skipn n output)) /\
  (forall output n', n' * width <> n * width ->
     decompress_elements B ZG ZD E width to_bytes of_bytes c output n' = Abort /\
     maybe_decompress_elements B ZG ZD E width to_bytes of_bytes c output n' = Ok (false, output)).
Proof.
  intros L F. destruct (internal_compress_ok (mem (firstn n data)) level F) as (c & Ec & Fr). exists c.
  assert (Ln : length (mem (firstn n data)) = n * width) by (rewrite mem_length, firstn_length; f_equal; lia).
  split; [|split].
  - unfold compress_elements. rewrite mem_length. destruct (Nat.ltb_spec (length data * width) (n * width)); [nia|].
    now rewrite <- mem_firstn.
  - intros output Lo.
    assert (X : internal_maybe_decompress B ZG ZD c (mem output) (n * width) = Ok (kOK, mem (firstn n data ++ skipn n output))).
    { rewrite <- Ln, (internal_maybe_frame c _ _ Fr) by (rewrite Ln, mem_length; nia). do 2 f_equal.
      rewrite Ln, mem_app, mem_skipn. reflexivity. }
    assert (Y : els (length output) (mem (firstn n data ++ skipn n output)) = firstn n data ++ skipn n output).
    { rewrite <- (els_mem (firstn n data ++ skipn n output)) at 2. f_equal.
      rewrite app_length, firstn_length, skipn_length. lia. }
    unfold decompress_elements, maybe_decompress_elements, internal_decompress. rewrite (Nat.mul_comm width n), X. cbn.
    rewrite Y. auto.
  - intros output n' N. unfold decompress_elements, maybe_decompress_elements, internal_decompress.
    rewrite (Nat.mul_comm width n'), (internal_maybe_other c _ _ _ Fr) by congruence. cbn. rewrite els_mem. auto.
Qed.
Lemma elements_any input output n : n <= length output -> n * width <= max_size ->
  exists ok after, maybe_decompress_elements B ZG ZD E width to_bytes of_bytes input output n = Ok (ok, after) /\
    decompress_elements B ZG ZD E width to_bytes of_bytes input output n = (if ok then Ok after else Abort) /\
    length after = length output /\ skipn n after = skipn n output /\
    (ok = true <-> frame input (mem (firstn n after))) /\
    (ok = false -> forall d, length d = n -> ~ frame input (mem d)).
Proof.
  intros L Lm. pose proof (mem_length output) as LM.
  destruct (internal_maybe_any input (mem output) (n * width)) as (r & m & Er & Lr & S & K & C); [nia|lia|].
  exists (negb (failed r)), (els (length output) m). unfold decompress_elements, maybe_decompress_elements, internal_decompress.
  rewrite (Nat.mul_comm width n), Er. cbn. assert (ME : mem (els (length output) m) = m) by (apply mem_els; congruence).
  assert (NO : forall d, length d = n -> frame input (mem d) -> r = kOK).
  { intros d Ld [G D]. apply K. rewrite <- Ld, <- (mem_length d). split; [exact G|]. exists (mem d). auto. }
  split; [reflexivity|]. split; [destruct r; reflexivity|]. split; [apply els_length|]. split.
  { rewrite <- (els_mem (skipn n (els _ m))), <- (els_mem (skipn n output)), !mem_skipn, ME, S. f_equal.
    rewrite !skipn_length, els_length. reflexivity. }
  split; [split|].
  - intros Ok_. assert (R : r = kOK) by (destruct r; auto; discriminate). destruct K as [K _].
    destruct (K R) as [G [d [Ld D]]]. specialize (C d R D). unfold frame_of. rewrite mem_firstn, ME, C, Ld. auto.
  - intros Fr. rewrite (NO (firstn n (els (length output) m))); auto. rewrite firstn_length, els_length. lia.
  - intros No d Ld Fr. rewrite (NO d Ld Fr) in No. discriminate.
Qed.
End Elements.
End Proofs.

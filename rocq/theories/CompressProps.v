(* Property C86 of properties.jsonl. *)
From Verif Require Import Base CompressModel CompressSpec CompressProofs.

Section Props.
Variable B : Type.
Variable zero : B.
Variable max_size : nat.
Variable ZB : nat -> nat.
Variable ZC : nat -> list B -> Z -> zstd_result B.
Variable ZG : list B -> content_size.
Variable ZD : nat -> list B -> zstd_result B.
Hypothesis H : zstd_contract B max_size ZB ZC ZG ZD.

(* a compressed string decompresses to itself, whatever the destination held *)
Theorem C86_string input level : fits B max_size ZB input -> exists c,
  compress_string B zero max_size ZB ZC input level = Ok c /\
  decompress_string B zero max_size ZG ZD c = Ok input /\
  forall output, maybe_decompress_string B zero max_size ZG ZD c output = Ok (true, input).
Proof. exact (string_round_trip B zero max_size ZB ZC ZG ZD H input level). Qed.

(* any bytes at all: what is returned is what zstd decodes; otherwise an assertion fails, or the size that the input claims is
   larger than a string can be *)
Theorem C86_string_any input :
  match decompress_string B zero max_size ZG ZD input with
  | Ok s => frame_of B ZG ZD input s
  | Abort => forall s, ~ frame_of B ZG ZD input s
  | Throw => exists n, ZG input = Size n /\ max_size < n
  | UB => False
  end.
Proof. exact (string_any B zero max_size ZB ZC ZG ZD H input). Qed.
Theorem C86_maybe_string_any input output :
  match maybe_decompress_string B zero max_size ZG ZD input output with
  | Ok (true, s) => frame_of B ZG ZD input s
  | Ok (false, _) => forall s, ~ frame_of B ZG ZD input s
  | Throw => exists n, ZG input = Size n /\ max_size < n
  | Abort | UB => False
  end.
Proof. exact (maybe_string_any B zero max_size ZB ZC ZG ZD H input output). Qed.

Section Elements.
Variable E : Type.
Variable width : nat.
Variable to_bytes : E -> list B.
Variable of_bytes : list B -> E.
Hypothesis P : plain_bytes width to_bytes of_bytes.

(* the first n elements are restored, and the rest of the destination is kept; for another number of elements decompress fails an
   assertion and maybe_decompress returns false, having written nothing *)
Theorem C86_elements data n level : n <= length data -> fits B max_size ZB (memory B E to_bytes (firstn n data)) -> exists c,
  compress_elements B zero max_size ZB ZC E width to_bytes data n level = Ok c /\
  (forall output, n <= length output ->
     decompress_elements B ZG ZD E width to_bytes of_bytes c output n = Ok (firstn n data ++ skipn n output) /\
     maybe_decompress_elements B ZG ZD E width to_bytes of_bytes c output n = Ok (true, firstn n data ++ skipn n output)) /\
  (forall output n', n' * width <> n * width ->
     decompress_elements B ZG ZD E width to_bytes of_bytes c output n' = Abort /\
     maybe_decompress_elements B ZG ZD E width to_bytes of_bytes c output n' = Ok (false, output)).
Proof. exact (elements_round_trip B zero max_size ZB ZC ZG ZD H E width to_bytes of_bytes P data n level). Qed.

(* any bytes at all: nothing but the n elements is written, and true is returned exactly when they are what zstd decodes *)
Theorem C86_elements_any input output n : n <= length output -> n * width <= max_size ->
  exists ok after, maybe_decompress_elements B ZG ZD E width to_bytes of_bytes input output n = Ok (ok, after) /\
    decompress_elements B ZG ZD E width to_bytes of_bytes input output n = (if ok then Ok after else Abort) /\
    length after = length output /\ skipn n after = skipn n output /\
    (ok = true <-> frame_of B ZG ZD input (memory B E to_bytes (firstn n after))) /\
    (ok = false -> forall d, length d = n -> ~ frame_of B ZG ZD input (memory B E to_bytes d)).
Proof. exact (elements_any B max_size ZB ZC ZG ZD H E width to_bytes of_bytes P input output n). Qed.
End Elements.
End Props.
Print Assumptions C86_string.
Print Assumptions C86_string_any.
Print Assumptions C86_maybe_string_any.
Print Assumptions C86_elements.
Print Assumptions C86_elements_any.

(* a library satisfying the contract: a frame is the length followed by the bytes *)
Definition toy_compress (capacity : nat) (src : list nat) (_ : Z) : zstd_result nat :=
  if length src <? capacity then inl (length src :: src) else inr ([], 1000).
Definition toy_size (input : list nat) : content_size := match input with [] => SizeError | n :: _ => Size n end.
Definition toy_decompress (capacity : nat) (input : list nat) : zstd_result nat :=
  match input with
  | n :: src => if (n <=? capacity) && (length src =? n) then inl src else inr (firstn capacity src, 1000)
  | [] => inr ([], 1000)
  end.
Lemma toy_contract : zstd_contract nat 999 S toy_compress toy_size toy_decompress.
Proof.
  constructor.
  - intros cap src level L. exists (length src :: src). unfold toy_compress.
    destruct (Nat.ltb_spec (length src) cap); [|lia]. split; [reflexivity|]. split; [cbn; lia|]. split; [reflexivity|]. cbn.
    now rewrite Nat.leb_refl, Nat.eqb_refl.
  - intros cap [|n src]; cbn; [lia|]. destruct (Nat.leb_spec n cap), (Nat.eqb_spec (length src) n); cbn; rewrite ?firstn_length; lia.
  - intros cap [|n src] w code; cbn. { intros E; injection E as <- <-; lia. }
    destruct ((n <=? cap) && (length src =? n)); [discriminate|]. intros E; injection E as _ <-; lia.
Qed.
Definition pair_bytes (p : nat * nat) : list nat := [fst p; snd p].
Definition bytes_pair (l : list nat) : nat * nat := match l with [a; b] => (a, b) | _ => (0, 0) end.
Lemma pair_plain : plain_bytes 2 pair_bytes bytes_pair.
Proof.
  constructor; [reflexivity|now intros []|]. intros [|a [|b [|c l]]]; try discriminate; reflexivity.
Qed.
Example C86_meets :
  fits nat 999 S [3; 1; 4] /\ fits nat 999 S (memory nat _ pair_bytes (firstn 2 [(1, 2); (3, 4); (5, 6)])) /\
  compress_elements nat 0 999 S toy_compress _ 2 pair_bytes [(1, 2); (3, 4); (5, 6)] 2 3 = Ok [4; 1; 2; 3; 4] /\
  maybe_decompress_elements nat toy_size toy_decompress _ 2 pair_bytes bytes_pair [4; 1; 2; 3; 4] [(9, 9); (9, 9); (7, 8)] 2
    = Ok (true, [(1, 2); (3, 4); (7, 8)]) /\
  maybe_decompress_elements nat toy_size toy_decompress _ 2 pair_bytes bytes_pair [4; 1; 2] [(9, 9); (9, 9); (7, 8)] 2
    = Ok (false, [(1, 2); (9, 9); (7, 8)]).
Proof. unfold fits. cbn. repeat split; lia. Qed.

(* finding: maybe_decompress into a string is documented to return false if decompression fails; it throws when the input claims
   more bytes than a string can hold *)
Theorem C86_maybe_throws_refuted : exists B zero max_size ZB ZC ZG ZD input,
  zstd_contract B max_size ZB ZC ZG ZD /\ (forall s, ~ frame_of B ZG ZD input s) /\
  forall output, maybe_decompress_string B zero max_size ZG ZD input output = Throw.
Proof.
  exists nat, 0, 999, S, toy_compress, toy_size, toy_decompress, [1000; 1; 2]. split; [exact toy_contract|]. split.
  - intros s [E D]. injection E as E. cbn in D. destruct (1000 <=? length s); discriminate D.
  - intros output. exact (maybe_string_throws nat 0 999 toy_size toy_decompress [1000; 1; 2] output 1000 eq_refl ltac:(lia)).
Qed.
Print Assumptions C86_maybe_throws_refuted.

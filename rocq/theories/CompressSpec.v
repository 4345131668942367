(* Vocabulary of C86: the contract of the zstd library. *)
From Verif Require Import Base CompressModel.

Section Spec.
Variable B : Type.
Variable max_size : nat.
Variable ZSTD_compressBound : nat -> nat.
Variable ZSTD_compress : nat -> list B -> Z -> zstd_result B.
Variable ZSTD_getFrameContentSize : list B -> content_size.
Variable ZSTD_decompress : nat -> list B -> zstd_result B.

(* [c] is the zstd frame of [src] *)
Definition frame_of (c src : list B) : Prop :=
  ZSTD_getFrameContentSize c = Size (length src) /\ ZSTD_decompress (length src) c = inl src.

Record zstd_contract : Prop := ZstdContract {
  (* with the capacity ZSTD_compressBound, compression succeeds and gives a frame *)
  zc_frame : forall capacity src level, ZSTD_compressBound (length src) <= capacity ->
    exists c, ZSTD_compress capacity src level = inl c /\ length c <= capacity /\ frame_of c src;
  (* whatever the input, no more than the capacity is written *)
  zc_bounded : forall capacity input, length (written B (ZSTD_decompress capacity input)) <= capacity;
  (* the numbers returned for errors are larger than the size of any string *)
  zc_error : forall capacity input w code, ZSTD_decompress capacity input = inr (w, code) -> max_size < code }.

(* the string and its compressed form are not too long *)
Definition fits (data : list B) : Prop := length data <= max_size /\ ZSTD_compressBound (length data) <= max_size.
End Spec.

(* a type whose values are [width] bytes *)
Record plain_bytes {B E} (width : nat) (to_bytes : E -> list B) (of_bytes : list B -> E) : Prop := PlainBytes {
  pb_width : forall e, length (to_bytes e) = width;
  pb_of_to : forall e, of_bytes (to_bytes e) = e;
  pb_to_of : forall b, length b = width -> to_bytes (of_bytes b) = b }.

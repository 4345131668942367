(* Model of utils/compress.hpp. Strings and memory are lists of bytes. The zstd library is a set of arbitrary functions, whose
   contract is in CompressSpec.v. Not modelled: overflow of n_elements * sizeof(Element), memory exhaustion. *)
From Verif Require Import Base.

Section Compress.
Variable B : Type.                                  (* a byte *)
Variable zero : B.                                  (* '\0', with which std::string::resize pads *)
Variable max_size : nat.                            (* std::string::max_size() *)

(* What ZSTD_getFrameContentSize returns: ZSTD_CONTENTSIZE_UNKNOWN, ZSTD_CONTENTSIZE_ERROR or a size *)
Inductive content_size := SizeUnknown | SizeError | Size (n : nat).
(* What ZSTD_compress and ZSTD_decompress write and return: [inl written], where length written is returned, or [inr (written,
   code)], where code is returned although only [written] was written *)
Definition zstd_result := (list B + list B * nat)%type.
Definition written (r : zstd_result) : list B := match r with inl w => w | inr (w, _) => w end.
Definition returned (r : zstd_result) : nat := match r with inl w => length w | inr (_, code) => code end.

Variable ZSTD_compressBound : nat -> nat.
Variable ZSTD_compress : nat -> list B -> Z -> zstd_result.      (* dstCapacity, src, compressionLevel *)
Variable ZSTD_getFrameContentSize : list B -> content_size.
Variable ZSTD_decompress : nat -> list B -> zstd_result.         (* dstCapacity, src *)

(* std::string::resize, which throws std::length_error *)
Definition resize (s : list B) (n : nat) : outcome (list B) :=
  if max_size <? n then Throw else Ok (firstn n s ++ repeat zero (n - length s)).

(* writing to the front of memory which holds [m]; writing past its end is undefined *)
Definition write (m w : list B) : outcome (list B) :=
  if length m <? length w then UB else Ok (w ++ skipn (length w) m).

(* internal::compress, utils/compress.hpp:22-38; [data] are the size_bytes bytes at the pointer *)
Definition internal_compress (data : list B) (compression_level : Z) : outcome (list B) :=
  compressed <- resize [] (ZSTD_compressBound (length data)) ;;
  let r := ZSTD_compress (length compressed) data compression_level in
  compressed <- write compressed (written r) ;;
  resize compressed (returned r).

(* utils/compress.hpp:39-45 *)
Inductive decompress_result := kOK | kZstdContentSizeUnknown | kZstdContentSizeError | kZstdExpectedRequestedSizeMismatch
  | kZstdResultingRequestedSizeMismatch.
(* failed, utils/compress.hpp:47-53 *)
Definition failed (r : decompress_result) : bool := match r with kOK => false | _ => true end.
(* assert_on_error, utils/compress.hpp:55-81 *)
Definition assert_on_error (r : decompress_result) : outcome unit := match r with kOK => Ok tt | _ => Abort end.
(* check_decompressed_size, utils/compress.hpp:83-98 *)
Definition check_decompressed_size (n : content_size) : decompress_result :=
  match n with SizeUnknown => kZstdContentSizeUnknown | SizeError => kZstdContentSizeError | Size _ => kOK end.

(* internal::maybe_decompress, utils/compress.hpp:100-123; [output] is all the memory from the output pointer on that may be
   written, and is returned as it is left *)
Definition internal_maybe_decompress (input output : list B) (output_size : nat) : outcome (decompress_result * list B) :=
  match ZSTD_getFrameContentSize input with
  | SizeUnknown => Ok (kZstdContentSizeUnknown, output)
  | SizeError => Ok (kZstdContentSizeError, output)
  | Size decompressed_size =>
    if negb (decompressed_size =? output_size) then Ok (kZstdExpectedRequestedSizeMismatch, output)
    else
      let r := ZSTD_decompress output_size input in
      output <- write output (written r) ;;
      if negb (returned r =? output_size) then Ok (kZstdResultingRequestedSizeMismatch, output)
      else Ok (kOK, output)
  end.
(* internal::decompress, utils/compress.hpp:125-128 *)
Definition internal_decompress (input output : list B) (output_size : nat) : outcome (list B) :=
  r <- internal_maybe_decompress input output output_size ;;
  _ <- assert_on_error (fst r) ;;
  Ok (snd r).

(* compress of a string, utils/compress.hpp:142-148 *)
Definition compress_string (input : list B) (level : Z) : outcome (list B) := internal_compress input level.
(* maybe_decompress to a string, utils/compress.hpp:177-199; the second component is the string afterwards *)
Definition maybe_decompress_string (input output : list B) : outcome (bool * list B) :=
  match ZSTD_getFrameContentSize input with
  | Size decompressed_size =>
    output <- resize output decompressed_size ;;
    r <- internal_maybe_decompress input output decompressed_size ;;
    Ok (negb (failed (fst r)), snd r)
  | _ => Ok (false, output)
  end.
(* decompress to a string, utils/compress.hpp:201-213 *)
Definition decompress_string (input : list B) : outcome (list B) :=
  _ <- assert_on_error (check_decompressed_size (ZSTD_getFrameContentSize input)) ;;
  match ZSTD_getFrameContentSize input with
  | Size decompressed_size =>
    output <- resize [] decompressed_size ;;
    internal_decompress input output decompressed_size
  | _ => Abort
  end.

(* arrays of elements of [width] bytes each *)
Section Elements.
Variable E : Type.
Variable width : nat.                               (* sizeof(Element) *)
Variable to_bytes : E -> list B.
Variable of_bytes : list B -> E.
Definition memory (data : list E) : list B := concat (map to_bytes data).
Fixpoint elements (n : nat) (m : list B) : list E :=
  match n with 0 => [] | S n' => of_bytes (firstn width m) :: elements n' (skipn width m) end.

(* compress of elements, utils/compress.hpp:134-140; reading more elements than the array has is undefined *)
Definition compress_elements (data : list E) (n_elements : nat) (level : Z) : outcome (list B) :=
  if length (memory data) <? n_elements * width then UB
  else internal_compress (firstn (n_elements * width) (memory data)) level.
(* decompress to elements, utils/compress.hpp:150-158; the array afterwards *)
Definition decompress_elements (input : list B) (data : list E) (n_elements : nat) : outcome (list E) :=
  m <- internal_decompress input (memory data) (n_elements * width) ;;
  Ok (elements (length data) m).
(* maybe_decompress to elements, utils/compress.hpp:160-176 *)
Definition maybe_decompress_elements (input : list B) (output : list E) (n_elements : nat) : outcome (bool * list E) :=
  r <- internal_maybe_decompress input (memory output) (width * n_elements) ;;
  Ok (negb (failed (fst r)), elements (length output) (snd r)).
End Elements.
End Compress.

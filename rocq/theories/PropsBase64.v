(** Properties of the Base64 codec (C28-C30). *)
From Verif Require Import Prelude Writer WriterContract WriterObs WriterProofs SerMonad Base64Spec Base64 Base64Facts Base64Top.

(** C28: encode writes exactly the RFC 4648 text without padding and returns the
    number of padding characters; on a writer error only a prefix was written. *)
Theorem C28_base64_encode : forall W E (SW : SerWrite W E) inv content, lawful SW inv content ->
  forall bs w w' r, all_bytes bs -> inv w -> b64_encode SW bs w = (w', r) ->
  match r with
  | Ok n => content w' = content w ++ b64_text bs /\ n = b64_padding bs
  | Err _ => exists p, prefix p (b64_text bs) /\ content w' = content w ++ p
  end.
Proof. exact @encode_writes. Qed.
Print Assumptions C28_base64_encode.

(** C28: with the returned padding the text is a whole number of four-character
    groups, and different inputs have different texts. *)
Theorem C28_base64_padding : forall bs, zlen (b64_text bs) + b64_padding bs = 4 * ((zlen bs + 2) / 3).
Proof. exact padding_length. Qed.
Print Assumptions C28_base64_padding.

(** "Man" "M" "any": RFC 4648 style cases; a slice writer with an old content. *)
Example C28_case :
  lawful SliceWriter sl_inv sl_content /\
  b64_text [77; 97; 110; 255] = [84; 87; 70; 117; 47; 119] /\
  snd (b64_encode SliceWriter [77; 97; 110; 255] (sl_new (repeat 0 6))) = Ok 2 /\
  sl_content (fst (b64_encode SliceWriter [77; 97; 110; 255] (sl_new (repeat 0 6)))) = [84; 87; 70; 117; 47; 119] /\
  snd (b64_encode SliceWriter [77; 97; 110; 255] (sl_new (repeat 0 5))) = Err BufferFull.
Proof. split; [exact SliceWriter_lawful|]. repeat split; vm_compute; reflexivity. Qed.

(** C29: decoding an encoded text in place gives back the bytes. *)
Theorem C29_base64_decode_inverts : forall ar bs rest, all_bytes bs ->
  (forall c r, rest = c :: r -> ~ in_alphabet c) -> 3 * zlen (b64_text bs) <= usize_max ar ->
  exists mid, b64_decode ar (b64_text bs ++ rest) = B64 (bs ++ mid ++ rest) (zlen bs) (zlen (b64_text bs)) /\
    length (bs ++ mid) = length (b64_text bs).
Proof. exact decode_encoded. Qed.
Print Assumptions C29_base64_decode_inverts.

(** C29: on any slice: encoded_len is the length of the longest alphabet prefix,
    decoded_len <= encoded_len <= slice.len(), the decoded bytes are those the
    prefix denotes, nothing after them changes, and there is no panic. *)
Theorem C29_base64_decode_any : forall ar slice, 3 * zlen slice <= usize_max ar ->
  exists ds rest mem, slice = map b64_char ds ++ rest /\ Forall (fun v => 0 <= v < 64) ds /\
    (forall c r, rest = c :: r -> ~ in_alphabet c) /\
    b64_decode ar slice = B64 mem (zlen (b64_bytes ds)) (zlen ds) /\
    mem = b64_bytes ds ++ skipn (length (b64_bytes ds)) slice /\ length mem = length slice /\
    zlen (b64_bytes ds) <= zlen ds <= zlen slice.
Proof. exact decode_any. Qed.
Print Assumptions C29_base64_decode_any.

Definition t64 : arch := {| usize_max := 2 ^ 64 - 1; overflow_checks := true |}.
Example C29_case :
  b64_decode t64 [84; 87; 70; 117; 47; 119; 61; 61; 65] = B64 [77; 97; 110; 255; 47; 119; 61; 61; 65] 4 6 /\
  b64_decode t64 [84; 87; 70; 117; 47; 34] = B64 [77; 97; 110; 117; 47; 34] 3 5.
Proof. split; reflexivity. Qed.

(** C30: the desired "for every slice a target allows" fails on 16- and 32-bit
    targets: for a slice of 'A's no longer than isize::MAX it panics or, in release
    builds, returns a wrong encoded_len. *)
Theorem C30_base64_small_usize_refuted : forall bits, bits = 16 \/ bits = 32 -> forall checks : bool,
  exists n, Z.of_nat n < 2 ^ (bits - 1) /\
  if checks then b64_decode {| usize_max := 2 ^ bits - 1; overflow_checks := checks |} (repeat 65 n) = B64Panic
  else exists mem dlen elen,
    b64_decode {| usize_max := 2 ^ bits - 1; overflow_checks := checks |} (repeat 65 n) = B64 mem dlen elen /\
    elen <> Z.of_nat n.
Proof. exact small_usize_wrong. Qed.
Print Assumptions C30_base64_small_usize_refuted.

(** C30: below the bound it is right on every target; on 64-bit targets the bound
    holds for every slice. *)
Theorem C30_base64_right_below_bound : forall ar ds rest, Forall (fun v => 0 <= v < 64) ds ->
  (forall c r, rest = c :: r -> ~ in_alphabet c) -> 12 * (zlen ds / 4) <= usize_max ar ->
  exists mem, b64_decode ar (map b64_char ds ++ rest) = B64 mem (zlen (b64_bytes ds)) (zlen ds).
Proof. exact decode_below_bound. Qed.
Print Assumptions C30_base64_right_below_bound.

(** Properties of the tokens read by the JSON deserializer: strings (C33, C37, C38,
    C44), integers (C34, C35) and hex strings (C43).  [unparsed s] is the text from the
    cursor on, [memory s] the whole buffer. *)
From Verif Require Import Prelude Utf8Spec SerdeDe SerdeSer JsonSpec JsonSer JsonDe JsonDeSafe JsonFacts JsonStr JsonTok JsonTokTop
  PropsJsonDe PropsJsonSer.

(** The deserializer positioned after an opening quote. *)
Definition after_quote (text : bytes) : jde := {| j_front := []; j_input := 34 :: text; j_index := 1; j_log := [] |}.
Ltac body := repeat first
  [ apply B_nil
  | apply (B_u _ [_; _; _; _] 8364 [] []); [exists 50, 48, 65, 99, 2, 0, 10, 12; repeat split; unfold hex_digit; lia|unfold is_scalar; lia|]
  | apply B_esc; [constructor|]
  | apply B_plain; [unfold plain_byte; lia|] ].

(** C37: after an opening quote, the body of a literal is decoded to the bytes it
    denotes, the cursor ends up behind the closing quote, and no byte before the
    literal or after its body changes. *)
Theorem C37_decodes : forall s t x k,
  (j_index s <= length (j_input s))%nat -> unparsed s = t ++ 34 :: k -> str_body false t x ->
  exists s', parse_str_bytes_content s = Done s' (Ok {| js_off := (length (j_front s) + j_index s)%nat; js_data := x |}) /\
    unparsed s' = k /\
    firstn (length (j_front s) + j_index s) (memory s') = firstn (length (j_front s) + j_index s) (memory s) /\
    skipn (length (j_front s) + j_index s + length t) (memory s') = skipn (length (j_front s) + j_index s + length t) (memory s).
Proof. exact str_bytes_decodes. Qed.
Print Assumptions C37_decodes.

(** Otherwise it fails with the error of the first fault. *)
Theorem C37_rejects : forall s f,
  (j_index s <= length (j_input s))%nat -> all_bytes (unparsed s) -> faulty (unparsed s) f ->
  exists s', parse_str_bytes_content s = Done s'
    (Err (match f with
          | Unterminated => JUnexpectedEof | ControlChar => JStringControlChar
          | BadEscape => JInvalidEscapeSequence | BadCodePoint => JInvalidUnicodeCodePoint
          end)) /\
    j_index s' = j_index s /\ length (memory s') = length (memory s) /\
    firstn (length (j_front s) + j_index s) (memory s') = firstn (length (j_front s) + j_index s) (memory s).
Proof. exact str_bytes_rejects. Qed.
Print Assumptions C37_rejects.

(** One of the two always applies. *)
Theorem C37_exhaustive : forall l, all_bytes l ->
  (exists t x k, l = t ++ 34 :: k /\ str_body false t x) \/ (exists f, faulty l f).
Proof. exact str_total. Qed.
Print Assumptions C37_exhaustive.

(** [parse_str_content]: as a [&str] if the literal is UTF-8; the same faults. *)
Theorem C37_str_decodes : forall s t x k,
  (j_index s <= length (j_input s))%nat -> unparsed s = t ++ 34 :: k -> str_body false t x -> valid_utf8 t ->
  exists s', parse_str_content s = Done s' (Ok {| js_off := (length (j_front s) + j_index s)%nat; js_data := x |}) /\
    unparsed s' = k /\ valid_utf8 x.
Proof. exact str_decodes. Qed.
Print Assumptions C37_str_decodes.

Theorem C37_str_not_utf8 : forall s t x k,
  (j_index s <= length (j_input s))%nat -> unparsed s = t ++ 34 :: k -> str_body false t x -> ~ valid_utf8 t ->
  exists s', parse_str_content s = Done s' (Err JInvalidUnicodeCodePoint).
Proof. exact str_not_utf8. Qed.
Print Assumptions C37_str_not_utf8.

Theorem C37_str_rejects : forall s f,
  (j_index s <= length (j_input s))%nat -> all_bytes (unparsed s) -> faulty (unparsed s) f ->
  exists s', parse_str_content s = Done s'
    (Err (match f with
          | Unterminated => JUnexpectedEof | ControlChar => JStringControlChar
          | BadEscape => JInvalidEscapeSequence | BadCodePoint => JInvalidUnicodeCodePoint
          end)).
Proof. exact str_rejects. Qed.
Print Assumptions C37_str_rejects.

(** A newline, a euro sign and a slash written as escapes, then more text. *)
Definition C37_text : bytes := [97; 92; 110; 92; 117; 50; 48; 65; 99; 92; 47; 98].
Example C37_case : unparsed (after_quote (C37_text ++ [34; 44; 34; 99])) = C37_text ++ 34 :: [44; 34; 99] /\
  str_body false C37_text ([97; 10] ++ utf8_char 8364 ++ [47; 98]) /\ valid_utf8 C37_text /\
  match parse_str_bytes_content (after_quote (C37_text ++ [34; 44; 34; 99])) with
  | Done s' r => r = Ok {| js_off := 1; js_data := [97; 10; 226; 130; 172; 47; 98] |} /\
      unparsed s' = [44; 34; 99]
  | _ => False
  end.
Proof.
  split; [reflexivity|]. split.
  { unfold C37_text. apply B_plain; [unfold plain_byte; lia|]. apply B_esc; [constructor|].
    apply (B_u false [50; 48; 65; 99] 8364); [exists 50, 48, 65, 99, 2, 0, 10, 12; repeat split; unfold hex_digit; lia|unfold is_scalar; lia|].
    apply B_esc; [constructor|]. apply B_plain; [unfold plain_byte; lia|]. constructor. }
  split; [apply ascii_ok; reflexivity|]. vm_compute. auto.
Qed.
(** A raw tab after an escape; an unknown escape; a lone surrogate; no closing quote. *)
Example C37_reject_case :
  faulty [92; 110; 9; 34] ControlChar /\ faulty [97; 92; 120; 34] BadEscape /\
  faulty [92; 117; 68; 56; 48; 48; 34] BadCodePoint /\ faulty [97; 92] Unterminated.
Proof.
  split; [|split; [|split]].
  - exists [92; 110], [10], [9; 34]. split; [reflexivity|]. split; [body|]. constructor. lia.
  - exists [97], [97], [92; 120; 34]. split; [reflexivity|]. split; [body|]. constructor; [|lia]. intros x H. inversion H.
  - exists [], [], [92; 117; 68; 56; 48; 48; 34]. split; [reflexivity|]. split; [body|].
    apply (F_code [68; 56; 48; 48] 0xD800 [34]); [|unfold is_scalar; lia].
    exists 68, 56, 48, 48, 13, 8, 0, 0. repeat split; unfold hex_digit; lia.
  - exists [97], [97], [92]. split; [reflexivity|]. split; [body|]. constructor.
Qed.

(** C38: not every RFC 8259 string is accepted ... *)
Theorem C38_all_strings_refuted :
  ~ (forall x text, json_text (JStr x) text ->
       exists fuel s, js_from_mut_slice x64 no_floats false NopeDecoder fuel str_prog text = Done s (Ok [x])).
Proof.
  intros H.
  destruct (H [240; 159; 152; 128] (34 :: [92; 117; 100; 56; 51; 100; 92; 117; 100; 101; 48; 48] ++ [34])) as (fuel & s & E).
  - apply T_str. exists [92; 117; 100; 56; 51; 100; 92; 117; 100; 101; 48; 48]. split; [reflexivity|]. split; [apply ascii_ok; reflexivity|].
    apply (B_pair true [100; 56; 51; 100] 0xD83D [100; 101; 48; 48] 0xDE00 [] []); auto; try lia; [| |constructor].
    + exists 100, 56, 51, 100, 13, 8, 3, 13. repeat split; unfold hex_digit; lia.
    + exists 100, 101, 48, 48, 13, 14, 0, 0. repeat split; unfold hex_digit; lia.
  - destruct fuel; vm_compute in E; discriminate.
Qed.
Print Assumptions C38_all_strings_refuted.

(** ... because a surrogate escape is always rejected, paired or not. *)
Theorem C38_surrogates_rejected : forall s t x h n r,
  (j_index s <= length (j_input s))%nat -> all_bytes (unparsed s) ->
  unparsed s = t ++ 92 :: 117 :: h ++ r -> str_body false t x -> hex4 h n -> 0xD800 <= n <= 0xDFFF ->
  exists s', parse_str_content s = Done s' (Err JInvalidUnicodeCodePoint).
Proof. exact surrogates_rejected. Qed.
Print Assumptions C38_surrogates_rejected.

Example C38_case : hex4 [100; 56; 51; 100] 0xD83D /\ 0xD800 <= 0xD83D <= 0xDFFF.
Proof. split; [|lia]. exists 100, 56, 51, 100, 13, 8, 3, 13. repeat split; unfold hex_digit; lia. Qed.

(** C33: what the serializer writes for a string is decoded to that string. *)
Theorem C33_serialized_string_decodes : forall fp enc x, valid_utf8 x ->
  exists body, js_to_string fp enc (SStr x) = Ok (34 :: body ++ [34]) /\
  forall s k, (j_index s <= length (j_input s))%nat -> unparsed s = body ++ 34 :: k ->
  exists s', parse_str_content s = Done s' (Ok {| js_off := (length (j_front s) + j_index s)%nat; js_data := x |}) /\ unparsed s' = k.
Proof. exact serialized_str_decodes. Qed.
Print Assumptions C33_serialized_string_decodes.

Example C33_decode_case : valid_utf8 [34; 10; 27] /\
  js_to_string demo_fp ArrayByteEncoder (SStr [34; 10; 27]) = Ok (34 :: [92;34; 92;110; 92;117;48;48;49;66] ++ [34]) /\
  match parse_str_content (after_quote ([92;34; 92;110; 92;117;48;48;49;66] ++ 34 :: [44])) with
  | Done s' r => r = Ok {| js_off := 1; js_data := [34; 10; 27] |} /\ unparsed s' = [44]
  | _ => False
  end.
Proof. split; [apply ascii_ok; reflexivity|]. vm_compute. auto. Qed.

(** C44 for strings: skipping ends at the quote where decoding ends, even where
    decoding would reject surrogates; nothing is written. *)
Theorem C44_skipped_string : forall s pairs t x k,
  (j_index s <= length (j_input s))%nat -> unparsed s = t ++ 34 :: k -> str_body pairs t x ->
  exists s', eat_str_content s = Done s' (Ok tt) /\ unparsed s' = k /\ memory s' = memory s.
Proof. exact skip_same. Qed.
Print Assumptions C44_skipped_string.

Example C44_string_case : str_body true [92; 92; 92; 34; 97] [92; 34; 97] /\
  unparsed (after_quote ([92; 92; 92; 34; 97; 34; 44; 34])) = [92; 92; 92; 34; 97] ++ 34 :: [44; 34].
Proof. split; [body|reflexivity]. Qed.

(** C35: an integer literal of any length is read exactly or rejected as
    InvalidNumber ([-] is never accepted by an unsigned type). *)
Theorem C35_exact_or_invalid : forall k s w (neg : bool) ds t,
  (j_index s <= length (j_input s))%nat ->
  unparsed s = w ++ (if neg then [45] else []) ++ ds ++ t -> blank w -> int_part ds -> no_digit t ->
  let z := if neg then - dec_val ds else dec_val ds in
  (in_ikind k z /\ (neg = true -> imin k < 0) -> exists s', parse_int k s = Done s' (Ok z) /\ unparsed s' = t) /\
  (~ (in_ikind k z /\ (neg = true -> imin k < 0)) -> exists s', parse_int k s = Done s' (Err JInvalidNumber)).
Proof. exact int_exact. Qed.
Print Assumptions C35_exact_or_invalid.

(** Whatever is accepted is a literal of the value returned. *)
Theorem C35_accepted : forall k s s' z,
  (j_index s <= length (j_input s))%nat -> parse_int k s = Done s' (Ok z) ->
  exists w neg ds, unparsed s = w ++ (if neg : bool then [45] else []) ++ ds ++ unparsed s' /\ blank w /\ int_part ds /\
    in_ikind k z /\ z = if neg then - dec_val ds else dec_val ds.
Proof. exact int_accepted. Qed.
Print Assumptions C35_accepted.

(** -128 fits an i8; -129 and 128 do not, nor does 2^64 fit a u64. *)
Example C35_case : int_part [49; 50; 56] /\ in_ikind I8 (- dec_val [49; 50; 56]) /\ ~ in_ikind I8 (- dec_val [49; 50; 57]) /\
  ~ in_ikind U64 (dec_val [49;56;52;52;54;55;52;52;48;55;51;55;48;57;53;53;49;54;49;54]) /\
  match parse_int I8 (j_from_mut_slice [32; 45; 49; 50; 56; 44]) with Done s r => r = Ok (-128) /\ unparsed s = [44] | _ => False end /\
  match parse_int I8 (j_from_mut_slice [32; 45; 49; 50; 57; 44]) with Done s r => r = Err JInvalidNumber | _ => False end.
Proof.
  split. { split; [split; [discriminate|]|right; exists 49, [50; 56]; split; [reflexivity|lia]]. repeat constructor; lia. }
  unfold in_ikind. cbn. repeat split; lia.
Qed.

(** C34: what is printed for an integer is read back by every integer type that can
    hold it. *)
Theorem C34_printed_integers_parse : forall fp enc k z, in_ikind k z ->
  exists lit, js_to_string fp enc (SInt k z) = Ok lit /\
  forall k' s t, in_ikind k' z -> (j_index s <= length (j_input s))%nat -> unparsed s = lit ++ t -> no_digit t ->
  exists s', parse_int k' s = Done s' (Ok z) /\ unparsed s' = t.
Proof. exact serialized_int_parses. Qed.
Print Assumptions C34_printed_integers_parse.

Example C34_parse_case : in_ikind I16 (-300) /\ in_ikind I64 (-300) /\
  js_to_string demo_fp ArrayByteEncoder (SInt I16 (-300)) = Ok [45; 51; 48; 48] /\ no_digit [93].
Proof. unfold in_ikind, no_digit, is_digit. cbn. repeat split; lia. Qed.

(** C43: pairs of hex digits of either case are decoded, anything else is rejected. *)
Theorem C43_hex_decodes : forall s h bs k,
  (j_index s <= length (j_input s))%nat -> unparsed s = h ++ 34 :: k -> hex_bytes h bs ->
  exists s' x, parse_hex_bytes_content s = Done s' (Ok x) /\ js_data x = bs /\ unparsed s' = k.
Proof. exact hex_decodes. Qed.
Print Assumptions C43_hex_decodes.

Theorem C43_other_rejected : forall s,
  (j_index s <= length (j_input s))%nat -> all_bytes (unparsed s) ->
  (forall h bs k, unparsed s = h ++ 34 :: k -> ~ hex_bytes h bs) ->
  exists s' e, parse_hex_bytes_content s = Done s' (Err e).
Proof. exact hex_rejects. Qed.
Print Assumptions C43_other_rejected.

Theorem C43_serialized_hex_decodes : forall fp bs, all_bytes bs ->
  exists body, js_to_string fp HexStrByteEncoder (SBytes bs) = Ok (34 :: body ++ [34]) /\
  forall s k, (j_index s <= length (j_input s))%nat -> unparsed s = body ++ 34 :: k ->
  exists s' x, parse_hex_bytes_content s = Done s' (Ok x) /\ js_data x = bs /\ unparsed s' = k.
Proof. exact serialized_hex_decodes. Qed.
Print Assumptions C43_serialized_hex_decodes.

(** [aBfF] is two bytes; an odd number of digits, a space and a missing quote are faults. *)
Example C43_case : hex_bytes [97; 66; 102; 70] [171; 255] /\
  match parse_hex_bytes_content (after_quote [97; 66; 102; 70; 34; 44]) with
  | Done s (Ok x) => js_data x = [171; 255] /\ unparsed s = [44] | _ => False end /\
  match parse_hex_bytes_content (after_quote [97; 66; 102; 34; 44]) with Done s (Err e) => e = JUnexpectedChar | _ => False end /\
  match parse_hex_bytes_content (after_quote [97; 66]) with Done s (Err e) => e = JUnexpectedEof | _ => False end.
Proof.
  split; [|vm_compute; auto]. change [171; 255] with [10 * 16 + 11; 15 * 16 + 15]. repeat constructor; unfold hex_digit; lia.
Qed.

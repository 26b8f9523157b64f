(** Property theorems about the JSON serializers (C05-C07 for JSON, C31-C34, C36, C43). *)
From Verif Require Import Prelude Utf8Spec Writer WriterContract WriterObs SerdeSer SerSpec JsonSpec JsonSer
  JsonErrMap JsonFacts JsonSerProofs JsonSerRel JsonSerFacts Utf8 Utf8Facts.

(** A float printer meeting the assumptions (it prints the bit pattern). *)
Definition demo_fp : float_printer := {| format_f32 := dec_text; format_f64 := dec_text |}.

(** A struct { a: -300i16, b: skipped, c: Some("h\n"), d: [true, ()], e: {7u8: b"\x01\xff"} }. *)
Definition jdemo : sval :=
  SStruct 4 [([97], Some (SInt I16 (-300))); ([98], None); ([99], Some (SSome (SStr [104;10])));
             ([100], Some (STuple 2 [SBool true; SUnit]));
             ([101], Some (SMap (Some 1) [(true, SInt U8 7); (false, SBytes [1; 255])]))].

Lemma ascii_ok l : forallb (fun b => (0 <=? b) && (b <=? 127)) l = true -> valid_utf8 l.
Proof.
  intros H. apply valid_utf8_ascii. apply Forall_forall. intros x Hx. rewrite forallb_forall in H. specialize (H x Hx). lia.
Qed.
Ltac jok := cbn; unfold in_ikind; cbn;
  repeat match goal with |- _ /\ _ => split end; auto; try lia; try (apply ascii_ok; reflexivity);
  try (repeat constructor; unfold is_byte; lia).

(** C05: if serialization into any lawful writer succeeds, exactly the complete output
    was appended; [to_string*] return that output ([to_string_pass_bytes] if it is UTF-8). *)
Theorem C05_json_bytes_independent_of_writer :
  forall W E (SW : SerWrite W E) inv content, lawful SW inv content ->
  forall fp enc v w w', displays_propagate v -> inv w ->
  js_to_writer SW fp enc w v = (w', Ok tt) ->
  exists out, js_full fp enc v = Ok out /\ content w' = content w ++ out.
Proof. exact @js_to_writer_ok_bytes. Qed.
Print Assumptions C05_json_bytes_independent_of_writer.

Theorem C05_json_to_string_is_full_output : forall fp enc v,
  (enc <> PassThroughByteEncoder -> js_to_string fp enc v = js_full fp enc v) /\
  (js_to_string fp PassThroughByteEncoder v =
     match js_full fp PassThroughByteEncoder v with
     | Ok out => if from_utf8_ok out then Ok out else Err JUtf8Encode
     | Err e => Err e
     end).
Proof. intros. split; [apply js_full_to_string|apply js_full_pass]. Qed.
Print Assumptions C05_json_to_string_is_full_output.

Example C05_json_case :
  lawful SliceWriter sl_inv sl_content /\ displays_propagate jdemo /\
  (exists w', js_to_writer SliceWriter demo_fp HexStrByteEncoder (sl_new (repeat 0 60)) jdemo = (w', Ok tt)) /\
  (* {"a":-300,"c":"h\n","d":[true,null],"e":{"7":"01FF"}} *)
  js_to_string demo_fp HexStrByteEncoder jdemo = Ok
    [123; 34;97;34; 58; 45;51;48;48; 44; 34;99;34; 58; 34;104;92;110;34; 44; 34;100;34; 58; 91; 116;114;117;101; 44;
     110;117;108;108; 93; 44; 34;101;34; 58; 123; 34;55;34; 58; 34;48;49;70;70;34; 125; 125].
Proof.
  split; [exact WriterProofs.SliceWriter_lawful|]. split; [cbn; tauto|]. split; [eexists; vm_compute; reflexivity|vm_compute; reflexivity].
Qed.

Theorem C05_json_own_errors_independent_of_writer :
  forall W E (SW : SerWrite W E) inv content, lawful SW inv content ->
  forall fp enc v w w' e, displays_propagate v -> inv w ->
  js_to_writer SW fp enc w v = (w', Err e) -> (forall x, e <> JWriter x) -> e <> JFormatError ->
  js_full fp enc v = Err (js_err_map (fun _ => BufferFull) e).
Proof. exact @js_to_writer_own_error. Qed.
Print Assumptions C05_json_own_errors_independent_of_writer.

Theorem C05_json_failures_independent_of_writer :
  forall W E (SW : SerWrite W E) inv content, lawful SW inv content ->
  forall fp enc v w e, displays_propagate v -> inv w ->
  js_full fp enc v = Err e ->
  exists e', snd (js_to_writer SW fp enc w v) = Err e' /\
    (js_err_map (fun _ => BufferFull) e' = e \/ (exists x, e' = JWriter x) \/ e' = JFormatError).
Proof. exact @js_error_everywhere. Qed.
Print Assumptions C05_json_failures_independent_of_writer.

Example C05_json_error_case :
  js_full demo_fp ArrayByteEncoder (SMap None [(true, SUnit); (false, SUnit)]) = Err JInvalidKeyType /\
  snd (js_to_writer SliceWriter demo_fp ArrayByteEncoder (sl_new (repeat 0 9)) (SMap None [(true, SUnit); (false, SUnit)]))
    = Err JInvalidKeyType.
Proof. split; reflexivity. Qed.

(** C06: only a prefix of the full output reaches the writer, and anything but the full
    output comes with a writer (or format) error. *)
Theorem C06_json_only_a_prefix_is_written :
  forall W E (SW : SerWrite W E) inv content, lawful SW inv content ->
  forall fp enc v w, displays_propagate v -> inv w ->
  exists p, content (fst (js_to_writer SW fp enc w v)) = content w ++ p /\
    prefix p (fst (js_to_writer (@VecWriter E) fp enc [] v)) /\
    ((snd (js_to_writer SW fp enc w v) = snd (js_to_writer (@VecWriter E) fp enc [] v) /\
      p = fst (js_to_writer (@VecWriter E) fp enc [] v)) \/
     (exists x, snd (js_to_writer SW fp enc w v) = Err (JWriter x)) \/
     snd (js_to_writer SW fp enc w v) = Err JFormatError).
Proof. exact @js_to_writer_prefix. Qed.
Print Assumptions C06_json_only_a_prefix_is_written.

Example C06_json_prefix_case :
  let r := js_to_writer SliceWriter demo_fp Base64ByteEncoder (sl_new (repeat 9 5)) jdemo in
  sl_content (fst r) = [123; 34; 97; 34; 58] /\ snd r = Err (JWriter BufferFull).
Proof. split; vm_compute; reflexivity. Qed.

(** C06: on any writer at all, calls stop at the first failing one, whose own error is
    returned (or [FormatError] if it happened inside a Display). *)
Theorem C06_json_writer_error_is_reported :
  forall W E (SW : SerWrite W E) fp enc v w w' lg r, displays_propagate v ->
  js_to_writer (Logged SW) fp enc (w, []) v = ((w', lg), r) ->
  (all_ok lg /\ forall e, r <> Err (JWriter e)) \/
  (exists pre e, lg = pre ++ [Err e] /\ all_ok pre /\ (r = Err (JWriter e) \/ r = Err JFormatError)).
Proof. exact @js_to_writer_reports. Qed.
Print Assumptions C06_json_writer_error_is_reported.

(** A Display that fails at the writer. *)
Example C06_json_reported_case :
  exists w', js_to_writer (Logged SliceWriter) demo_fp ArrayByteEncoder (sl_new (repeat 9 2), [])
     (SCollect (FWrite [104; 105] (FRet true) (FRet false)) (FRet true))
    = ((w', [Ok tt; Err BufferFull]), Err JFormatError).
Proof. eexists. vm_compute. reflexivity. Qed.

(** C07: into any bounded writer, success exactly when the output fits. *)
Theorem C07_json_succeeds_iff_it_fits :
  forall W E (SW : SerWrite W E) inv content, lawful SW inv content ->
  forall fp enc v w cap out, displays_propagate v -> inv w ->
  bounded SW inv content cap -> (length (content w) <= cap w)%nat ->
  js_full fp enc v = Ok out ->
  (snd (js_to_writer SW fp enc w v) = Ok tt <-> (length out <= cap w - length (content w))%nat).
Proof. exact @js_to_writer_capacity. Qed.
Print Assumptions C07_json_succeeds_iff_it_fits.

Theorem C07_json_slice_writer : forall fp enc v buf out, displays_propagate v ->
  js_full fp enc v = Ok out ->
  match js_to_writer SliceWriter fp enc (sl_new buf) v with
  | (w, Ok _) => (length out <= length buf)%nat /\ sl_as_ref w = Some out
  | (w, Err _) => (length buf < length out)%nat
  end.
Proof. exact js_slice_writer_fits. Qed.
Print Assumptions C07_json_slice_writer.

Example C07_json_case :
  js_full demo_fp Base64ByteEncoder (SSeq None [SBytes [1; 2]; SBool true]) = Ok [91; 34; 65; 81; 73; 34; 44; 116; 114; 117; 101; 93] /\
  snd (js_to_writer SliceWriter demo_fp Base64ByteEncoder (sl_new (repeat 0 12)) (SSeq None [SBytes [1; 2]; SBool true])) = Ok tt /\
  snd (js_to_writer SliceWriter demo_fp Base64ByteEncoder (sl_new (repeat 0 11)) (SSeq None [SBytes [1; 2]; SBool true]))
    = Err (JWriter BufferFull).
Proof. repeat split; vm_compute; reflexivity. Qed.

(** C31: on success the output is a JSON text without whitespace denoting the documented value. *)
Theorem C31_json_output_is_valid : forall fp enc v out,
  enc <> PassThroughByteEncoder -> printer_ok fp -> strings_ok v -> maps_ok v ->
  js_to_string fp enc v = Ok out -> exists j, js_value fp enc v = Some j /\ json_compact j out.
Proof. exact to_string_ok_documented. Qed.
Print Assumptions C31_json_output_is_valid.

(** C31: and it succeeds exactly when the value has a documented JSON form. *)
Theorem C31_json_succeeds_iff_documented : forall fp enc v,
  enc <> PassThroughByteEncoder -> printer_ok fp -> strings_ok v -> maps_ok v ->
  match js_value fp enc v with
  | Some j => exists out, js_to_string fp enc v = Ok out /\ json_compact j out
  | None => exists e, js_to_string fp enc v = Err e /\ (e = JInvalidKeyType \/ e = JFormatError \/ e = JSerializeError)
  end.
Proof. exact to_string_documented. Qed.
Print Assumptions C31_json_succeeds_iff_documented.

Example C31_case : printer_ok demo_fp /\ strings_ok jdemo /\ maps_ok jdemo /\
  js_value demo_fp ArrayByteEncoder jdemo = Some (JObj [([97], JNum [45;51;48;48]); ([99], JStr [104;10]);
    ([100], JArr [JBool true; JNull]); ([101], JObj [([55], JArr [JNum [49]; JNum [50;53;53]])])]).
Proof.
  split; [split; intros; apply dec_text_number|]. split; [jok|]. split; [jok|]. vm_compute. reflexivity.
Qed.

(** C32: the bytes given to [from_utf8_unchecked] are UTF-8, whatever the calls
    ([to_string_pass_bytes] checks them). Map calls need not alternate. *)
Theorem C32_to_string_is_utf8 : forall fp enc v out,
  (forall b, valid_utf8 (format_f32 fp b)) -> (forall b, valid_utf8 (format_f64 fp b)) ->
  strings_ok v -> js_to_string fp enc v = Ok out -> valid_utf8 out.
Proof. exact to_string_utf8. Qed.
Print Assumptions C32_to_string_is_utf8.

(** Two keys in a row, then none: not JSON, but UTF-8. *)
Example C32_case :
  strings_ok (SMap None [(true, SStr [195; 169]); (true, SBool true)]) /\
  js_to_string demo_fp ArrayByteEncoder (SMap None [(true, SStr [195; 169]); (true, SBool true)])
    = Ok [123; 34; 195; 169; 34; 44; 34; 116; 114; 117; 101; 34; 125] /\
  js_to_string demo_fp PassThroughByteEncoder (SBytes [195]) = Err JUtf8Encode.
Proof.
  split; [|split; vm_compute; reflexivity]. cbn. repeat split. exists [233].
  split; [repeat constructor; unfold is_scalar; lia|reflexivity].
Qed.

(** C33: a string becomes a literal with a body denoting it, without raw control characters. *)
Theorem C33_string_escaping : forall fp enc s, valid_utf8 s ->
  exists body, js_to_string fp enc (SStr s) = Ok (34 :: body ++ [34]) /\
    str_body false body s /\ valid_utf8 body /\ Forall (fun b => 32 <= b) body.
Proof. exact to_string_str. Qed.
Print Assumptions C33_string_escaping.

Example C33_escaping_case : valid_utf8 [34; 92; 10; 27; 127] /\
  js_to_string demo_fp ArrayByteEncoder (SStr [34; 92; 10; 27; 127])
    = Ok [34; 92;34; 92;92; 92;110; 92;117;48;48;49;66; 127; 34].
Proof. split; [apply ascii_ok; reflexivity|vm_compute; reflexivity]. Qed.

(** C34: integers are printed in canonical decimal form. *)
Theorem C34_integers_are_canonical : forall fp enc k z, in_ikind k z ->
  exists ds, int_part ds /\
    ((0 <= z /\ js_to_string fp enc (SInt k z) = Ok ds /\ dec_val ds = z) \/
     (z < 0 /\ js_to_string fp enc (SInt k z) = Ok (45 :: ds) /\ dec_val ds = - z)).
Proof. exact to_string_int. Qed.
Print Assumptions C34_integers_are_canonical.

Example C34_case : in_ikind I64 (- 2 ^ 63) /\
  js_to_string demo_fp ArrayByteEncoder (SInt I64 (- 2 ^ 63)) =
    Ok [45;57;50;50;51;51;55;50;48;51;54;56;53;52;55;55;53;56;48;56].
Proof. split; [unfold in_ikind; cbn; lia|vm_compute; reflexivity]. Qed.

(** C34: no scratch buffer index, string slice or unwrap of the serializer fails: it never
    panics, on any writer and with any calls. *)
Theorem C34_json_serialization_never_panics : forall W E (SW : SerWrite W E) fp enc v,
  strings_ok v -> forall w, snd (js_to_writer SW fp enc w v) <> Err JPanic.
Proof. exact @js_ser_calm. Qed.
Print Assumptions C34_json_serialization_never_panics.

Example C34_panic_case : strings_ok (SSeq None [SInt U64 (2 ^ 64 - 1); SStr [195; 169; 10]]).
Proof.
  cbn. split; [unfold in_ikind; cbn; lia|]. split; [|auto]. exists [233; 10].
  split; [repeat constructor; unfold is_scalar; lia|reflexivity].
Qed.

(** C36: a key that serializes is written as a string literal ... *)
Theorem C36_keys_are_strings : forall E v w w', strings_ok v -> js_key (@VecWriter E) v w = (w', Ok tt) ->
  exists s lit, key_doc v = Some s /\ w' = w ++ lit /\ json_string false s lit.
Proof. exact @key_literal. Qed.
Print Assumptions C36_keys_are_strings.

(** ... and one that cannot be a string fails before anything is written, on any writer. *)
Theorem C36_invalid_keys : forall W E (SW : SerWrite W E) v w,
  invalid_key v -> js_key SW v w = (w, Err JInvalidKeyType).
Proof. exact @key_invalid. Qed.
Print Assumptions C36_invalid_keys.

Example C36_case :
  js_key (@VecWriter ser_error) (SNewtypeStruct (SInt I8 (-5))) [] = ([34; 45; 53; 34], Ok tt) /\
  key_doc (SNewtypeStruct (SInt I8 (-5))) = Some [45; 53] /\
  invalid_key (SNewtypeStruct (SSome (SInt I8 1))).
Proof. repeat split. Qed.

(** C43: hex strings hold two upper-case digits per byte. *)
Theorem C43_hex_is_written : forall fp bs, all_bytes bs ->
  js_to_string fp HexStrByteEncoder (SBytes bs) = Ok (34 :: hex_text bs ++ [34]).
Proof. exact to_string_hex. Qed.
Print Assumptions C43_hex_is_written.

Example C43_written_case : hex_text [0; 171; 255] = [48; 48; 65; 66; 70; 70] /\ all_bytes [0; 171; 255].
Proof. split; [reflexivity|repeat constructor; lia]. Qed.

(** Properties of outputs compared with one another. *)
From Verif Require Import Prelude Utf8Spec SerdeSer SerdeDe MpSpec MpSer MpErrMap Types MpTypeSpec MpUnique UniqueTop JsonPrefix PropsMpSer PropsMpTyped.
From Verif Require Import JsonSpec JsonTypeSpec JsonSer JsonErrMap JsonDe JsonCases PropsJsonDe PropsJsonSer.

(** C70: no MessagePack encoding is the beginning of another one, of whatever value. *)
Theorem C70_msgpack_format_prefix_code : forall m m' bs k, mp_fmt m bs -> mp_fmt m' (bs ++ k) -> m = m' /\ k = [].
Proof. exact prefix_code. Qed.
Print Assumptions C70_msgpack_format_prefix_code.

(** C70: no output is the beginning of another one, whatever was written in whichever
    flavour; equal outputs represent the same MessagePack value. *)
Theorem C70_msgpack_prefix_code : forall cfg fl x out cfg' fl' x' k,
  sval_ok x -> 2 ^ 32 - 1 <= cfg_usize_max cfg -> sval_ok x' -> 2 ^ 32 - 1 <= cfg_usize_max cfg' ->
  mp_to_vec cfg fl x = Ok out -> mp_to_vec cfg' fl' x' = Ok (out ++ k) ->
  k = [] /\ mp_doc (style_of fl) x = mp_doc (style_of fl') x'.
Proof. exact outputs_prefix_code. Qed.
Print Assumptions C70_msgpack_prefix_code.

(** C70: values of a type written equally, even in different flavours, are equal up to
    [Some] of something written as nil. *)
Theorem C70_msgpack_injective : forall cfg fl cfg' fl' t v v' out k,
  2 ^ 32 - 1 <= cfg_usize_max cfg -> 2 ^ 32 - 1 <= cfg_usize_max cfg' -> wf t -> hastype t v -> hastype t v' ->
  mp_to_vec cfg fl (trace t v) = Ok out -> mp_to_vec cfg' fl' (trace t v') = Ok (out ++ k) ->
  k = [] /\ collapse nullish t v = collapse nullish t v'.
Proof. exact typed_prefix_code. Qed.
Print Assumptions C70_msgpack_injective.

(** [true, 300] as a tuple and as a struct written compactly; two values that are equal
    up to [Some]. *)
Example C70_case :
  mp_to_vec cfg64 StructMapStr (STuple 2 [SBool true; SInt U16 300]) = Ok [0x92; 0xc3; 0xcd; 1; 44] /\
  mp_to_vec cfg64 Compact (SStruct 2 [([97], Some (SBool true)); ([98], Some (SInt U16 300))]) = Ok ([0x92; 0xc3; 0xcd; 1; 44] ++ []) /\
  mp_doc SArray (SStruct 2 [([97], Some (SBool true)); ([98], Some (SInt U16 300))]) = Some (VArr [VBool true; VInt 300]) /\
  let t := TOption (TOption TBool) in
  wf t /\ hastype t UNone /\ hastype t (USome UNone) /\ mp_to_vec cfg64 Compact (trace t UNone) = Ok [0xc0] /\
  mp_to_vec cfg64 StructMapIdx (trace t (USome UNone)) = Ok ([0xc0] ++ []) /\ collapse nullish t (USome UNone) = UNone.
Proof. repeat split. Qed.

(** C70, JSON: values of a type written equally are equal up to what a round trip loses
    (C49): [Some] of null, floats without a number, the sign of zero.  Assumed of ryu-js:
    what it prints can be read back. *)
Theorem C70_json_injective : forall fl fp enc dec t v v' out,
  (forall b, 0 <= b < 2 ^ 32 -> finite32 b -> f32_from_str fl (format_f32 fp b) = Some (if b =? 0x80000000 then 0 else b)) ->
  (forall b, 0 <= b < 2 ^ 64 -> finite64 b -> f64_from_str fl (format_f64 fp b) = Some (if b =? 0x8000000000000000 then 0 else b)) ->
  printer_ok fp ->
  In (enc, dec) [(ArrayByteEncoder, NopeDecoder); (ArrayByteEncoder, HexDecoder); (ArrayByteEncoder, Base64Decoder);
                 (HexStrByteEncoder, HexDecoder); (Base64ByteEncoder, Base64Decoder)] ->
  wf t -> no_newtype_keys t -> hastype t v -> hastype t v' ->
  js_to_string fp enc (trace t v) = Ok out -> js_to_string fp enc (trace t v') = Ok out -> json_image t v = json_image t v'.
Proof. exact json_injective. Qed.
Print Assumptions C70_json_injective.
Example C70_json_case : let t := TTuple [TOption (TOption TBool); TStr] in
  let v := USeq [UNone; UStr [10]] in let v' := USeq [USome UNone; UStr [10]] in
  wf t /\ no_newtype_keys t /\ hastype t v /\ hastype t v' /\
  js_to_string bits_fp HexStrByteEncoder (trace t v) = Ok [91; 110;117;108;108; 44; 34; 92; 110; 34; 93] /\
  js_to_string bits_fp HexStrByteEncoder (trace t v') = Ok [91; 110;117;108;108; 44; 34; 92; 110; 34; 93] /\ json_image t v' = v.
Proof. cbv zeta. split; [shown|]. split; [shown|]. split; [shown|]. split; [shown|]. split; [vm_compute; reflexivity|]. split; [vm_compute; reflexivity|]. reflexivity. Qed.
(** C70: JSON texts are no prefix code: [1] and [12]. *)
Theorem C70_json_prefix_refuted : exists fp enc v v' out k, hastype (TInt U8) v /\ hastype (TInt U8) v' /\ k <> [] /\
  js_to_string fp enc (trace (TInt U8) v) = Ok out /\ js_to_string fp enc (trace (TInt U8) v') = Ok (out ++ k).
Proof. exact json_no_prefix_code. Qed.
Print Assumptions C70_json_prefix_refuted.

(** C70: only numbers are to blame.  No text of another document, with white space and
    escapes as one likes, is the beginning of a text of any document; *)
Theorem C70_json_format_prefix_code : forall d d' text k,
  loose_text d text -> loose_text d' (text ++ k) -> (forall tok, d <> JNum tok) -> d = d' /\ k = [].
Proof. exact documents_prefix_code. Qed.
Print Assumptions C70_json_format_prefix_code.

(** C70: no output other than a number is the beginning of another output, whatever was
    written with whichever encoder; equal outputs are the same document. *)
Theorem C70_json_prefix_code : forall fp enc x out fp' enc' x' k,
  enc <> PassThroughByteEncoder -> printer_ok fp -> strings_ok x -> maps_ok x ->
  enc' <> PassThroughByteEncoder -> printer_ok fp' -> strings_ok x' -> maps_ok x' ->
  js_to_string fp enc x = Ok out -> js_to_string fp' enc' x' = Ok (out ++ k) -> (forall tok, js_value fp enc x <> Some (JNum tok)) ->
  k = [] /\ js_value fp enc x = js_value fp' enc' x'.
Proof. exact json_outputs_prefix_code. Qed.
Print Assumptions C70_json_prefix_code.

Theorem C70_json_typed_prefix_code : forall fl fp enc dec t v v' out k,
  (forall b, 0 <= b < 2 ^ 32 -> finite32 b -> f32_from_str fl (format_f32 fp b) = Some (if b =? 0x80000000 then 0 else b)) ->
  (forall b, 0 <= b < 2 ^ 64 -> finite64 b -> f64_from_str fl (format_f64 fp b) = Some (if b =? 0x8000000000000000 then 0 else b)) ->
  printer_ok fp ->
  In (enc, dec) [(ArrayByteEncoder, NopeDecoder); (ArrayByteEncoder, HexDecoder); (ArrayByteEncoder, Base64Decoder);
                 (HexStrByteEncoder, HexDecoder); (Base64ByteEncoder, Base64Decoder)] ->
  wf t -> no_newtype_keys t -> hastype t v -> hastype t v' -> (forall tok, js_value fp enc (trace t v) <> Some (JNum tok)) ->
  js_to_string fp enc (trace t v) = Ok out -> js_to_string fp enc (trace t v') = Ok (out ++ k) ->
  k = [] /\ json_image t v = json_image t v'.
Proof. exact json_typed_prefix_code. Qed.
Print Assumptions C70_json_typed_prefix_code.
(** A tuple and a sequence written alike, with different encoders. *)
Example C70_json_prefix_case : let x := STuple 2 [SBool true; SInt U8 7] in let x' := SSeq None [SBool true; SInt I64 7] in
  printer_ok bits_fp /\ strings_ok x /\ maps_ok x /\ strings_ok x' /\ maps_ok x' /\
  js_to_string bits_fp ArrayByteEncoder x = Ok [91; 116;114;117;101; 44; 55; 93] /\
  js_to_string bits_fp HexStrByteEncoder x' = Ok ([91; 116;114;117;101; 44; 55; 93] ++ []) /\
  js_value bits_fp ArrayByteEncoder x = Some (JArr [JBool true; JNum [55]]).
Proof. cbv zeta. split; [apply bits_floats|]. do 4 (split; [cbn; unfold in_ikind; cbn; intuition (auto; lia)|]). split; [vm_compute; reflexivity|]. split; [vm_compute; reflexivity|]. vm_compute. reflexivity. Qed.

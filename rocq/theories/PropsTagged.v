(** C66: internally tagged enums ([#[serde(tag = "...")]]), which are written as structs
    with the tag as first field and read through a buffer. *)
From Verif Require Import Prelude Utf8Spec SerdeSer SerdeDe FloatOps MpSpec MpErrMap MpSer MpDe MpDeView MpDeTop Types MpTypeSpec Base64Spec JsonSpec JsonTypeSpec JsonSer JsonErrMap JsonDe
  JsonAnySpec JsonCases Content ContentSpec MpTagged JsonTagged PropsMpSer PropsMpDe PropsMpTyped PropsJsonSer.

(** #[serde(tag = "t")] enum E { Off, At { x: u8, y: Option<i16> = None, k: Kind } } *)
Definition tag_fields : list (bytes * fattr * ty) := [([120], FPlain, TInt U8); ([121], FDefault UNone, TOption (TInt I16)); ([107], FPlain, TTuple [TBool; TStr])].
Definition tag_vs : list (bytes * option (list (bytes * fattr * ty))) := [([79; 102; 102], None); ([65; 116], Some tag_fields)].
Definition tag_val : val := USeq [UInt 7; USome (UInt (-300)); USeq [UBool true; UStr [104; 105]]].
Definition tag_t : bytes := [116].

(** C66: every value is read back, in both the flavours that do not number fields. *)
Theorem C66_msgpack_tagged : forall ar fo cfg fl tag vs i f v out tail,
  arch32up ar -> names_ok (map fst vs) -> nth_error vs i = Some f -> wf (with_tag tag (variant_fields f)) -> strict (TStruct (variant_fields f)) ->
  told_apart (style_of fl) (TStruct (variant_fields f)) -> variant_hastype f v -> fl <> StructMapIdx ->
  2 ^ 32 - 1 <= cfg_usize_max cfg -> mp_to_vec cfg fl (tagged_trace tag vs (UVar i v)) = Ok out -> slice_of ar (out ++ tail) ->
  exists N, forall fuel, (N <= fuel)%nat ->
    exists s, mp_from_slice ar fo fuel (tagged fo DeserializeError tag vs) (out ++ tail) = Done s (Ok (UVar i v, zlen out)).
Proof. exact mp_tagged_trip. Qed.
Print Assumptions C66_msgpack_tagged.

Lemma tag_demo : names_ok (map fst tag_vs) /\ wf (with_tag tag_t tag_fields) /\ strict (TStruct tag_fields) /\ hastype (TStruct tag_fields) tag_val.
Proof. split; [shown|]. split; [shown|]. split; shown. Qed.
Example C66_msgpack_case : names_ok (map fst tag_vs) /\ wf (with_tag tag_t tag_fields) /\ strict (TStruct tag_fields) /\ hastype (TStruct tag_fields) tag_val /\
  told_apart SArray (TStruct tag_fields) /\
  mp_to_vec cfg64 Compact (tagged_trace tag_t tag_vs (UVar 1 tag_val)) = Ok [0x94; 0xa2; 65; 116; 7; 0xd1; 0xfe; 0xd4; 0x92; 0xc3; 0xa2; 104; 105] /\
  map (fun input => match mp_from_slice x64 no_floats 60 (tagged no_floats DeserializeError tag_t tag_vs) input with Done _ r => Some r | _ => None end)
    [[0x94; 0xa2; 65; 116; 7; 0xd1; 0xfe; 0xd4; 0x92; 0xc3; 0xa2; 104; 105; 1]; [0x91; 0xa3; 79; 102; 102]] = [Some (Ok (UVar 1 tag_val, 13)); Some (Ok (UVar 0 UUnit, 5))].
Proof.
  destruct tag_demo as (A & B & C & D). split; [exact A|]. split; [exact B|]. split; [exact C|]. split; [exact D|]. split; [cbn; intuition discriminate|].
  split; vm_compute; reflexivity.
Qed.

(** C66: with fields by number the tag is number 0, which the derived code does not know:
    no value is read back. *)
Theorem C66_msgpack_tag_by_number_refuted : forall ar fo cfg tag vs i f v out tail,
  arch32up ar -> names_ok (map fst vs) -> nth_error vs i = Some f -> wf (with_tag tag (variant_fields f)) -> strict (TStruct (variant_fields f)) ->
  told_apart SIndexMap (TStruct (variant_fields f)) -> variant_hastype f v ->
  2 ^ 32 - 1 <= cfg_usize_max cfg -> mp_to_vec cfg StructMapIdx (tagged_trace tag vs (UVar i v)) = Ok out -> slice_of ar (out ++ tail) ->
  exists N, forall fuel, (N <= fuel)%nat ->
    exists s, mp_from_slice ar fo fuel (tagged fo DeserializeError tag vs) (out ++ tail) = Done s (Err DeserializeError).
Proof. exact mp_tagged_index. Qed.
Print Assumptions C66_msgpack_tag_by_number_refuted.

Example C66_msgpack_tag_by_number_case : told_apart SIndexMap (TStruct tag_fields) /\
  mp_to_vec cfg64 StructMapIdx (tagged_trace tag_t tag_vs (UVar 0 UUnit)) = Ok [0x81; 0; 0xa3; 79; 102; 102] /\
  match mp_from_slice x64 no_floats 60 (tagged no_floats DeserializeError tag_t tag_vs) [0x81; 0; 0xa3; 79; 102; 102] with Done _ r => r = Err DeserializeError | _ => False end.
Proof. split; [cbn; intuition discriminate|]. split; vm_compute; reflexivity. Qed.

(** C66: JSON, with the conditions of C65 on what the buffer loses. *)
Theorem C66_json_tagged : forall ar fl fo (any_f32 : bool) dec fp enc tag vs i f v out w1 w2,
  let float_of := if any_f32 then f32_from_str fl else f64_from_str fl in
  enc <> PassThroughByteEncoder -> printer_ok fp -> names_ok (map fst vs) -> nth_error vs i = Some f -> wf (with_tag tag (variant_fields f)) ->
  strict (TStruct (variant_fields f)) -> variant_hastype f v -> text_keys (enc = ArrayByteEncoder) (TStruct (variant_fields f)) ->
  all_floats (fun b => finite32 b /\ told32 fo any_f32 float_of (format_f32 fp b) b)
             (fun b => finite64 b /\ told64 fo any_f32 float_of (format_f64 fp b) b) (tagged_trace tag vs (UVar i v)) ->
  js_to_string fp enc (tagged_trace tag vs (UVar i v)) = Ok out -> any_ws w1 -> any_ws w2 ->
  (dec = Base64Decoder -> 3 * zlen (w1 ++ out ++ w2) <= usize_max ar) ->
  exists N, forall fuel, (N <= fuel)%nat ->
    exists s, js_from_mut_slice ar fl any_f32 dec fuel (tagged fo JDeserializeError tag vs) (w1 ++ out ++ w2) = Done s (Ok (UVar i v)).
Proof. exact js_tagged_trip. Qed.
Print Assumptions C66_json_tagged.

(** {"t":"At","x":7,"y":-300,"k":[true,"hi"]}; the tag may come last, too. *)
Example C66_json_case : names_ok (map fst tag_vs) /\ wf (with_tag tag_t tag_fields) /\ strict (TStruct tag_fields) /\ hastype (TStruct tag_fields) tag_val /\
  text_keys (HexStrByteEncoder = ArrayByteEncoder) (TStruct tag_fields) /\
  all_floats (fun _ => False) (fun _ => False) (tagged_trace tag_t tag_vs (UVar 1 tag_val)) /\
  js_to_string demo_fp HexStrByteEncoder (tagged_trace tag_t tag_vs (UVar 1 tag_val)) =
    Ok [123; 34; 116; 34; 58; 34; 65; 116; 34; 44; 34; 120; 34; 58; 55; 44; 34; 121; 34; 58; 45; 51; 48; 48; 44; 34; 107; 34; 58; 91; 116; 114; 117; 101; 44; 34; 104; 105; 34; 93; 125] /\
  map (fun input => match js_from_mut_slice x64 bits_fl false HexDecoder 60 (tagged no_floats JDeserializeError tag_t tag_vs) input with Done _ r => Some r | _ => None end)
    [[123; 34; 116; 34; 58; 34; 65; 116; 34; 44; 34; 120; 34; 58; 55; 44; 34; 121; 34; 58; 45; 51; 48; 48; 44; 34; 107; 34; 58; 91; 116; 114; 117; 101; 44; 34; 104; 105; 34; 93; 125];
     [123; 34; 107; 34; 58; 91; 116; 114; 117; 101; 44; 34; 104; 105; 34; 93; 44; 34; 120; 34; 58; 55; 44; 34; 121; 34; 58; 45; 51; 48; 48; 44; 34; 116; 34; 58; 34; 65; 116; 34; 125]] =
    [Some (Ok (UVar 1 tag_val)); Some (Ok (UVar 1 tag_val))].
Proof.
  destruct tag_demo as (A & B & C & D). split; [exact A|]. split; [exact B|]. split; [exact C|]. split; [exact D|]. split; [cbn; intuition discriminate|]. split; [cbn; intuition discriminate|].
  split; vm_compute; reflexivity.
Qed.

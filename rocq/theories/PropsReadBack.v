(** What the serializers write, read by a type that takes whatever it finds
    ([deserialize_any], e.g. a generic value type).  The documented forms are those of
    [MpSpec] and [JsonSpec]; what they stand for is said by [denotes] and [value_as]. *)
From Verif Require Import Prelude Utf8Spec SerdeSer SerdeDe MpSpec MpErrMap MpSer MpDe MpDeTop FloatOps Types MpTypeSpec JsonSpec
  JsonTypeSpec JsonAnySpec JsonSer JsonErrMap JsonDe MpReadBack JsonReadBack PropsMpSer PropsMpDe PropsJsonSer PropsJsonDe.

(** C55: MessagePack.  Every output of every flavour is read, exactly to its end, as the
    value its documented form stands for. *)
Theorem C55_msgpack_output_reads_back : forall ar fo cfg fl v out tail,
  arch32up ar -> sval_ok v -> 2 ^ 32 - 1 <= cfg_usize_max cfg -> mp_to_vec cfg fl v = Ok out -> slice_of ar (out ++ tail) ->
  exists m w, mp_doc (style_of fl) v = Some m /\ denotes m (inl w) /\
    exists N, forall fuel, (N <= fuel)%nat ->
      exists s, mp_from_slice ar fo fuel (any DeserializeError) (out ++ tail) = Done s (Ok (w, zlen out)).
Proof. exact mp_read_back. Qed.
Print Assumptions C55_msgpack_output_reads_back.

(** The struct { a: 300, b: skipped, c: "hi", d: (true, ()) } by field index and by name. *)
Example C55_msgpack_case :
  sval_ok demo /\
  (exists out, mp_to_vec cfg64 StructMapIdx demo = Ok out /\
    match mp_from_slice PropsMpDe.x64 PropsMpDe.no_floats 40 (any DeserializeError) (out ++ [7]) with
    | Done _ r => r = Ok (UMap [(UInt 0, UInt 300); (UInt 2, UStr [104;105]); (UInt 3, USeq [UBool true; UUnit])], 13)
    | _ => False end) /\
  (exists out, mp_to_vec cfg64 StructMapStr demo = Ok out /\
    match mp_from_slice PropsMpDe.x64 PropsMpDe.no_floats 40 (any DeserializeError) out with
    | Done _ r => r = Ok (UMap [(UStr [97], UInt 300); (UStr [99], UStr [104;105]); (UStr [100], USeq [UBool true; UUnit])], zlen out)
    | _ => False end).
Proof.
  split; [ok_demo|]. split; eexists; (split; [vm_compute; reflexivity|vm_compute; reflexivity]).
Qed.

(** C55: JSON.  Every output of every encoder that fixes a form for byte strings is read
    as the value its documented form stands for, whatever whitespace surrounds it,
    provided the floats in it are printed as numbers a generic reader takes. *)
Theorem C55_json_output_reads_back : forall ar fl fp (any_f32 : bool) enc dec v out w1 w2,
  let float_of := if any_f32 then f32_from_str fl else f64_from_str fl in
  enc <> PassThroughByteEncoder -> printer_ok fp -> strings_ok v -> maps_ok v ->
  all_floats (fun b => finite32 b -> exists w, number_as any_f32 float_of w (format_f32 fp b))
             (fun b => finite64 b -> exists w, number_as any_f32 float_of w (format_f64 fp b)) v ->
  js_to_string fp enc v = Ok out -> any_ws w1 -> any_ws w2 ->
  (dec = Base64Decoder -> 3 * zlen (w1 ++ out ++ w2) <= usize_max ar) ->
  exists j w, js_value fp enc v = Some j /\ value_as any_f32 float_of w j /\
    exists N, forall fuel, (N <= fuel)%nat ->
      exists s, js_from_mut_slice ar fl any_f32 dec fuel (any JDeserializeError) (w1 ++ out ++ w2) = Done s (Ok w).
Proof. exact js_read_back. Qed.
Print Assumptions C55_json_output_reads_back.

Example C55_json_case :
  printer_ok demo_fp /\ strings_ok jdemo /\ maps_ok jdemo /\ all_floats (fun _ => False) (fun _ => False) jdemo /\
  (exists out, js_to_string demo_fp HexStrByteEncoder jdemo = Ok out /\
    match js_from_mut_slice PropsJsonDe.x64 PropsJsonDe.no_floats false NopeDecoder 60 (any JDeserializeError) ([32] ++ out ++ [10]) with
    | Done _ r => r = Ok (UMap [(UStr [97], UInt (-300)); (UStr [99], UStr [104;10]); (UStr [100], USeq [UBool true; UUnit]);
                                (UStr [101], UMap [(UStr [55], UStr [48;49;70;70])])])
    | _ => False end).
Proof.
  split; [exact (proj1 C31_case)|]. split; [exact (proj1 (proj2 C31_case))|]. split; [exact (proj1 (proj2 (proj2 C31_case)))|].
  split; [cbn; tauto|]. eexists. split; [vm_compute; reflexivity|vm_compute; reflexivity].
Qed.

(** C55: that proviso is needed.  ryu-js prints whole floats below 1e21 with all their
    digits and no fraction; from 2^64 on (1e20, say) a generic reader refuses the
    serializer's own output. *)
Theorem C55_json_large_floats_refuted : forall ar fl fp any_f32 enc dec b w,
  0 <= b < 2 ^ 64 -> finite64 b -> digits (format_f64 fp b) -> 2 ^ 64 <= dec_val (format_f64 fp b) ->
  enc <> PassThroughByteEncoder ->
  (dec = Base64Decoder -> 3 * zlen (format_f64 fp b) <= usize_max ar) ->
  js_to_string fp enc (SF64 b) = Ok (format_f64 fp b) /\
  ~ exists fuel s, js_from_mut_slice ar fl any_f32 dec fuel (any JDeserializeError) (format_f64 fp b) = Done s (Ok w).
Proof. exact js_big_float. Qed.
Print Assumptions C55_json_large_floats_refuted.

(** 1e20 has the bits 0x4415af1d78b58c40. *)
Example C55_json_large_case :
  let fp := {| format_f32 := dec_text; format_f64 := fun b => if b =? 0x4415af1d78b58c40 then dec_text (10 ^ 20) else [48] |} in
  finite64 0x4415af1d78b58c40 /\ dec_val (format_f64 fp 0x4415af1d78b58c40) = 10 ^ 20 /\
  js_to_string fp ArrayByteEncoder (SF64 0x4415af1d78b58c40) = Ok (49 :: repeat 48 20) /\
  match js_from_mut_slice PropsJsonDe.x64 PropsJsonDe.no_floats false NopeDecoder 30 (any JDeserializeError) (49 :: repeat 48 20) with
  | Done _ r => r = Err JInvalidNumber | _ => False end.
Proof.
  split; [unfold finite64; vm_compute; discriminate|]. split; [vm_compute; reflexivity|]. split; vm_compute; reflexivity.
Qed.

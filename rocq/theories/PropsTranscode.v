(** C73: programs that turn one format into the other through a self-describing value. *)
From Verif Require Import Prelude Utf8Spec SerdeSer SerdeDe FloatOps Arch MpSpec MpErrMap MpSer MpDe MpDeTop Types MpTypeSpec Base64Spec JsonSpec JsonTypeSpec JsonSer JsonErrMap
  JsonSerFacts JsonDe JsonCases JsonAnySpec Transcode TranscodeSpec TranscodeFacts TranscodeTop PropsMpSer PropsMpDe PropsMpTyped PropsJsonSer PropsJsonTyped.

Local Notation prog t := (denote DeserializeError t).

(** C73: what was written as MessagePack with names becomes the JSON text that the original
    value is written as. *)
Theorem C73_msgpack_to_json : forall ar fo cfg fp enc v b out tail,
  arch32up ar -> sval_ok v -> strings_ok v -> maps_ok v -> 2 ^ 32 - 1 <= cfg_usize_max cfg ->
  enc <> PassThroughByteEncoder -> printer_ok fp ->
  mp_to_vec cfg StructMapStr v = Ok b -> js_to_string fp enc v = Ok out -> slice_of ar (b ++ tail) ->
  exists w, js_to_string fp enc (value_trace w) = Ok out /\
    exists N, forall fuel, (N <= fuel)%nat -> exists s, mp_from_slice ar fo fuel (any DeserializeError) (b ++ tail) = Done s (Ok (w, zlen b)).
Proof. exact msgpack_to_json. Qed.
Print Assumptions C73_msgpack_to_json.

(** C73: JSON text becomes MessagePack of the same meaning and length as what the original value
    is written as with names, in every flavour: it has no struct any more. *)
Theorem C73_json_to_msgpack : forall ar fl (any_f32 : bool) dec cfg fp enc v b out w1 w2,
  let float_of := if any_f32 then f32_from_str fl else f64_from_str fl in
  sval_ok v -> strings_ok v -> maps_ok v -> json_native v ->
  all_floats (fun b => finite32 b /\ number_as any_f32 float_of (UF32 b) (format_f32 fp b))
             (fun b => finite64 b /\ number_as any_f32 float_of (UF64 b) (format_f64 fp b)) v ->
  2 ^ 32 - 1 <= cfg_usize_max cfg -> enc <> PassThroughByteEncoder -> printer_ok fp ->
  mp_to_vec cfg StructMapStr v = Ok b -> js_to_string fp enc v = Ok out -> any_ws w1 -> any_ws w2 ->
  (dec = Base64Decoder -> 3 * zlen (w1 ++ out ++ w2) <= usize_max ar) ->
  exists w, (forall fv, exists b' m, mp_to_vec cfg fv (value_trace w) = Ok b' /\ mp_fmt m b /\ mp_fmt m b' /\ length b' = length b) /\
    exists N, forall fuel, (N <= fuel)%nat -> exists s, js_from_mut_slice ar fl any_f32 dec fuel (any JDeserializeError) (w1 ++ out ++ w2) = Done s (Ok w).
Proof. exact json_to_msgpack. Qed.
Print Assumptions C73_json_to_msgpack.

(** C73: and that MessagePack is read as the original value at its type. *)
Theorem C73_json_to_msgpack_typed : forall ar fo fl (any_f32 : bool) dec cfg fp enc t v out w1 w2 fv tail,
  let float_of := if any_f32 then f32_from_str fl else f64_from_str fl in
  arch32up ar -> wf t -> hastype t v -> json_native (trace t v) ->
  all_floats (fun b => finite32 b /\ number_as any_f32 float_of (UF32 b) (format_f32 fp b))
             (fun b => finite64 b /\ number_as any_f32 float_of (UF64 b) (format_f64 fp b)) (trace t v) ->
  2 ^ 32 - 1 <= cfg_usize_max cfg -> enc <> PassThroughByteEncoder -> printer_ok fp ->
  js_to_string fp enc (trace t v) = Ok out -> any_ws w1 -> any_ws w2 ->
  (dec = Base64Decoder -> 3 * zlen (w1 ++ out ++ w2) <= usize_max ar) ->
  exists w b, mp_to_vec cfg fv (value_trace w) = Ok b /\
    (exists N, forall fuel, (N <= fuel)%nat -> exists s, js_from_mut_slice ar fl any_f32 dec fuel (any JDeserializeError) (w1 ++ out ++ w2) = Done s (Ok w)) /\
    (slice_of ar (b ++ tail) ->
     exists N, forall fuel, (N <= fuel)%nat -> exists s, mp_from_slice ar fo fuel (prog t) (b ++ tail) = Done s (Ok (collapse nullish t v, zlen b))).
Proof. exact json_to_typed. Qed.
Print Assumptions C73_json_to_msgpack_typed.

(** C73: in general, the document that a typed value is written as with names is read as that
    value from every shortest encoding of it, whichever program made it. *)
Theorem C73_shortest_encoding_is_read : forall ar fo t v m b tail,
  arch32up ar -> wf t -> hastype t v -> mp_doc SNameMap (trace t v) = Some m ->
  mp_fmt m b -> (forall b', mp_fmt m b' -> (length b <= length b')%nat) -> slice_of ar (b ++ tail) ->
  exists N, forall fuel, (N <= fuel)%nat -> exists s, mp_from_slice ar fo fuel (prog t) (b ++ tail) = Done s (Ok (collapse nullish t v, zlen b)).
Proof. exact shortest_read. Qed.
Print Assumptions C73_shortest_encoding_is_read.

(** The struct of C31 with a tuple, a skipped field, a map with a number for a key and a byte
    string: from MessagePack to the JSON it is written as. *)
Definition pumped_to_json (enc : byte_encoder) (b : bytes) :=
  match mp_from_slice x64 no_floats 80 (any DeserializeError) b with
  | Done _ (Ok (w, _)) => Some (js_to_string demo_fp enc (value_trace w))
  | _ => None
  end.
Example C73_msgpack_to_json_case : sval_ok jdemo /\ strings_ok jdemo /\ maps_ok jdemo /\
  match mp_to_vec cfg64 StructMapStr jdemo with Ok b => pumped_to_json HexStrByteEncoder b | Err _ => None end =
  Some (js_to_string demo_fp HexStrByteEncoder jdemo) /\
  (exists out, js_to_string demo_fp HexStrByteEncoder jdemo = Ok out).
Proof.
  split.
  { cbn. unfold in_ikind, is_len. cbn. repeat match goal with |- _ /\ _ => split end; auto; try lia; try reflexivity; try discriminate; try (apply ascii_ok; reflexivity); repeat (apply Forall_cons; [unfold is_byte; lia|]); apply Forall_nil. }
  split; [jok|]. split; [jok|]. split; [vm_compute; reflexivity|]. eexists. vm_compute. reflexivity.
Qed.
(** Without names they do not come back: [{"0":300}] and [[300]] for [{"x":300}]. *)
Example C73_without_names_case :
  map (fun fl => match mp_to_vec cfg64 fl (SStruct 1 [([120], Some (SInt U16 300))]) with Ok b => pumped_to_json ArrayByteEncoder b | Err _ => None end)
    [StructMapStr; StructMapIdx; Compact] =
  [Some (Ok [123; 34; 120; 34; 58; 51; 48; 48; 125]); Some (Ok [123; 34; 48; 34; 58; 51; 48; 48; 125]); Some (Ok [91; 51; 48; 48; 93])].
Proof. vm_compute. reflexivity. Qed.

(** The record of C21, [{"id":300,"t":["hi",""],"k":{"B":[-5,null]}}], to MessagePack and then
    to its type; the bytes differ from those of the record itself only in what signed and
    unsigned numbers look like. *)
Definition pumped_to_msgpack (fv : flavour) (b : bytes) :=
  match js_from_mut_slice x64 bits_fl false NopeDecoder 120 (any JDeserializeError) b with
  | Done _ (Ok w) => Some (mp_to_vec cfg64 fv (value_trace w))
  | _ => None
  end.
Definition rec_text : bytes :=
  [123; 34; 105; 100; 34; 58; 51; 48; 48; 44; 34; 116; 34; 58; 91; 34; 104; 105; 34; 44; 34; 34; 93; 44; 34; 107; 34; 58; 123; 34; 66; 34; 58; 91; 45; 53; 44; 110; 117; 108; 108; 93; 125; 125].
Example C73_json_to_msgpack_case : wf rec_ty /\ hastype rec_ty rec_val /\ json_native (trace rec_ty rec_val) /\
  all_floats (fun _ => False) (fun _ => False) (trace rec_ty rec_val) /\
  js_to_string bits_fp ArrayByteEncoder (trace rec_ty rec_val) = Ok rec_text /\
  map (fun fv => match pumped_to_msgpack fv ([32] ++ rec_text ++ [10]) with
                 | Some (Ok b) => match mp_from_slice x64 no_floats 80 (prog rec_ty) (b ++ [7]) with Done _ r => Some (length b, r) | _ => None end
                 | _ => None end) [Compact; StructMapIdx; StructMapStr] =
  repeat (Some (22%nat, Ok (rec_val, 22))) 3.
Proof.
  split; [exact (proj1 rec_wf)|]. split; [exact (proj2 (proj2 rec_wf))|]. split; [cbn; tauto|]. split; [cbn; tauto|].
  split; [vm_compute; reflexivity|]. vm_compute. reflexivity.
Qed.
(** A signed 300 is d1 01 2c, the unsigned one the number becomes is cd 01 2c. *)
Example C73_same_length_case :
  mp_to_vec cfg64 StructMapStr (SInt I32 300) = Ok [0xd1; 1; 44] /\
  pumped_to_msgpack StructMapStr [51; 48; 48] = Some (Ok [0xcd; 1; 44]).
Proof. split; vm_compute; reflexivity. Qed.
(** What JSON has no words for is not kept: byte strings come out as arrays of numbers,
    keys that are numbers as strings. *)
Example C73_json_native_needed_case :
  ~ json_native (SBytes [1; 2]) /\ ~ json_native (SMap (Some 1) [(true, SInt U8 7); (false, SUnit)]) /\
  map (fun v => match js_to_string demo_fp ArrayByteEncoder v with Ok out => pumped_to_msgpack StructMapStr out | Err _ => None end)
    [SBytes [1; 2]; SMap (Some 1) [(true, SInt U8 7); (false, SUnit)]] =
  [Some (Ok [0x92; 1; 2]); Some (Ok [0x81; 0xa1; 55; 0xc0])] /\
  map (fun v => mp_to_vec cfg64 StructMapStr v) [SBytes [1; 2]; SMap (Some 1) [(true, SInt U8 7); (false, SUnit)]] =
  [Ok [0xc4; 2; 1; 2]; Ok [0x81; 7; 0xc0]].
Proof. split; [cbn; tauto|]. split; [cbn; tauto|]. split; vm_compute; reflexivity. Qed.
(** C73: not from every encoding: the map of a variant with content must have the one-byte
    header.  MessagePack allows longer ones, and every other map is read with them (C22), but
    for an enum they are all refused. *)
Theorem C73_long_header_refuted : forall ar fo vs l b tail,
  arch32up ar -> wf (TEnum vs) -> mp_fmt (VMap l) b -> (forall x, b <> 0x81 :: x) -> slice_of ar (b ++ tail) ->
  exists N, forall fuel, (N <= fuel)%nat -> exists s, mp_from_slice ar fo fuel (prog (TEnum vs)) (b ++ tail) = Done s (Err ExpectedIdentifier).
Proof. exact long_header. Qed.
Print Assumptions C73_long_header_refuted.

Example C73_long_header_case :
  mp_doc SNameMap (trace kind_ty (UVar 1 (USeq [UInt (-5); UUnit]))) = Some (VMap [(VStr [66], VArr [VInt (-5); VNil])]) /\
  mp_fmt (VMap [(VStr [66], VArr [VInt (-5); VNil])]) [0xde; 0; 1; 0xa1; 66; 0x92; 0xfb; 0xc0] /\
  map (fun b => match mp_from_slice x64 no_floats 80 (prog kind_ty) b with Done _ r => Some r | _ => None end)
    [[0x81; 0xa1; 66; 0x92; 0xfb; 0xc0]; [0xde; 0; 1; 0xa1; 66; 0x92; 0xfb; 0xc0]] =
  [Some (Ok (UVar 1 (USeq [UInt (-5); UUnit]), 6)); Some (Err ExpectedIdentifier)].
Proof.
  split; [vm_compute; reflexivity|]. split; [|vm_compute; reflexivity].
  apply (MF_map _ [0xde; 0; 1] [0xa1; 66; 0x92; 0xfb; 0xc0]); [apply MH_16; be|].
  apply (MP_cons _ _ _ [0xa1; 66] [0x92; 0xfb; 0xc0] []); [| |constructor].
  - apply (MF_str [66] [0xa1]); [repeat constructor; unfold is_byte; lia|apply (SH_fix 1); lia].
  - apply (MF_arr _ [0x92] [0xfb; 0xc0]); [apply (AH_fix 2); lia|].
    apply (ML_cons _ _ [0xfb] [0xc0]); [apply MF_int, (IF_neg (-5)); lia|].
    apply (ML_cons _ _ [0xc0] []); [constructor|constructor].
Qed.

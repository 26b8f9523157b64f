(** C67: what was decoded from any input is a value of the type, and writing it again
    and reading that gives it back. *)
From Verif Require Import Prelude Utf8Spec SerdeSer SerdeDe FloatOps MpSpec MpErrMap MpSer MpDe MpDeTop Types MpTypeSpec MpTypedTop Base64Spec JsonSpec JsonTypeSpec JsonSer JsonErrMap JsonDe
  JsonCases StableSpec MpStable JsonStable PropsMpSer PropsMpDe PropsMpTyped.

(** C67: MessagePack.  The input may be anything, the second reader may be another
    target, the writer any flavour. *)
Theorem C67_msgpack_decoded : forall ar fo fuel t input s v n, arch64 ar -> conversions_ok fo -> wf t -> slice64 input ->
  mp_from_slice ar fo fuel (denote DeserializeError t) input = Done s (Ok (v, n)) -> hastype t v /\ collapse nullish t v = v.
Proof. exact mp_decoded_typed. Qed.
Print Assumptions C67_msgpack_decoded.
Theorem C67_msgpack_stable : forall ar ar' fo fo' cfg fl fuel t input s v n out tail,
  arch64 ar -> arch32up ar' -> conversions_ok fo -> wf t -> slice64 input ->
  mp_from_slice ar fo fuel (denote DeserializeError t) input = Done s (Ok (v, n)) ->
  mp_to_vec cfg fl (trace t v) = Ok out -> slice_of ar' (out ++ tail) ->
  exists N, forall fuel, (N <= fuel)%nat -> exists s, mp_from_slice ar' fo' fuel (denote DeserializeError t) (out ++ tail) = Done s (Ok (v, zlen out)).
Proof. exact mp_stable. Qed.
Print Assumptions C67_msgpack_stable.

(** struct { a: Option<Option<u8>>, b: f64 with a default }: as an array, and as a map
    with an unknown key and the number of field 0 in 32 bits; a wide integer in both. *)
Definition st_ty : ty := TStruct [([97], FPlain, TOption (TOption (TInt U8))); ([98], FDefault (UF64 0), TF64)].
Definition zero_floats : float_ops := {| int_to_f32 := fun _ => 0; int_to_f64 := fun _ => 0; f64_to_f32 := fun _ => 0; f32_to_f64 := fun _ => 0 |}.
Example C67_msgpack_case : conversions_ok zero_floats /\ wf st_ty /\
  map (fun input => match mp_from_slice x64 zero_floats 60 (denote DeserializeError st_ty) input with Done _ (Ok (v, _)) => Some v | _ => None end)
    [[0x91; 0xcd; 0; 7]; [0x82; 0xa1; 122; 0x90; 0xce; 0; 0; 0; 0; 0xcc; 7]; [0x80]] =
    [Some (USeq [USome (USome (UInt 7)); UF64 0]); Some (USeq [USome (USome (UInt 7)); UF64 0]); Some (USeq [UNone; UF64 0])] /\
  mp_to_vec cfg64 StructMapIdx (trace st_ty (USeq [USome (USome (UInt 7)); UF64 0])) = Ok [0x81; 0; 7] /\
  match mp_from_slice x64 zero_floats 60 (denote DeserializeError st_ty) [0x81; 0; 7] with Done _ r => r = Ok (USeq [USome (USome (UInt 7)); UF64 0], 3) | _ => False end.
Proof. split; [intros x; cbn; lia|]. split; [shown|]. split; [vm_compute; reflexivity|]. split; vm_compute; reflexivity. Qed.

(** C67: JSON.  Assumed of [str::parse]: it returns floats, the empty string is none,
    and number characters never spell a NaN. *)
Theorem C67_json_decoded : forall ar fl any_f32 dec fuel t input s v,
  f32_from_str fl [] = None -> f64_from_str fl [] = None ->
  (forall tok b, f32_from_str fl tok = Some b -> 0 <= b < 2 ^ 32) /\ (forall tok b, f64_from_str fl tok = Some b -> 0 <= b < 2 ^ 64) ->
  wf t -> all_bytes input -> short input -> (dec = Base64Decoder -> 3 * zlen input <= usize_max ar) ->
  js_from_mut_slice ar fl any_f32 dec fuel (denote JDeserializeError t) input = Done s (Ok v) -> hastype t v.
Proof. exact (fun ar fl any_f32 dec fuel t input s v F1 F2 R W B L H E => proj1 (js_decoded_typed ar fl any_f32 dec fuel t input s v F1 F2 R W B L H E)). Qed.
Print Assumptions C67_json_decoded.
Theorem C67_json_stable : forall ar fl any_f32 dec fp enc fuel t input s v out w1 w2,
  f32_from_str fl [] = None -> f64_from_str fl [] = None ->
  (forall tok b, f32_from_str fl tok = Some b -> 0 <= b < 2 ^ 32) /\ (forall tok b, f64_from_str fl tok = Some b -> 0 <= b < 2 ^ 64) ->
  (forall tok, number_run tok -> f32_from_str fl tok <> Some 0x7fc00000 /\ f64_from_str fl tok <> Some 0x7ff8000000000000) ->
  (forall b, 0 <= b < 2 ^ 32 -> finite32 b -> f32_from_str fl (format_f32 fp b) = Some (if b =? 0x80000000 then 0 else b)) ->
  (forall b, 0 <= b < 2 ^ 64 -> finite64 b -> f64_from_str fl (format_f64 fp b) = Some (if b =? 0x8000000000000000 then 0 else b)) ->
  printer_ok fp ->
  In (enc, dec) [(ArrayByteEncoder, NopeDecoder); (ArrayByteEncoder, HexDecoder); (ArrayByteEncoder, Base64Decoder);
                 (HexStrByteEncoder, HexDecoder); (Base64ByteEncoder, Base64Decoder)] ->
  wf t -> no_newtype_keys t -> all_bytes input -> short input -> (dec = Base64Decoder -> 3 * zlen input <= usize_max ar) ->
  js_from_mut_slice ar fl any_f32 dec fuel (denote JDeserializeError t) input = Done s (Ok v) -> floats_kept v ->
  js_to_string fp enc (trace t v) = Ok out -> any_ws w1 -> any_ws w2 -> (dec = Base64Decoder -> 3 * zlen (w1 ++ out ++ w2) <= usize_max ar) ->
  exists N, forall fuel, (N <= fuel)%nat ->
    exists s, js_from_mut_slice ar fl any_f32 dec fuel (denote JDeserializeError t) (w1 ++ out ++ w2) = Done s (Ok v).
Proof. exact js_stable. Qed.
Print Assumptions C67_json_stable.
(** C67: whatever the floats, the second pass changes nothing any more. *)
Theorem C67_json_settles : forall ar fl any_f32 dec fp enc fuel t input s v out w1 w2 out' w3 w4,
  f32_from_str fl [] = None -> f64_from_str fl [] = None ->
  (forall tok b, f32_from_str fl tok = Some b -> 0 <= b < 2 ^ 32) /\ (forall tok b, f64_from_str fl tok = Some b -> 0 <= b < 2 ^ 64) ->
  (forall b, 0 <= b < 2 ^ 32 -> finite32 b -> f32_from_str fl (format_f32 fp b) = Some (if b =? 0x80000000 then 0 else b)) ->
  (forall b, 0 <= b < 2 ^ 64 -> finite64 b -> f64_from_str fl (format_f64 fp b) = Some (if b =? 0x8000000000000000 then 0 else b)) ->
  printer_ok fp ->
  In (enc, dec) [(ArrayByteEncoder, NopeDecoder); (ArrayByteEncoder, HexDecoder); (ArrayByteEncoder, Base64Decoder);
                 (HexStrByteEncoder, HexDecoder); (Base64ByteEncoder, Base64Decoder)] ->
  wf t -> no_newtype_keys t -> all_bytes input -> short input -> (dec = Base64Decoder -> 3 * zlen input <= usize_max ar) ->
  js_from_mut_slice ar fl any_f32 dec fuel (denote JDeserializeError t) input = Done s (Ok v) ->
  js_to_string fp enc (trace t v) = Ok out -> any_ws w1 -> any_ws w2 -> (dec = Base64Decoder -> 3 * zlen (w1 ++ out ++ w2) <= usize_max ar) ->
  js_to_string fp enc (trace t (json_image t v)) = Ok out' -> any_ws w3 -> any_ws w4 -> (dec = Base64Decoder -> 3 * zlen (w3 ++ out' ++ w4) <= usize_max ar) ->
  exists N, forall fuel, (N <= fuel)%nat ->
    (exists s, js_from_mut_slice ar fl any_f32 dec fuel (denote JDeserializeError t) (w1 ++ out ++ w2) = Done s (Ok (json_image t v))) /\
    (exists s, js_from_mut_slice ar fl any_f32 dec fuel (denote JDeserializeError t) (w3 ++ out' ++ w4) = Done s (Ok (json_image t v))).
Proof. exact js_settles. Qed.
Print Assumptions C67_json_settles.

(** C67: a number beyond the floats is read as an infinity, which is written as null:
    [Some(inf)] becomes [None]. *)
Theorem C67_json_overflow_refuted : forall ar fl fp any_f32 enc dec tok b,
  json_number tok -> f64_from_str fl tok = Some b -> 0 <= b < 2 ^ 64 -> ~ finite64 b ->
  In (enc, dec) [(ArrayByteEncoder, NopeDecoder); (ArrayByteEncoder, HexDecoder); (ArrayByteEncoder, Base64Decoder);
                 (HexStrByteEncoder, HexDecoder); (Base64ByteEncoder, Base64Decoder)] ->
  (dec = Base64Decoder -> 3 * (zlen tok + 4) <= usize_max ar) ->
  exists N, forall fuel, (N <= fuel)%nat ->
    (exists s, js_from_mut_slice ar fl any_f32 dec fuel (denote JDeserializeError (TOption TF64)) tok = Done s (Ok (USome (UF64 b)))) /\
    js_to_string fp enc (trace (TOption TF64) (USome (UF64 b))) = Ok [110; 117; 108; 108] /\
    (exists s, js_from_mut_slice ar fl any_f32 dec fuel (denote JDeserializeError (TOption TF64)) [110; 117; 108; 108] = Done s (Ok UNone)).
Proof. exact overflow_lost. Qed.
Print Assumptions C67_json_overflow_refuted.

(** [{ "b" : 3 , "z":[], "a":7}], read, written, read; and the number of an infinity. *)
Example C67_json_case :
  (forall tok b, f32_from_str some_fl tok = Some b -> 0 <= b < 2 ^ 32) /\ (forall tok b, f64_from_str some_fl tok = Some b -> 0 <= b < 2 ^ 64) /\
  (forall tok, f32_from_str some_fl tok <> Some 0x7fc00000 /\ f64_from_str some_fl tok <> Some 0x7ff8000000000000) /\
  law32 some_fl bits_fp /\ law64 some_fl bits_fp /\ printer_ok bits_fp /\ wf st_ty /\ no_newtype_keys st_ty /\
  floats_kept (USeq [USome (USome (UInt 7)); UF64 3]) /\
  match js_from_mut_slice x64 some_fl false NopeDecoder 60 (denote JDeserializeError st_ty)
    [123; 32; 34; 98; 34; 32; 58; 32; 51; 32; 44; 32; 34; 122; 34; 58; 91; 93; 44; 32; 34; 92; 117; 48; 48; 54; 49; 34; 58; 55; 125] with
  | Done _ r => r = Ok (USeq [USome (USome (UInt 7)); UF64 3]) | _ => False end /\
  js_to_string bits_fp ArrayByteEncoder (trace st_ty (USeq [USome (USome (UInt 7)); UF64 3])) = Ok [123; 34; 97; 34; 58; 55; 44; 34; 98; 34; 58; 51; 125] /\
  match js_from_mut_slice x64 some_fl false NopeDecoder 60 (denote JDeserializeError st_ty) [123; 34; 97; 34; 58; 55; 44; 34; 98; 34; 58; 51; 125] with
  | Done _ r => r = Ok (USeq [USome (USome (UInt 7)); UF64 3]) | _ => False end /\
  f64_from_str some_fl [57; 50; 49; 56; 56; 54; 56; 52; 51; 55; 50; 50; 55; 52; 48; 53; 51; 49; 50] = Some 0x7ff0000000000000 /\ ~ finite64 0x7ff0000000000000.
Proof.
  destruct some_floats as ((R32 & R64) & L32 & L64 & N). split; [exact R32|]. split; [exact R64|]. split; [exact N|]. split; [exact L32|]. split; [exact L64|].
  split; [apply bits_floats|]. split; [shown|]. split; [cbn; auto|]. split; [cbn; split; [auto|split; [left; split; [vm_compute; discriminate|lia]|auto]]|].
  split; [vm_compute; reflexivity|]. split; [vm_compute; reflexivity|]. split; [vm_compute; reflexivity|]. split; [vm_compute; reflexivity|].
  intros H. apply H. vm_compute. reflexivity.
Qed.

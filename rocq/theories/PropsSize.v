(** C62: what decoding returns is bounded by the bytes it was given: a header cannot
    claim what is not there.  [SizeSpec] counts the parts of a value, and how many of
    them the type lets one byte stand for. *)
From Verif Require Import Prelude SerdeSer SerdeDe FloatOps MpSpec MpDe MpDeTop Types MpTypeSpec SizeSpec.
From Verif Require Import JsonSpec JsonTypeSpec JsonDe JsonCases.
From Verif Require SizeTop PropsMpDe PropsMpTyped PropsJsonDe PropsJsonAny.

(** A value of a type has at most [per_byte] parts for each byte consumed, and no
    value is free. *)
Theorem C62_msgpack_typed_size : forall ar fo fuel t input s v n,
  arch64 ar -> wf t -> slice64 input ->
  mp_from_slice ar fo fuel (denote DeserializeError t) input = Done s (Ok (v, n)) ->
  Z.of_nat (val_size v) <= Z.of_nat (per_byte t) * n /\ 1 <= n <= zlen input.
Proof. exact SizeTop.mp_typed_size. Qed.
Print Assumptions C62_msgpack_typed_size.

(** A self-described value has at most as many parts as it has bytes. *)
Theorem C62_msgpack_any_size : forall ar fo fuel input s v n,
  arch32up ar -> slice_of ar input ->
  mp_from_slice ar fo fuel (any DeserializeError) input = Done s (Ok (v, n)) ->
  Z.of_nat (val_size v) <= n <= zlen input.
Proof. exact SizeTop.mp_any_size. Qed.
Print Assumptions C62_msgpack_any_size.

Theorem C62_json_typed_size : forall ar fl any_f32 dec fuel t input s v,
  f32_from_str fl [] = None -> f64_from_str fl [] = None ->
  wf t -> all_bytes input -> (dec = Base64Decoder -> 3 * zlen input <= usize_max ar) ->
  js_from_mut_slice ar fl any_f32 dec fuel (denote JDeserializeError t) input = Done s (Ok v) ->
  Z.of_nat (val_size v) <= Z.of_nat (per_byte t) * zlen input.
Proof. exact SizeTop.js_typed_size. Qed.
Print Assumptions C62_json_typed_size.

Theorem C62_json_any_size : forall ar fl any_f32 dec fuel input s v,
  all_bytes input -> (dec = Base64Decoder -> 3 * zlen input <= usize_max ar) ->
  js_from_mut_slice ar fl any_f32 dec fuel (any JDeserializeError) input = Done s (Ok v) ->
  Z.of_nat (val_size v) <= zlen input.
Proof. exact SizeTop.js_any_size. Qed.
Print Assumptions C62_json_any_size.

(** The record of C21 in 22 bytes: 13 parts, 11 per byte allowed; an array of two
    numbers, where the bound for self-described values is met; a header promising
    2^32-1 elements gives nothing at all. *)
Example C62_msgpack_case :
  let rec_bytes := [0x83; 0xa2; 105; 100; 0xcd; 1; 44; 0xa1; 116; 0x92; 0xa2; 104; 105; 0xa0; 0xa1; 107; 0x81; 0xa1; 66; 0x92; 0xfb; 0xc0] in
  (exists s, mp_from_slice PropsMpDe.x64 PropsMpDe.no_floats 40 (denote DeserializeError PropsMpTyped.rec_ty) (rec_bytes ++ [7]) = Done s (Ok (PropsMpTyped.rec_val, 22))) /\
  (val_size PropsMpTyped.rec_val, per_byte PropsMpTyped.rec_ty) = (13, 11)%nat /\
  (exists s, mp_from_slice PropsMpDe.x64 PropsMpDe.no_floats 20 (any DeserializeError) [0x92; 7; 8] = Done s (Ok (USeq [UInt 7; UInt 8], 3))) /\
  val_size (USeq [UInt 7; UInt 8]) = 3%nat /\
  (exists s, mp_from_slice PropsMpDe.x64 PropsMpDe.no_floats 20 (any DeserializeError) [0xdd; 255; 255; 255; 255; 7; 8] = Done s (Err UnexpectedEof)).
Proof. cbv zeta. split; [eexists; vm_compute; reflexivity|]. split; [reflexivity|]. split; [eexists; vm_compute; reflexivity|]. split; [reflexivity|eexists; vm_compute; reflexivity]. Qed.
(** A struct with a default of 50 bytes read from the two bytes [[]]. *)
Example C62_json_case :
  let t := TStruct [([120], FDefault (UBytes (repeat 7 50)), TBytes)] in
  (map (fun input => match js_from_mut_slice PropsJsonDe.x64 bits_fl false NopeDecoder 30 (denote JDeserializeError t) input with Done _ r => Some r | _ => None end)
    [[91; 93]] = [Some (Ok (USeq [UBytes (repeat 7 50)]))]) /\
  (val_size (USeq [UBytes (repeat 7 50)]), per_byte t) = (52, 53)%nat /\
  (match js_from_mut_slice PropsJsonDe.x64 bits_fl false NopeDecoder 30 (any JDeserializeError) PropsJsonAny.any_text with Done _ r => r = Ok PropsJsonAny.any_val | _ => False end) /\
  (val_size PropsJsonAny.any_val, length PropsJsonAny.any_text) = (12, 29)%nat.
Proof. cbv zeta. split; [vm_compute; reflexivity|]. split; [reflexivity|]. split; [vm_compute; reflexivity|reflexivity]. Qed.

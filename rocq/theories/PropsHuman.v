(** C74: types with one form for people and another for machines. *)
From Verif Require Import Prelude Utf8Spec SerdeSer SerdeDe MpSpec MpTypeSpec MpSer MpDe MpDeTop FloatOps Types JsonSpec JsonTypeSpec JsonSer JsonErrMap JsonDe
  JsonCases PropsMpSer PropsMpDe PropsMpTyped HumanReadable HumanFacts.

(** C74: MessagePack: the serializers make such a type write its compact form and the
    deserializer makes it read that form: its value comes back as of [c] alone
    (C49), whatever the other form is. *)
Theorem C74_msgpack_two_forms : forall ar fo cfg fl h c x out tail,
  arch32up ar -> wf c -> hastype c (snd x) ->
  mp_to_vec cfg fl (form_trace mp_human_readable h c x) = Ok out -> slice_of ar (out ++ tail) ->
  exists N, forall fuel, (N <= fuel)%nat ->
    exists s, mp_from_slice ar fo fuel (forms DeserializeError h c) (out ++ tail) = Done s (Ok (collapse nullish c (snd x), zlen out)).
Proof. exact (fun ar fo cfg fl h c x out tail A => mp_forms ar fo A cfg fl h c x out tail). Qed.
Print Assumptions C74_msgpack_two_forms.

(** C74: the same inside a vector. *)
Theorem C74_msgpack_two_forms_vec : forall ar fo cfg fl h c xs out tail,
  arch32up ar -> wf c -> Forall (fun x => hastype c (snd x)) xs -> zlen xs < 2 ^ 32 ->
  mp_to_vec cfg fl (forms_seq_trace mp_human_readable h c xs) = Ok out -> slice_of ar (out ++ tail) ->
  exists N, forall fuel, (N <= fuel)%nat ->
    exists s, mp_from_slice ar fo fuel (forms_seq DeserializeError h c) (out ++ tail)
      = Done s (Ok (USeq (map (fun x => collapse nullish c (snd x)) xs), zlen out)).
Proof. exact (fun ar fo cfg fl h c xs out tail A => mp_forms_seq ar fo A cfg fl h c xs out tail). Qed.
Print Assumptions C74_msgpack_two_forms_vec.

(** C74: JSON: the form for people, on both sides. *)
Theorem C74_json_two_forms : forall ar fl fp any_f32 enc dec h c x out w1 w2,
  (forall b, 0 <= b < 2 ^ 32 -> finite32 b -> f32_from_str fl (format_f32 fp b) = Some (if b =? 0x80000000 then 0 else b)) ->
  (forall b, 0 <= b < 2 ^ 64 -> finite64 b -> f64_from_str fl (format_f64 fp b) = Some (if b =? 0x8000000000000000 then 0 else b)) ->
  printer_ok fp ->
  In (enc, dec) [(ArrayByteEncoder, NopeDecoder); (ArrayByteEncoder, HexDecoder); (ArrayByteEncoder, Base64Decoder);
                 (HexStrByteEncoder, HexDecoder); (Base64ByteEncoder, Base64Decoder)] ->
  wf h -> hastype h (fst x) -> no_newtype_keys h ->
  js_to_string fp enc (form_trace js_human_readable h c x) = Ok out -> any_ws w1 -> any_ws w2 ->
  (dec = Base64Decoder -> 3 * zlen (w1 ++ out ++ w2) <= usize_max ar) ->
  exists N, forall fuel, (N <= fuel)%nat ->
    exists s, js_from_mut_slice ar fl any_f32 dec fuel (forms JDeserializeError h c) (w1 ++ out ++ w2) = Done s (Ok (json_image h (fst x))).
Proof. exact js_forms. Qed.
Print Assumptions C74_json_two_forms.

Theorem C74_json_two_forms_vec : forall ar fl fp any_f32 enc dec h c xs out w1 w2,
  (forall b, 0 <= b < 2 ^ 32 -> finite32 b -> f32_from_str fl (format_f32 fp b) = Some (if b =? 0x80000000 then 0 else b)) ->
  (forall b, 0 <= b < 2 ^ 64 -> finite64 b -> f64_from_str fl (format_f64 fp b) = Some (if b =? 0x8000000000000000 then 0 else b)) ->
  printer_ok fp ->
  In (enc, dec) [(ArrayByteEncoder, NopeDecoder); (ArrayByteEncoder, HexDecoder); (ArrayByteEncoder, Base64Decoder);
                 (HexStrByteEncoder, HexDecoder); (Base64ByteEncoder, Base64Decoder)] ->
  wf h -> Forall (fun x => hastype h (fst x)) xs -> zlen xs < 2 ^ 32 -> no_newtype_keys h ->
  js_to_string fp enc (forms_seq_trace js_human_readable h c xs) = Ok out -> any_ws w1 -> any_ws w2 ->
  (dec = Base64Decoder -> 3 * zlen (w1 ++ out ++ w2) <= usize_max ar) ->
  exists N, forall fuel, (N <= fuel)%nat ->
    exists s, js_from_mut_slice ar fl any_f32 dec fuel (forms_seq JDeserializeError h c) (w1 ++ out ++ w2)
      = Done s (Ok (USeq (map (fun x => json_image h (fst x)) xs))).
Proof. exact js_forms_seq. Qed.
Print Assumptions C74_json_two_forms_vec.

(** A vector of two IPv4 addresses: "1.2.3.4" or [1, 2, 3, 4]. *)
Example C74_case :
  let h := TStr in
  let c := TTuple [TInt U8; TInt U8; TInt U8; TInt U8] in
  let addr a := (UStr [a; 46; 50; 46; 51; 46; 52], USeq [UInt (a - 48); UInt 2; UInt 3; UInt 4]) in
  let xs := [addr 49; addr 57] in
  let mp := [0x92; 0x94; 1; 2; 3; 4; 0x94; 9; 2; 3; 4] in
  let js := [91; 34; 49; 46; 50; 46; 51; 46; 52; 34; 44; 34; 57; 46; 50; 46; 51; 46; 52; 34; 93] in
  (Forall (fun x => hastype h (fst x) /\ hastype c (snd x)) xs /\ wf h /\ wf c) /\
  mp_to_vec cfg64 Compact (forms_seq_trace mp_human_readable h c xs) = Ok mp /\
  js_to_string bits_fp ArrayByteEncoder (forms_seq_trace js_human_readable h c xs) = Ok js /\
  match mp_from_slice x64 no_floats 40 (forms_seq DeserializeError h c) mp with Done _ r => r = Ok (USeq (map snd xs), 11) | _ => False end /\
  match js_from_mut_slice x64 bits_fl false NopeDecoder 40 (forms_seq JDeserializeError h c) js with Done _ r => r = Ok (USeq (map fst xs)) | _ => False end /\
  match mp_from_slice x64 no_floats 40 (forms_seq DeserializeError h c) [0x91; 0xa1; 49] with Done _ r => r = Err ExpectedArray | _ => False end.
Proof.
  cbn zeta. split.
  { split; [|split; shown]. constructor; [split; shown|]. constructor; [split; shown|constructor]. }
  split; [vm_compute; reflexivity|]. split; [vm_compute; reflexivity|]. split; [vm_compute; reflexivity|].
  split; vm_compute; reflexivity.
Qed.

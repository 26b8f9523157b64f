(** C61: what [SeqAccess::size_hint] and [MapAccess::size_hint] tell a visitor. *)
From Verif Require Import Prelude Utf8Spec SerdeSer SerdeDe FloatOps MpSpec MpDe MpDeTop Types MpTypeSpec HintSpec.
From Verif Require Import JsonSpec JsonTypeSpec JsonDe.
From Verif Require Hints JsonHints JsonTypedTop PropsMpDe PropsJsonDe.

(** *** MessagePack *)

(** Before each element the number of elements left, zero at the end; for arrays and
    tuples of any length. *)
Theorem C61_msgpack_seq_hints : forall ar fo m t l bs tail,
  arch32up ar -> In m [DSeq; DTuple; DTupleStruct] -> wf t -> adm fo (TSeq t) (USeq l) bs -> slice_of ar (bs ++ tail) ->
  exists N, forall fuel, (N <= fuel)%nat -> exists s,
    mp_from_slice ar fo fuel (request m (v_seq DeserializeError (watch (denote DeserializeError t) []))) (bs ++ tail)
    = Done s (Ok (USeq (counted l), zlen bs)).
Proof. exact (fun ar fo m t l bs tail A => Hints.seq_hints ar fo A m t l bs tail). Qed.
Print Assumptions C61_msgpack_seq_hints.
Theorem C61_msgpack_map_hints : forall ar fo kt vt l bs tail,
  arch32up ar -> wf kt -> wf vt -> adm fo (TMap kt vt) (UMap l) bs -> slice_of ar (bs ++ tail) ->
  exists N, forall fuel, (N <= fuel)%nat -> exists s,
    mp_from_slice ar fo fuel (request DMap (v_map DeserializeError (watch_map (denote DeserializeError kt) (denote DeserializeError vt) []))) (bs ++ tail)
    = Done s (Ok (USeq (counted_map l), zlen bs)).
Proof. exact (fun ar fo kt vt l bs tail A => Hints.map_hints ar fo A kt vt l bs tail). Qed.
Print Assumptions C61_msgpack_map_hints.

(** The hint is the number in the header, whatever comes after it (nothing, even): a
    visitor that asks goes on as if it had known the number. *)
Theorem C61_msgpack_hint_declared : forall ar fo n h tail fuel,
  arch32up ar -> slice_of ar (h ++ tail) ->
  (arr_hdr n h -> forall k,
   mp_from_slice ar fo (S (S fuel)) (request DSeq (v_seq DeserializeError (SHint k))) (h ++ tail) =
   mp_from_slice ar fo (S fuel) (request DSeq (v_seq DeserializeError (k (Some n)))) (h ++ tail)) /\
  (map_hdr n h -> forall k,
   mp_from_slice ar fo (S (S fuel)) (request DMap (v_map DeserializeError (MHint k))) (h ++ tail) =
   mp_from_slice ar fo (S fuel) (request DMap (v_map DeserializeError (k (Some n)))) (h ++ tail)).
Proof.
  exact (fun ar fo n h tail fuel A S => conj (fun H k => Hints.hint_eq ar fo A n h tail k fuel H S) (fun H k => Hints.map_hint_eq ar fo A n h tail k fuel H S)).
Qed.
Print Assumptions C61_msgpack_hint_declared.

(** So it is not bounded by the input: five bytes can promise 2^32 - 1 elements.  A
    visitor that makes room for them before reading fails, or brings the machine down. *)
Theorem C61_msgpack_hint_bounded_refuted : forall ar fo n, arch32up ar -> 0 <= n < 2 ^ 32 ->
  exists input, slice_of ar input /\ zlen input = 5 /\ forall fuel room,
    let visitor := SHint (fun h => match h with
      | Some n => if room <? n then SRet (Err DeserializeError) else SRet (Ok UUnit)
      | None => SRet (Ok UUnit)
      end) in
    room < n -> exists s, mp_from_slice ar fo (S (S (S fuel))) (request DSeq (v_seq DeserializeError visitor)) input = Done s (Err DeserializeError).
Proof. exact Hints.hint_exceeds. Qed.
Print Assumptions C61_msgpack_hint_bounded_refuted.

Example C61_msgpack_case : exists s,
  adm PropsMpDe.no_floats (TSeq TBool) (USeq [UBool true; UBool false]) [0x92; 0xc3; 0xc2] /\
  mp_from_slice PropsMpDe.x64 PropsMpDe.no_floats 20 (request DSeq (v_seq DeserializeError (watch (denote DeserializeError TBool) []))) [0x92; 0xc3; 0xc2; 7]
  = Done s (Ok (USeq [USeq [USome (UInt 2); UBool true]; USeq [USome (UInt 1); UBool false]; USome (UInt 0)], 3)).
Proof.
  eexists. split; [|vm_compute; reflexivity]. exists [0x92], [0xc3; 0xc2]. split; [reflexivity|]. split; [apply (AH_fix 2); lia|].
  exists [0xc3], [0xc2]. split; [reflexivity|]. split; [reflexivity|]. exists [0xc2], []. repeat split.
Qed.

(** *** JSON: no hints, ever. *)
Theorem C61_json_seq_hints : forall ar fl any_f32 dec t l d text w1 w2,
  wf t ->
  reads_as no_ws (f32_from_str fl) (f64_from_str fl)
    (match dec with NopeDecoder => bytes_as_string | HexDecoder => hex_bytes | Base64Decoder => bytes_as_base64 end) (TSeq t) (USeq l) d ->
  raw_text d text -> any_ws w1 -> any_ws w2 ->
  (dec = Base64Decoder -> 3 * zlen (w1 ++ text ++ w2) <= usize_max ar) ->
  exists N, forall fuel, (N <= fuel)%nat -> exists s,
    js_from_mut_slice ar fl any_f32 dec fuel (request DSeq (v_seq JDeserializeError (watch (denote JDeserializeError t) []))) (w1 ++ text ++ w2)
    = Done s (Ok (USeq (uncounted l))).
Proof. exact JsonHints.seq_hints_raw. Qed.
Print Assumptions C61_json_seq_hints.
Theorem C61_json_map_hints : forall ar fl any_f32 dec kt vt l d text w1 w2,
  wf kt -> wf vt ->
  reads_as no_ws (f32_from_str fl) (f64_from_str fl)
    (match dec with NopeDecoder => bytes_as_string | HexDecoder => hex_bytes | Base64Decoder => bytes_as_base64 end) (TMap kt vt) (UMap l) d ->
  raw_text d text -> any_ws w1 -> any_ws w2 ->
  (dec = Base64Decoder -> 3 * zlen (w1 ++ text ++ w2) <= usize_max ar) ->
  exists N, forall fuel, (N <= fuel)%nat -> exists s,
    js_from_mut_slice ar fl any_f32 dec fuel (request DMap (v_map JDeserializeError (watch_map (denote JDeserializeError kt) (denote JDeserializeError vt) []))) (w1 ++ text ++ w2)
    = Done s (Ok (USeq (uncounted_map l))).
Proof. exact JsonHints.map_hints_raw. Qed.
Print Assumptions C61_json_map_hints.

(** [{"k":1}], a map from strings to u8. *)
Example C61_json_case :
  match js_from_mut_slice PropsJsonDe.x64 PropsJsonDe.no_floats false NopeDecoder 30
     (request DMap (v_map JDeserializeError (watch_map (denote JDeserializeError TStr) (denote JDeserializeError (TInt U8)) [])))
     [123; 34; 107; 34; 58; 49; 125] with Done _ r => Some r | _ => None end
  = Some (Ok (USeq [USeq [UNone; UStr [107]; UNone; UInt 1]; UNone])).
Proof. vm_compute. reflexivity. Qed.

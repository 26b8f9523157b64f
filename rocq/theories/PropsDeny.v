(** C77: structs that refuse unknown fields ([#[serde(deny_unknown_fields)]]). *)
From Verif Require Import Prelude Utf8Spec SerdeSer SerdeDe FloatOps Arch MpSpec MpErrMap MpSer Types MpTypeSpec Base64Spec JsonSpec JsonTypeSpec JsonSer JsonErrMap JsonDe
  JsonCases JsonFaultSpec MpDe MpDeView MpDeTop TypeSize Deny DenySpec MpFaultSpec DenyFaultSpec PropsMpSer PropsMpDe PropsMpTyped PropsJsonSer PropsJsonTyped PropsFlatten.
From Verif Require MpDeny MpDenySer JsonDeny JsonDenySer MpDenyNewer JsonDenyNewer MpDenyFault JsonSound.

(** C77: MessagePack.  The struct is read from an array, and from a map that has the fields in
    any order, by name or by number, and nothing else. *)
Theorem C77_msgpack_takes : forall fo fs ar l bs tail,
  arch32up ar -> wf (TStruct fs) -> deny_enc fo fs l bs -> slice_of ar (bs ++ tail) ->
  exists N, forall fuel, (N <= fuel)%nat ->
    exists s, mp_from_slice ar fo fuel (denying DeserializeError fs) (bs ++ tail) = Done s (Ok (USeq l, zlen bs)).
Proof. exact MpDeny.mp_denying_takes. Qed.
Print Assumptions C77_msgpack_takes.
Theorem C77_msgpack_truncated : forall fo fs ar l bs c q,
  arch32up ar -> wf (TStruct fs) -> deny_enc fo fs l (bs ++ c :: q) -> slice_of ar (bs ++ c :: q) ->
  exists N, forall fuel, (N <= fuel)%nat ->
    exists s, mp_from_slice ar fo fuel (denying DeserializeError fs) bs = Done s (Err UnexpectedEof).
Proof. exact MpDeny.mp_denying_truncated. Qed.
Print Assumptions C77_msgpack_truncated.
(** C77: every input is decided. *)
Theorem C77_msgpack_decides : forall fo fs ar input fuel,
  arch64 ar -> wf (TStruct fs) -> slice64 input -> (10 * type_size (TStruct fs) + 1 + 3 * length input <= fuel)%nat ->
  (exists s l bs tail, mp_from_slice ar fo fuel (denying DeserializeError fs) input = Done s (Ok (USeq l, zlen bs)) /\
     input = bs ++ tail /\ deny_enc fo fs l bs) \/
  (exists s e, mp_from_slice ar fo fuel (denying DeserializeError fs) input = Done s (Err e) /\
     forall l bs tail, input = bs ++ tail -> ~ deny_enc fo fs l bs).
Proof. exact MpDeny.mp_denying_decides. Qed.
Print Assumptions C77_msgpack_decides.
(** C77: a key that is no field's ends decoding with [DeserializeError], whatever follows it. *)
Theorem C77_msgpack_unknown_refused : forall ar fo fs bs tail,
  arch32up ar -> wf (TStruct fs) -> deny_unknown fo fs bs -> slice_of ar (bs ++ tail) ->
  exists N, forall fuel, (N <= fuel)%nat ->
    exists s, mp_from_slice ar fo fuel (denying DeserializeError fs) (bs ++ tail) = Done s (Err DeserializeError).
Proof. exact MpDenySer.mp_deny_unknown. Qed.
Print Assumptions C77_msgpack_unknown_refused.
(** C77: what is written is read back, in every flavour: no key is written that is refused. *)
Theorem C77_msgpack_round_trip : forall ar fo cfg fl fs l out tail,
  arch32up ar -> wf (TStruct fs) -> hastype (TStruct fs) (USeq l) ->
  mp_to_vec cfg fl (trace (TStruct fs) (USeq l)) = Ok out -> slice_of ar (out ++ tail) ->
  exists N, forall fuel, (N <= fuel)%nat ->
    exists s, mp_from_slice ar fo fuel (denying DeserializeError fs) (out ++ tail) = Done s (Ok (collapse nullish (TStruct fs) (USeq l), zlen out)).
Proof. exact MpDenySer.mp_denying_round_trip. Qed.
Print Assumptions C77_msgpack_round_trip.
(** C77: the attribute only refuses more. *)
Theorem C77_msgpack_weaker : forall ar fo fs fuel input s u n,
  arch64 ar -> wf (TStruct fs) -> slice64 input ->
  mp_from_slice ar fo fuel (denying DeserializeError fs) input = Done s (Ok (u, n)) ->
  exists N, forall fuel', (N <= fuel')%nat ->
    exists s', mp_from_slice ar fo fuel' (denote DeserializeError (TStruct fs)) input = Done s' (Ok (u, n)).
Proof. exact MpDenySer.mp_denying_weaker. Qed.
Print Assumptions C77_msgpack_weaker.
(** C77: no encoding is one of two values, or the beginning of another. *)
Theorem C77_msgpack_unambiguous : forall fo fs l l' bs tail, wf (TStruct fs) -> slice64 (bs ++ tail) ->
  deny_enc fo fs l bs -> deny_enc fo fs l' (bs ++ tail) -> l = l' /\ tail = [].
Proof. exact MpDenySer.mp_denying_unambiguous. Qed.
Print Assumptions C77_msgpack_unambiguous.

(** struct { a: u8, b: String }: {"b": "hi", "a": 7}, the same by number, and [7, "hi"]; what is
    refused: an unknown name, an unknown number, a field twice, a field missing.  Without the
    attribute the first two of these are read. *)
Definition deny_mp : bytes := [0x82; 0xa1; 98; 0xa2; 104; 105; 0xa1; 97; 7].
Definition deny_mp_more : bytes := [0x83; 0xa1; 98; 0xa2; 104; 105; 0xa1; 122; 5; 0xa1; 97; 7].
Example C77_msgpack_case : wf (TStruct flat_fs) /\ hastype (TStruct flat_fs) (USeq flat_l) /\ deny_enc no_floats flat_fs flat_l deny_mp /\
  deny_unknown no_floats flat_fs (firstn 8 deny_mp_more) /\
  mp_to_vec cfg64 StructMapStr (trace (TStruct flat_fs) (USeq flat_l)) = Ok [0x82; 0xa1; 97; 7; 0xa1; 98; 0xa2; 104; 105] /\
  (10 * type_size (TStruct flat_fs) + 1 + 3 * length deny_mp_more <= 99)%nat /\
  (let run p input := match mp_from_slice x64 no_floats 99 p input with Done _ r => Some r | _ => None end in
   map (run (denying DeserializeError flat_fs)) [deny_mp ++ [1]; [0x82; 1; 0xa2; 104; 105; 0; 7]; [0x92; 7; 0xa2; 104; 105]]
   = [Some (Ok (USeq flat_l, 9)); Some (Ok (USeq flat_l, 7)); Some (Ok (USeq flat_l, 5))] /\
   map (run (denying DeserializeError flat_fs)) [deny_mp_more; [0x83; 1; 0xa2; 104; 105; 2; 5; 0; 7]; [0x83; 1; 0xa0; 0; 7; 0; 7]; [0x81; 0; 7]; firstn 8 deny_mp]
   = [Some (Err DeserializeError); Some (Err DeserializeError); Some (Err DeserializeError); Some (Err DeserializeError); Some (Err UnexpectedEof)] /\
   map (run (denote DeserializeError (TStruct flat_fs))) [deny_mp_more; [0x83; 1; 0xa2; 104; 105; 2; 5; 0; 7]]
   = [Some (Ok (USeq flat_l, 12)); Some (Ok (USeq flat_l, 9))]).
Proof.
  assert (E : forall c, str_enc [c] [0xa1; c]) by (intros c; exists [0xa1]; split; [apply (SH_fix 1); lia|reflexivity]).
  assert (S : adm no_floats TStr (UStr [104; 105]) [0xa2; 104; 105]) by (split; [utf8|]; exists [0xa2]; split; [apply (SH_fix 2); lia|reflexivity]).
  assert (K : forall i c, nth_error (map name_of flat_fs) i = Some [c] -> ident_enc (map name_of flat_fs) i [0xa1; c]) by (intros i c Hi; left; exists [c]; split; [exact Hi|apply E]).
  split; [shown|]. split; [shown|]. split; [|split; [|split; [vm_compute; reflexivity|split; [vm_compute; lia|split; [|split]; vm_compute; reflexivity]]]].
  - right. exists 2, [0x82], (tl deny_mp), [Some (UInt 7); Some (UStr [104; 105])]. split; [reflexivity|]. split; [apply (MH_fix 2); lia|]. split; [|cbn; auto].
    eapply (KE_field _ _ _ 1 1 _ (UStr [104; 105]) [0xa1; 98] [0xa2; 104; 105]); [reflexivity|reflexivity|apply K; reflexivity|exact S|].
    eapply (KE_field _ _ _ 0 0 _ (UInt 7) [0xa1; 97] [7] []); [reflexivity|reflexivity|apply K; reflexivity| |apply KE_nil].
    cbn [adm snd]. split; [unfold in_ikind; cbn; lia|]. constructor. lia.
  - exists 3, 1, [0x83], [0xa1; 98; 0xa2; 104; 105], [None; Some (UStr [104; 105])], [0xa1; 122]. split; [reflexivity|]. split; [apply (MH_fix 3); lia|]. split; [lia|]. split.
    + eapply (KE_field _ _ _ 0 1 _ (UStr [104; 105]) [0xa1; 98] [0xa2; 104; 105] []); [reflexivity|reflexivity|apply K; reflexivity|exact S|apply KE_nil].
    + left. exists [122]. split; [utf8|]. split; [cbn; intuition discriminate|apply E].
Qed.

(** C77: the same for JSON. *)
Theorem C77_json_takes : forall ar fl (any_f32 : bool) dec fs l d text w1 w2,
  wf (TStruct fs) -> deny_doc (reads_as any_ws (f32_from_str fl) (f64_from_str fl) (byte_literal dec)) fs l d ->
  loose_text d text -> any_ws w1 -> any_ws w2 -> (dec = Base64Decoder -> 3 * zlen (w1 ++ text ++ w2) <= usize_max ar) ->
  exists N, forall fuel, (N <= fuel)%nat ->
    exists s, js_from_mut_slice ar fl any_f32 dec fuel (denying JDeserializeError fs) (w1 ++ text ++ w2) = Done s (Ok (USeq l)).
Proof. exact JsonDeny.js_denying_takes. Qed.
Print Assumptions C77_json_takes.
Theorem C77_json_decides : forall ar fl (any_f32 : bool) dec fs input fuel,
  f32_from_str fl [] = None -> f64_from_str fl [] = None -> wf (TStruct fs) -> all_bytes input ->
  (dec = Base64Decoder -> 3 * zlen input <= usize_max ar) -> (10 * type_size (TStruct fs) + 1 + 3 * length input <= fuel)%nat ->
  let from l d := deny_doc (reads_as any_ws (f32_from_str fl) (f64_from_str fl) (byte_literal dec)) fs l d in
  (exists s l d w1 text w2, js_from_mut_slice ar fl any_f32 dec fuel (denying JDeserializeError fs) input = Done s (Ok (USeq l)) /\
     input = w1 ++ text ++ w2 /\ any_ws w1 /\ any_ws w2 /\ loose_text d text /\ from l d) \/
  (exists s e, js_from_mut_slice ar fl any_f32 dec fuel (denying JDeserializeError fs) input = Done s (Err e) /\
     forall l d w1 text w2, input = w1 ++ text ++ w2 -> any_ws w1 -> any_ws w2 -> loose_text d text -> ~ from l d).
Proof. exact JsonDeny.js_denying_decides. Qed.
Print Assumptions C77_json_decides.
(** C77: no beginning of a JSON document, other than of a number, is taken for a value. *)
Theorem C77_json_cut_refused : forall ar fl (any_f32 : bool) dec fs fuel s u d w1 text p q,
  f32_from_str fl [] = None -> f64_from_str fl [] = None -> wf (TStruct fs) ->
  (dec = Base64Decoder -> 3 * zlen (w1 ++ text) <= usize_max ar) ->
  loose_text d text -> any_ws w1 -> (forall tok, d <> JNum tok) -> w1 ++ text = p ++ q -> q <> [] ->
  js_from_mut_slice ar fl any_f32 dec fuel (denying JDeserializeError fs) p <> Done s (Ok u).
Proof. exact JsonDeny.js_denying_cut. Qed.
Print Assumptions C77_json_cut_refused.
(** C77: the key of an unknown member ends decoding, whatever follows it. *)
Theorem C77_json_unknown_refused : forall ar fl (any_f32 : bool) dec fs input,
  wf (TStruct fs) -> all_bytes input -> (dec = Base64Decoder -> 3 * zlen input <= usize_max ar) ->
  deny_member (f32_from_str fl) (f64_from_str fl) dec fs input ->
  exists N, forall fuel, (N <= fuel)%nat ->
    exists s, js_from_mut_slice ar fl any_f32 dec fuel (denying JDeserializeError fs) input = Done s (Err JDeserializeError).
Proof. exact JsonDenySer.js_deny_member. Qed.
Print Assumptions C77_json_unknown_refused.
Theorem C77_json_round_trip : forall ar fl fp (any_f32 : bool) enc dec fs l out w1 w2,
  (forall b, 0 <= b < 2 ^ 32 -> finite32 b -> f32_from_str fl (format_f32 fp b) = Some (if b =? 0x80000000 then 0 else b)) ->
  (forall b, 0 <= b < 2 ^ 64 -> finite64 b -> f64_from_str fl (format_f64 fp b) = Some (if b =? 0x8000000000000000 then 0 else b)) ->
  printer_ok fp ->
  In (enc, dec) [(ArrayByteEncoder, NopeDecoder); (ArrayByteEncoder, HexDecoder); (ArrayByteEncoder, Base64Decoder);
                 (HexStrByteEncoder, HexDecoder); (Base64ByteEncoder, Base64Decoder)] ->
  wf (TStruct fs) -> hastype (TStruct fs) (USeq l) -> no_newtype_keys (TStruct fs) ->
  js_to_string fp enc (trace (TStruct fs) (USeq l)) = Ok out -> any_ws w1 -> any_ws w2 ->
  (dec = Base64Decoder -> 3 * zlen (w1 ++ out ++ w2) <= usize_max ar) ->
  exists N, forall fuel, (N <= fuel)%nat ->
    exists s, js_from_mut_slice ar fl any_f32 dec fuel (denying JDeserializeError fs) (w1 ++ out ++ w2) = Done s (Ok (json_image (TStruct fs) (USeq l))).
Proof.
  intros ar fl fp any_f32 enc dec fs l out w1 w2 L32 L64 P F W H K.
  exact (JsonDenySer.js_denying_round_trip ar fl fp any_f32 enc dec fs l out w1 w2 (law_inverse32 fl fp L32) (law_inverse64 fl fp L64) (flavours_match enc dec F) P W H K).
Qed.
Print Assumptions C77_json_round_trip.
Theorem C77_json_weaker : forall ar fl (any_f32 : bool) dec fs fuel input s u,
  f32_from_str fl [] = None -> f64_from_str fl [] = None -> wf (TStruct fs) -> all_bytes input ->
  (dec = Base64Decoder -> 3 * zlen input <= usize_max ar) ->
  js_from_mut_slice ar fl any_f32 dec fuel (denying JDeserializeError fs) input = Done s (Ok u) ->
  exists N, forall fuel', (N <= fuel')%nat ->
    exists s', js_from_mut_slice ar fl any_f32 dec fuel' (denote JDeserializeError (TStruct fs)) input = Done s' (Ok u).
Proof. exact JsonDenySer.js_denying_weaker. Qed.
Print Assumptions C77_json_weaker.
Theorem C77_json_unambiguous : forall f32_of f64_of dec fs l l' d text, wf (TStruct fs) -> loose_text d text ->
  let from l := deny_doc (reads_as any_ws f32_of f64_of (byte_literal dec)) fs l d in from l -> from l' -> l = l'.
Proof. exact JsonDenySer.js_denying_one_value. Qed.
Print Assumptions C77_json_unambiguous.

(** {"b":"hi","a":7}, whole and cut at every place, and [7,"hi"]; refused: {"b":"hi","z":5,"a":7}, which is
    read without the attribute, a field twice, a field missing. *)
Definition deny_text : bytes := [123; 34; 98; 34; 58; 34; 104; 105; 34; 44; 34; 97; 34; 58; 55; 125].
Definition deny_text_more : bytes := [123; 34; 98; 34; 58; 34; 104; 105; 34; 44; 34; 122; 34; 58; 53; 44; 34; 97; 34; 58; 55; 125].
Definition deny_members : list (bytes * jv) := [([98], JStr [104; 105]); ([97], JNum [55])].
Example C77_json_case :
  deny_doc (reads_as any_ws (f32_from_str bits_fl) (f64_from_str bits_fl) (byte_literal HexDecoder)) flat_fs flat_l (JObj deny_members) /\
  deny_member (f32_from_str bits_fl) (f64_from_str bits_fl) HexDecoder flat_fs deny_text_more /\
  f32_from_str bits_fl [] = None /\ f64_from_str bits_fl [] = None /\
  js_to_string bits_fp HexStrByteEncoder (trace (TStruct flat_fs) (USeq flat_l)) = Ok [123; 34; 97; 34; 58; 55; 44; 34; 98; 34; 58; 34; 104; 105; 34; 125] /\
  (10 * type_size (TStruct flat_fs) + 1 + 3 * length deny_text_more <= 129)%nat /\
  (let run p input := match js_from_mut_slice x64 bits_fl false HexDecoder 129 p input with Done _ r => Some r | _ => None end in
   map (run (denying JDeserializeError flat_fs)) [deny_text ++ [32]; [91; 55; 44; 34; 104; 105; 34; 93]; deny_text_more;
     [123; 34; 97; 34; 58; 55; 44; 34; 97; 34; 58; 55; 125]; [123; 34; 97; 34; 58; 55; 125]]
   = [Some (Ok (USeq flat_l)); Some (Ok (USeq flat_l)); Some (Err JDeserializeError); Some (Err JDeserializeError); Some (Err JDeserializeError)] /\
   run (denote JDeserializeError (TStruct flat_fs)) deny_text_more = Some (Ok (USeq flat_l)) /\
   forallb (fun n => match run (denying JDeserializeError flat_fs) (firstn n deny_text) with Some (Err _) => true | _ => false end) (seq 0 (length deny_text)) = true).
Proof.
  assert (B : forall c r, ~ is_ws c -> begins (c :: r) c r) by (intros c r H; exists []; split; [reflexivity|]; split; [constructor|exact H]).
  split; [|split; [|split; [reflexivity|]; split; [reflexivity|]; split; [vm_compute; reflexivity|]; split; [vm_compute; lia|]; split; [|split]; vm_compute; reflexivity]].
  - right. exists deny_members, [Some (UInt 7); Some (UStr [104; 105])]. split; [reflexivity|]. split; [|cbn; auto]. unfold deny_members.
    eapply (KM_field _ _ _ 1 [98] _ (UStr [104; 105])); [reflexivity|reflexivity|reflexivity|ascii|eexists; split; [reflexivity|ascii]|].
    eapply (KM_field _ _ _ 0 [97] _ (UInt 7)); [reflexivity|reflexivity|reflexivity|ascii| |apply KM_nil].
    exists [55]. split; [reflexivity|]. split; [unfold in_ikind; cbn; lia|]. exists false, [55]. split; [reflexivity|].
    split; [split; [dgt|right; exists 55, []; split; [reflexivity|lia]]|]. split; [reflexivity|discriminate].
  - exists (tl deny_text_more), [None; Some (UStr [104; 105])], false, (skipn 9 deny_text_more), [122], [122], (skipn 13 deny_text_more).
    split; [apply B; unfold is_ws; lia|]. split; [|split; [|split; [ascii|cbn; intuition discriminate]]].
    + eapply (TK_field _ _ _ _ _ _ _ 1 _ (UStr [104; 105]) [98] (skipn 4 deny_text_more) (skipn 5 deny_text_more) (skipn 9 deny_text_more)); [|reflexivity|reflexivity|ascii|apply B; unfold is_ws; lia| |apply TK_nil].
      * exists 34, (skipn 2 deny_text_more). split; [reflexivity|]. split; [discriminate|]. split; [apply B; unfold is_ws; lia|discriminate].
      * exists [], (JStr [104; 105]), [34; 104; 105; 34]. split; [reflexivity|]. split; [constructor|]. split; [|split; [eexists; split; [reflexivity|ascii]|exact I]].
        apply T_str. split; [reflexivity|]. eapply (JsonSound.literal_span _ [104; 105]). ascii.
    + exists 34, (skipn 11 deny_text_more). split; [reflexivity|]. split; [discriminate|]. exists (skipn 10 deny_text_more). split; apply B; unfold is_ws; lia.
Qed.

(** C77: what a later version of the struct writes, with a field more, is refused; [gs] are the
    fields added at the end, one of which is written. *)
Theorem C77_msgpack_newer_refused : forall ar fo cfg fl fs gs l out tail,
  arch32up ar -> wf (TStruct fs) -> wf (TStruct (fs ++ gs)) -> hastype (TStruct (fs ++ gs)) (USeq l) ->
  fl <> Compact -> (exists i f v, (length fs <= i)%nat /\ nth_error (fs ++ gs) i = Some f /\ nth_error l i = Some v /\ skipped (attr_of f) v = false) ->
  mp_to_vec cfg fl (trace (TStruct (fs ++ gs)) (USeq l)) = Ok out -> slice_of ar (out ++ tail) ->
  exists N, forall fuel, (N <= fuel)%nat ->
    exists s, mp_from_slice ar fo fuel (denying DeserializeError fs) (out ++ tail) = Done s (Err DeserializeError).
Proof. exact MpDenyNewer.mp_denying_newer. Qed.
Print Assumptions C77_msgpack_newer_refused.
Theorem C77_json_newer_refused : forall fp enc ar fl (any_f32 : bool) dec fs gs l out fuel w1 w2,
  enc <> PassThroughByteEncoder -> printer_ok fp ->
  f32_from_str fl [] = None -> f64_from_str fl [] = None -> wf (TStruct fs) -> wf (TStruct (fs ++ gs)) -> hastype (TStruct (fs ++ gs)) (USeq l) ->
  (exists i f v, (length fs <= i)%nat /\ nth_error (fs ++ gs) i = Some f /\ nth_error l i = Some v /\ skipped (attr_of f) v = false) ->
  js_to_string fp enc (trace (TStruct (fs ++ gs)) (USeq l)) = Ok out -> any_ws w1 -> any_ws w2 ->
  (dec = Base64Decoder -> 3 * zlen (w1 ++ out ++ w2) <= usize_max ar) -> (10 * type_size (TStruct fs) + 1 + 3 * length (w1 ++ out ++ w2) <= fuel)%nat ->
  exists st e, js_from_mut_slice ar fl any_f32 dec fuel (denying JDeserializeError fs) (w1 ++ out ++ w2) = Done st (Err e).
Proof. exact JsonDenyNewer.js_denying_newer. Qed.
Print Assumptions C77_json_newer_refused.
(** C77: an object is refused for an unknown member anywhere in it. *)
Theorem C77_json_other_refused : forall ar fl (any_f32 : bool) dec fs fuel ms m s text w1 w2,
  f32_from_str fl [] = None -> f64_from_str fl [] = None -> wf (TStruct fs) ->
  loose_text (JObj ms) text -> In m ms -> literal (fst m) s -> ~ In s (map name_of fs) -> any_ws w1 -> any_ws w2 ->
  (dec = Base64Decoder -> 3 * zlen (w1 ++ text ++ w2) <= usize_max ar) -> (10 * type_size (TStruct fs) + 1 + 3 * length (w1 ++ text ++ w2) <= fuel)%nat ->
  exists st e, js_from_mut_slice ar fl any_f32 dec fuel (denying JDeserializeError fs) (w1 ++ text ++ w2) = Done st (Err e).
Proof. exact JsonDenyNewer.js_denying_other. Qed.
Print Assumptions C77_json_other_refused.
(** struct { a: u8, b: String, c: bool } read as struct { a: u8, b: String }. *)
Example C77_newer_case :
  let gs := [([99], FPlain, TBool)] in let l := flat_l ++ [UBool true] in
  wf (TStruct (flat_fs ++ gs)) /\ hastype (TStruct (flat_fs ++ gs)) (USeq l) /\
  (exists i f v, (length flat_fs <= i)%nat /\ nth_error (flat_fs ++ gs) i = Some f /\ nth_error l i = Some v /\ skipped (attr_of f) v = false) /\
  map (fun fl => match mp_to_vec cfg64 fl (trace (TStruct (flat_fs ++ gs)) (USeq l)) with
    | Ok out => match mp_from_slice x64 no_floats 99 (denying DeserializeError flat_fs) out with Done _ r => Some (out, r) | _ => None end | _ => None end) [StructMapStr; StructMapIdx]
  = [Some ([0x83; 0xa1; 97; 7; 0xa1; 98; 0xa2; 104; 105; 0xa1; 99; 0xc3], Err DeserializeError); Some ([0x83; 0; 7; 1; 0xa2; 104; 105; 2; 0xc3], Err DeserializeError)] /\
  match js_to_string bits_fp HexStrByteEncoder (trace (TStruct (flat_fs ++ gs)) (USeq l)) with
  | Ok out => match js_from_mut_slice x64 bits_fl false HexDecoder 199 (denying JDeserializeError flat_fs) out with Done _ r => Some (length out, r) | _ => None end
  | _ => None end = Some (25%nat, Err JDeserializeError).
Proof.
  split; [shown|]. split; [shown|]. split; [exists 2%nat, ([99], FPlain, TBool), (UBool true); repeat split; cbn; lia|]. split; vm_compute; reflexivity.
Qed.

(** C77: faults are reported as for other structs (C57), and nothing behind them is looked at. *)
Theorem C77_msgpack_faults : forall ar fo fs bs e tail,
  arch32up ar -> wf (TStruct fs) -> deny_fault fo fs bs e -> slice_of ar (bs ++ tail) ->
  exists N, forall fuel, (N <= fuel)%nat ->
    exists s, mp_from_slice ar fo fuel (denying DeserializeError fs) (bs ++ tail) = Done s (Err e).
Proof. exact MpDenyFault.mp_denying_faults. Qed.
Print Assumptions C77_msgpack_faults.
(** A bool; an array with an element more; a map with a bool for the number, with nil for a
    key, with a field twice, without one. *)
Example C77_msgpack_faults_case :
  deny_fault no_floats flat_fs [0xc3] ExpectedStruct /\ deny_fault no_floats flat_fs [0x93; 7; 0xa2; 104; 105] TrailingElements /\
  deny_fault no_floats flat_fs [0x82; 0xa1; 97; 0xc3] ExpectedInteger /\ deny_fault no_floats flat_fs [0x82; 0xc0] ExpectedIdentifier /\
  deny_fault no_floats flat_fs [0x82; 0xa1; 97; 7; 0] DeserializeError /\ deny_fault no_floats flat_fs [0x81; 0xa1; 97; 7] DeserializeError /\
  map (fun input => match mp_from_slice x64 no_floats 99 (denying DeserializeError flat_fs) input with Done _ r => Some r | _ => None end)
    [[0xc3; 1]; [0x93; 7; 0xa2; 104; 105; 0xc1]; [0x82; 0xa1; 97; 0xc3; 0xc1]; [0x82; 0xc0; 0xc1]; [0x82; 0xa1; 97; 7; 0; 0xc1]; [0x81; 0xa1; 97; 7]]
  = [Some (Err ExpectedStruct); Some (Err TrailingElements); Some (Err ExpectedInteger); Some (Err ExpectedIdentifier); Some (Err DeserializeError); Some (Err DeserializeError)].
Proof.
  assert (S : adm no_floats TStr (UStr [104; 105]) [0xa2; 104; 105]) by (split; [utf8|]; exists [0xa2]; split; [apply (SH_fix 2); lia|reflexivity]).
  assert (I7 : adm no_floats (TInt U8) (UInt 7) [7]) by (cbn [adm]; split; [unfold in_ikind; cbn; lia|]; constructor; lia).
  assert (K : ident_enc (map name_of flat_fs) 0 [0xa1; 97]) by (left; exists [97]; split; [reflexivity|]; exists [0xa1]; split; [apply (SH_fix 1); lia|reflexivity]).
  assert (A : known_entries (map name_of flat_fs) (map (fun f => adm no_floats (snd f)) flat_fs) (map (fun _ => None) flat_fs) 1 [0xa1; 97; 7] [Some (UInt 7); None]).
  { eapply (KE_field _ _ _ 0 0 _ (UInt 7) [0xa1; 97] [7] []); [reflexivity|reflexivity|exact K|exact I7|apply KE_nil]. }
  split; [apply D_kind; [unfold is_byte; lia|reflexivity]|].
  split; [apply (D_many no_floats flat_fs 3 [0x93] flat_l [7; 0xa2; 104; 105]); [apply (AH_fix 3); lia|reflexivity|reflexivity|]|].
  { exists [7], [0xa2; 104; 105]. split; [reflexivity|]. split; [exact I7|]. exists [0xa2; 104; 105], []. split; [reflexivity|]. split; [exact S|reflexivity]. }
  split; [eapply (D_value no_floats flat_fs 2 [0x82] 0 [] _ 0 _ [0xa1; 97] [0xc3]); [apply (MH_fix 2); lia|lia|apply KE_nil|reflexivity|reflexivity|exact K|apply X_kind; [unfold is_byte; lia|reflexivity]]|].
  split; [eapply (D_key no_floats flat_fs 2 [0x82] 0 [] _ [0xc0]); [apply (MH_fix 2); lia|lia|apply KE_nil|apply K_kind; [unfold is_byte; lia|reflexivity]]|].
  split; [eapply (D_again no_floats flat_fs 2 [0x82] 1 [0xa1; 97; 7] _ 0 _ [0]); [apply (MH_fix 2); lia|lia|exact A|reflexivity|right; split; [cbn; lia|constructor; lia]]|].
  split; [eapply (D_missing no_floats flat_fs 1 [0x81] [0xa1; 97; 7] _ 1); [apply (MH_fix 1); lia|exact A|reflexivity|reflexivity|reflexivity|discriminate]|].
  vm_compute. reflexivity.
Qed.

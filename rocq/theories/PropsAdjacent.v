(** C71: adjacently tagged enums ([#[serde(tag = "...", content = "...")]]), which are
    written as structs of the tag and the content. *)
From Verif Require Import Prelude Utf8Spec SerdeSer SerdeDe FloatOps MpSpec MpErrMap MpSer MpDe MpDeView MpDeTop Types MpTypeSpec Base64Spec JsonSpec JsonTypeSpec JsonSer JsonErrMap JsonDe
  JsonCases JsonAnySpec Content ContentSpec Adjacent AdjacentSpec MpAdjacent MpAdjacentSwap MpAdjacentFault JsonAdjacent JsonAdjacentSwap JsonFaultSpec AdjacentFaultSpec JsonAdjacentFault AdjacentWrites TypeSize MpAdjacentEnds JsonAdjacentEnds BufferSpec AdjacentReadSpec MpAdjacentSound JsonAdjacentSound PropsMpSer PropsMpDe PropsMpTyped PropsJsonSer PropsJsonTyped PropsJsonFault.

(** #[serde(tag = "t", content = "c")] enum E { Off, At { x: u8, k: bool }, Two(i16, String), One(Option<u8>) } *)
Definition adj_vs : list (bytes * vkind * ty) :=
  [([79; 102; 102], KUnit, TUnit); ([65; 116], KStruct, TStruct [([120], FPlain, TInt U8); ([107], FPlain, TBool)]);
   ([84; 119; 111], KTuple, TTuple [TInt I16; TStr]); ([79; 110; 101], KNewtype, TOption (TInt U8))].
Definition adj_t : bytes := [116].
Definition adj_c : bytes := [99].
Definition adj_at : val := USeq [UInt 7; UBool true].
Definition adj_two : val := USeq [UInt (-300); UStr [104; 105]].
Lemma adj_ok : names_ok [adj_t; adj_c] /\ wf (TEnum adj_vs).
Proof. split; shown. Qed.

(** C71: every encoding of a value is read as that value, whatever follows it. *)
Theorem C71_msgpack_adjacent_interoperability : forall ar fo tag content vs i v bs tail,
  arch32up ar -> names_ok [tag; content] -> wf (TEnum vs) -> adjacent_enc fo tag content vs i v bs -> slice_of ar (bs ++ tail) ->
  exists N, forall fuel, (N <= fuel)%nat ->
    exists s, mp_from_slice ar fo fuel (adjacent fo DeserializeError tag content vs) (bs ++ tail) = Done s (Ok (UVar i v, zlen bs)).
Proof. intros ar fo tag content vs i v bs tail A Hn W. exact (mp_adjacent_accepts ar fo A tag content vs i v bs tail (conj Hn W)). Qed.
Print Assumptions C71_msgpack_adjacent_interoperability.

(** C71: what is written is read back, except for unit and struct variants in the compact flavour. *)
Theorem C71_msgpack_adjacent : forall ar fo cfg fl tag content vs i n k t v out tail,
  arch32up ar -> names_ok [tag; content] -> wf (TEnum vs) -> nth_error vs i = Some (n, k, t) -> hastype t v -> strict t ->
  fl <> Compact \/ k = KNewtype \/ k = KTuple ->
  2 ^ 32 - 1 <= cfg_usize_max cfg -> mp_to_vec cfg fl (adjacent_trace tag content vs (UVar i v)) = Ok out -> slice_of ar (out ++ tail) ->
  exists N, forall fuel, (N <= fuel)%nat ->
    exists s, mp_from_slice ar fo fuel (adjacent fo DeserializeError tag content vs) (out ++ tail) = Done s (Ok (UVar i v, zlen out)).
Proof. intros ar fo cfg fl tag content vs i n k t v out tail A Hn W. exact (mp_adjacent_trip ar fo A cfg fl tag content vs i n k t v out tail (conj Hn W)). Qed.
Print Assumptions C71_msgpack_adjacent.

Example C71_msgpack_case : names_ok [adj_t; adj_c] /\ wf (TEnum adj_vs) /\ strict (TEnum adj_vs) /\ hastype (TEnum adj_vs) (UVar 1 adj_at) /\ hastype (TEnum adj_vs) (UVar 2 adj_two) /\
  mp_to_vec cfg64 StructMapStr (adjacent_trace adj_t adj_c adj_vs (UVar 1 adj_at)) =
    Ok [0x82; 0xa1; 116; 0xa2; 65; 116; 0xa1; 99; 0x82; 0xa1; 120; 7; 0xa1; 107; 0xc3] /\
  mp_to_vec cfg64 StructMapIdx (adjacent_trace adj_t adj_c adj_vs (UVar 0 UUnit)) = Ok [0x81; 0; 0] /\
  mp_to_vec cfg64 Compact (adjacent_trace adj_t adj_c adj_vs (UVar 2 adj_two)) = Ok [0x92; 2; 0x92; 0xd1; 0xfe; 0xd4; 0xa2; 104; 105] /\
  map (fun input => match mp_from_slice x64 no_floats 60 (adjacent no_floats DeserializeError adj_t adj_c adj_vs) input with Done _ r => Some r | _ => None end)
    [[0x82; 0xa1; 116; 0xa2; 65; 116; 0xa1; 99; 0x82; 0xa1; 120; 7; 0xa1; 107; 0xc3]; [0x81; 0; 0; 55]; [0x92; 2; 0x92; 0xd1; 0xfe; 0xd4; 0xa2; 104; 105]; [0x81; 0; 3]; [0x82; 0; 3; 0; 3]]
  = [Some (Ok (UVar 1 adj_at, 15)); Some (Ok (UVar 0 UUnit, 3)); Some (Ok (UVar 2 adj_two, 9)); Some (Ok (UVar 3 UNone, 3)); Some (Err DeserializeError)].
Proof.
  split; [apply adj_ok|]. split; [apply adj_ok|]. split; [shown|]. split; [shown|]. split; [shown|].
  repeat (split; [vm_compute; reflexivity|]). vm_compute. reflexivity.
Qed.
(** An entry of no interest, then the tag; the content is left out. *)
Example C71_msgpack_interoperability_case : adjacent_enc no_floats adj_t adj_c adj_vs 3 UNone [0x82; 0xa1; 122; 0x90; 0xa1; 116; 0xa3; 79; 110; 101] /\
  match mp_from_slice x64 no_floats 60 (adjacent no_floats DeserializeError adj_t adj_c adj_vs) [0x82; 0xa1; 122; 0x90; 0xa1; 116; 0xa3; 79; 110; 101] with Done _ r => r = Ok (UVar 3 UNone, 10) | _ => False end.
Proof.
  split; [|vm_compute; reflexivity].
  apply (AE_alone no_floats adj_t adj_c adj_vs 3 UNone [79; 110; 101] KNewtype (TOption (TInt U8)) 1 0 [0x82] [0xa1; 122; 0x90] [0xa1; 116] [0xa3; 79; 110; 101] []).
  - reflexivity.
  - apply (MH_fix 2). lia.
  - apply (OT_cons [adj_t; adj_c] 0 (VArr []) [0xa1; 122] [0x90] []); [|apply (MF_arr [] [0x90] []); [apply (AH_fix 0); lia|constructor]|constructor].
    left. exists [122]. split; [utf8|]. split; [cbn; intuition discriminate|]. exists [0xa1]. split; [apply (SH_fix 1); lia|reflexivity].
  - left. exists [116]. split; [reflexivity|]. exists [0xa1]. split; [apply (SH_fix 1); lia|reflexivity].
  - left. exists [79; 110; 101]. split; [reflexivity|]. exists [0xa3]. split; [apply (SH_fix 3); lia|reflexivity].
  - constructor.
  - cbn. split; [reflexivity|]. eexists. reflexivity.
Qed.

(** C71: in the compact flavour unit and struct variants are never read back: the array of a
    unit variant has no second element, and the array a struct is written as is not a map. *)
Theorem C71_msgpack_compact_refuted : forall ar fo cfg tag content vs i n k t v out tail,
  arch32up ar -> names_ok [tag; content] -> wf (TEnum vs) -> nth_error vs i = Some (n, k, t) -> hastype t v -> k = KUnit \/ k = KStruct ->
  2 ^ 32 - 1 <= cfg_usize_max cfg -> mp_to_vec cfg Compact (adjacent_trace tag content vs (UVar i v)) = Ok out -> slice_of ar (out ++ tail) ->
  exists N, forall fuel, (N <= fuel)%nat ->
    exists s, mp_from_slice ar fo fuel (adjacent fo DeserializeError tag content vs) (out ++ tail) = Done s (Err DeserializeError).
Proof. intros ar fo cfg tag content vs i n k t v out tail A Hn W. exact (mp_adjacent_compact ar fo A cfg tag content vs i n k t v out tail (conj Hn W)). Qed.
Print Assumptions C71_msgpack_compact_refuted.

Example C71_msgpack_compact_case :
  mp_to_vec cfg64 Compact (adjacent_trace adj_t adj_c adj_vs (UVar 0 UUnit)) = Ok [0x91; 0] /\
  mp_to_vec cfg64 Compact (adjacent_trace adj_t adj_c adj_vs (UVar 1 adj_at)) = Ok [0x92; 1; 0x92; 7; 0xc3] /\
  map (fun input => match mp_from_slice x64 no_floats 60 (adjacent no_floats DeserializeError adj_t adj_c adj_vs) input with Done _ r => Some r | _ => None end)
    [[0x91; 0]; [0x92; 1; 0x92; 7; 0xc3]; [0x92; 0; 0xc0]; [0x92; 1; 0x82; 0; 7; 1; 0xc3]]
  = [Some (Err DeserializeError); Some (Err DeserializeError); Some (Ok (UVar 0 UUnit, 3)); Some (Ok (UVar 1 adj_at, 7))].
Proof. split; [vm_compute; reflexivity|]. split; vm_compute; reflexivity. Qed.

(** C71: a map may have the content before the tag, if nothing is lost in the buffer. *)
Theorem C71_msgpack_content_first : forall ar fo cfg fl tag content vs i n k t v h kc b kt a tail,
  arch32up ar -> names_ok [tag; content] -> wf (TEnum vs) -> nth_error vs i = Some (n, k, t) -> hastype t v -> strict t ->
  told_apart (style_of fl) t -> (k = KStruct -> fl <> Compact) ->
  2 ^ 32 - 1 <= cfg_usize_max cfg -> mp_to_vec cfg fl (trace t v) = Ok b ->
  map_hdr 2 h -> ident_enc [tag; content] 1 kc -> ident_enc [tag; content] 0 kt -> ident_enc (map name_of vs) i a ->
  slice_of ar ((h ++ kc ++ b ++ kt ++ a) ++ tail) ->
  exists N, forall fuel, (N <= fuel)%nat ->
    exists s, mp_from_slice ar fo fuel (adjacent fo DeserializeError tag content vs) ((h ++ kc ++ b ++ kt ++ a) ++ tail) = Done s (Ok (UVar i v, zlen (h ++ kc ++ b ++ kt ++ a))).
Proof. intros ar fo cfg fl tag content vs i n k t v h kc b kt a tail A Hn W. exact (mp_adjacent_swapped ar fo cfg fl tag content vs i n k t v h kc b kt a tail A (conj Hn W)). Qed.
Print Assumptions C71_msgpack_content_first.

Example C71_msgpack_content_first_case : told_apart SArray (TTuple [TInt I16; TStr]) /\ strict (TTuple [TInt I16; TStr]) /\
  mp_to_vec cfg64 Compact (trace (TTuple [TInt I16; TStr]) adj_two) = Ok [0x92; 0xd1; 0xfe; 0xd4; 0xa2; 104; 105] /\
  match mp_from_slice x64 no_floats 60 (adjacent no_floats DeserializeError adj_t adj_c adj_vs) ([0x82] ++ [0xa1; 99] ++ [0x92; 0xd1; 0xfe; 0xd4; 0xa2; 104; 105] ++ [0] ++ [0xa3; 84; 119; 111]) with Done _ r => r = Ok (UVar 2 adj_two, 15) | _ => False end.
Proof. split; [cbn; intuition discriminate|]. split; [shown|]. split; vm_compute; reflexivity. Qed.

(** C71: a map is refused when it has no tag, a tag that names no variant, a tag but no content that the
    variant needs, a content of the wrong kind, or one of the two keys twice. *)
Theorem C71_msgpack_adjacent_faults : forall ar fo tag content vs bs tail,
  arch32up ar -> names_ok [tag; content] -> wf (TEnum vs) -> adjacent_fault fo tag content vs bs -> slice_of ar (bs ++ tail) ->
  exists N, forall fuel, (N <= fuel)%nat ->
    exists s, mp_from_slice ar fo fuel (adjacent fo DeserializeError tag content vs) (bs ++ tail) = Done s (Err DeserializeError).
Proof. intros ar fo tag content vs bs tail A Hn W. exact (mp_adjacent_refuses ar fo tag content vs bs tail A (conj Hn W)). Qed.
Print Assumptions C71_msgpack_adjacent_faults.

Example C71_msgpack_adjacent_faults_case :
  adjacent_fault no_floats adj_t adj_c adj_vs ([0x82] ++ [] ++ [0xa1; 116] ++ [1] ++ []  ++ [0xa1; 116]) /\
  adjacent_fault no_floats adj_t adj_c adj_vs ([0x81] ++ [] ++ [0xa1; 116] ++ [2] ++ []) /\
  map (fun input => match mp_from_slice x64 no_floats 60 (adjacent no_floats DeserializeError adj_t adj_c adj_vs) input with Done _ r => Some r | _ => None end)
    [[0x82; 0xa1; 116; 1; 0xa1; 116; 1]; [0x81; 0xa1; 116; 2; 77]; [0x80]; [0x81; 0; 0xa1; 88]; [0x82; 0; 1; 1; 0x90]; [0x82; 0; 0; 1; 0x90]; [0x83; 0; 0; 1; 0xc0; 1; 0xc0]; [0x83; 1; 7; 0xa1; 99; 8; 0; 3]; [0x81; 1; 7]]
  = repeat (Some (Err DeserializeError)) 9.
Proof.
  assert (T : ident_enc [adj_t; adj_c] 0 [0xa1; 116]) by (left; exists [116]; split; [reflexivity|]; exists [0xa1]; split; [apply (SH_fix 1); lia|reflexivity]).
  split; [|split; [|vm_compute; reflexivity]].
  - eapply (AF_tag_again no_floats adj_t adj_c adj_vs 1 _ _ _ 2 0 0); [reflexivity|apply (MH_fix 2); lia|lia|constructor|exact T| |constructor|exact T].
    right. split; [cbn; lia|]. apply (II_pos 1). lia.
  - eapply (AF_alone no_floats adj_t adj_c adj_vs 2 _ _ _ 0 0); [reflexivity|apply (MH_fix 1); lia|constructor|exact T| |constructor|].
    + right. split; [cbn; lia|]. apply (II_pos 2). lia.
    + intros v H. exact H.
Qed.

(** C71: JSON.  Every text of every document of a value is read as that value. *)
Theorem C71_json_adjacent_interoperability : forall ar fl fo any_f32 dec tag content vs i v d text w1 w2,
  names_ok [tag; content] -> wf (TEnum vs) ->
  adjacent_doc (reads_as no_ws (f32_from_str fl) (f64_from_str fl)
    (match dec with NopeDecoder => bytes_as_string | HexDecoder => hex_bytes | Base64Decoder => bytes_as_base64 end)) tag content vs i v d ->
  raw_text d text -> any_ws w1 -> any_ws w2 ->
  (dec = Base64Decoder -> 3 * zlen (w1 ++ text ++ w2) <= usize_max ar) ->
  exists N, forall fuel, (N <= fuel)%nat ->
    exists s, js_from_mut_slice ar fl any_f32 dec fuel (adjacent fo JDeserializeError tag content vs) (w1 ++ text ++ w2) = Done s (Ok (UVar i v)).
Proof. exact js_adjacent_accepts. Qed.
Print Assumptions C71_json_adjacent_interoperability.

(** C71: what is written is read back, up to what any JSON round trip changes (C49). *)
Theorem C71_json_adjacent : forall ar fl fo any_f32 dec fp enc tag content vs i n k t v out w1 w2,
  (forall b, 0 <= b < 2 ^ 32 -> finite32 b -> f32_from_str fl (format_f32 fp b) = Some (if b =? 0x80000000 then 0 else b)) ->
  (forall b, 0 <= b < 2 ^ 64 -> finite64 b -> f64_from_str fl (format_f64 fp b) = Some (if b =? 0x8000000000000000 then 0 else b)) ->
  printer_ok fp ->
  In (enc, dec) [(ArrayByteEncoder, NopeDecoder); (ArrayByteEncoder, HexDecoder); (ArrayByteEncoder, Base64Decoder);
                 (HexStrByteEncoder, HexDecoder); (Base64ByteEncoder, Base64Decoder)] ->
  names_ok [tag; content] -> wf (TEnum vs) -> nth_error vs i = Some (n, k, t) -> hastype t v -> no_newtype_keys t ->
  js_to_string fp enc (adjacent_trace tag content vs (UVar i v)) = Ok out -> any_ws w1 -> any_ws w2 ->
  (dec = Base64Decoder -> 3 * zlen (w1 ++ out ++ w2) <= usize_max ar) ->
  exists N, forall fuel, (N <= fuel)%nat ->
    exists s, js_from_mut_slice ar fl any_f32 dec fuel (adjacent fo JDeserializeError tag content vs) (w1 ++ out ++ w2) = Done s (Ok (UVar i (json_image t v))).
Proof.
  intros ar fl fo any_f32 dec fp enc tag content vs i n k t v out w1 w2 L32 L64 P F.
  exact (js_adjacent_trip ar fl fo any_f32 dec fp enc tag content vs i n k t v out w1 w2 (law_inverse32 fl fp L32) (law_inverse64 fl fp L64) (flavours_match enc dec F) P).
Qed.
Print Assumptions C71_json_adjacent.

(** {"t":"At","c":{"x":7,"k":true}} and {"t":"Off"}; content first; the tag twice. *)
Definition adj_text : bytes := [123; 34; 116; 34; 58; 34; 65; 116; 34; 44; 34; 99; 34; 58; 123; 34; 120; 34; 58; 55; 44; 34; 107; 34; 58; 116; 114; 117; 101; 125; 125].
Definition adj_off : bytes := [123; 34; 116; 34; 58; 34; 79; 102; 102; 34; 125].
Example C71_json_case : names_ok [adj_t; adj_c] /\ wf (TEnum adj_vs) /\ hastype (TEnum adj_vs) (UVar 1 adj_at) /\
  js_to_string bits_fp HexStrByteEncoder (adjacent_trace adj_t adj_c adj_vs (UVar 1 adj_at)) = Ok adj_text /\
  js_to_string bits_fp HexStrByteEncoder (adjacent_trace adj_t adj_c adj_vs (UVar 0 UUnit)) = Ok adj_off /\
  map (fun input => match js_from_mut_slice x64 bits_fl false HexDecoder 60 (adjacent no_floats JDeserializeError adj_t adj_c adj_vs) input with Done _ r => Some r | _ => None end)
    [[32] ++ adj_text; adj_off;
     [123; 34; 99; 34; 58; 123; 34; 120; 34; 58; 55; 44; 34; 107; 34; 58; 116; 114; 117; 101; 125; 44; 34; 116; 34; 58; 34; 65; 116; 34; 125];
     [123; 34; 116; 34; 58; 34; 79; 102; 102; 34; 44; 34; 116; 34; 58; 34; 79; 102; 102; 34; 125]]
  = [Some (Ok (UVar 1 adj_at)); Some (Ok (UVar 0 UUnit)); Some (Ok (UVar 1 adj_at)); Some (Err JDeserializeError)].
Proof. split; [apply adj_ok|]. split; [apply adj_ok|]. split; [shown|]. repeat (split; [vm_compute; reflexivity|]). vm_compute. reflexivity. Qed.
(** [{"z":null,"t":"One"}]. *)
Example C71_json_interoperability_case : adjacent_doc (reads_as no_ws (fun _ => None) (fun _ => None) hex_bytes) adj_t adj_c adj_vs 3 UNone (JObj ([([122], JNull)] ++ ([116], JStr [79; 110; 101]) :: [])) /\
  raw_text (JObj ([([122], JNull)] ++ ([116], JStr [79; 110; 101]) :: [])) ([123; 34; 122; 34; 58; 110; 117; 108; 108; 44; 34; 116; 34; 58; 34; 79; 110; 101; 34; 125]).
Proof.
  split.
  - apply (AD_alone _ adj_t adj_c adj_vs 3 UNone [79; 110; 101] KNewtype (TOption (TInt U8)) [([122], JNull)] [116] [79; 110; 101] []).
    + reflexivity.
    + repeat constructor. exists [122]. split; [ascii|]. split; [cbn; intuition discriminate|exact I].
    + ascii.
    + ascii.
    + cbn. split; [reflexivity|]. eexists. reflexivity.
  - pose proof (O_one any_ws quoted quoted json_number [116] [34; 116; 34] (JStr [79; 110; 101]) [34; 79; 110; 101; 34] [] [] [] []
      ltac:(ws) ltac:(qtd) ltac:(ws) ltac:(ws) (T_str any_ws quoted quoted json_number [79; 110; 101] [34; 79; 110; 101; 34] ltac:(qtd)) ltac:(ws)) as M1.
    pose proof (O_more any_ws quoted quoted json_number [122] [34; 122; 34] JNull [110; 117; 108; 108] _ _ [] [] [] []
      ltac:(ws) ltac:(qtd) ltac:(ws) ltac:(ws) (T_null _ _ _ _) ltac:(ws) M1) as M2.
    exact (T_obj _ _ _ _ _ _ M2).
Qed.

(** C71: an object may have the content before the tag, if nothing is lost in the buffer: byte
    strings are no keys, and floats are told apart from integers. *)
Theorem C71_json_content_first : forall ar fl fo (any_f32 : bool) dec fp enc tag content vs i n k t v b kc kt a w1 w2,
  let text := [123; 34] ++ kc ++ [34; 58] ++ b ++ [44; 34] ++ kt ++ [34; 58; 34] ++ a ++ [34; 125] in
  let float_of := if any_f32 then f32_from_str fl else f64_from_str fl in
  In (enc, dec) [(ArrayByteEncoder, NopeDecoder); (ArrayByteEncoder, HexDecoder); (ArrayByteEncoder, Base64Decoder);
                 (HexStrByteEncoder, HexDecoder); (Base64ByteEncoder, Base64Decoder)] ->
  printer_ok fp -> names_ok [tag; content] -> wf (TEnum vs) -> nth_error vs i = Some (n, k, t) ->
  hastype t v -> strict t -> text_keys (enc = ArrayByteEncoder) t ->
  all_floats (fun b => finite32 b /\ told32 fo any_f32 float_of (format_f32 fp b) b)
             (fun b => finite64 b /\ told64 fo any_f32 float_of (format_f64 fp b) b) (trace t v) ->
  js_to_string fp enc (trace t v) = Ok b -> literal kc content -> literal kt tag -> literal a n -> any_ws w1 -> any_ws w2 ->
  (dec = Base64Decoder -> 3 * zlen (w1 ++ text ++ w2) <= usize_max ar) ->
  exists N, forall fuel, (N <= fuel)%nat ->
    exists s, js_from_mut_slice ar fl any_f32 dec fuel (adjacent fo JDeserializeError tag content vs) (w1 ++ text ++ w2) = Done s (Ok (UVar i v)).
Proof.
  intros ar fl fo any_f32 dec fp enc tag content vs i n k t v b kc kt a w1 w2 text float_of F.
  exact (js_adjacent_swapped ar fl fo any_f32 dec fp enc tag content vs i n k t v b kc kt a w1 w2 (flavours_match enc dec F)).
Qed.
Print Assumptions C71_json_content_first.

(** [{"c":[-300,"hi"],"\u0074":"Two"}]. *)
Example C71_json_content_first_case : hastype (TTuple [TInt I16; TStr]) adj_two /\ strict (TTuple [TInt I16; TStr]) /\
  text_keys (HexStrByteEncoder = ArrayByteEncoder) (TTuple [TInt I16; TStr]) /\
  all_floats (fun _ => False) (fun _ => False) (trace (TTuple [TInt I16; TStr]) adj_two) /\
  js_to_string bits_fp HexStrByteEncoder (trace (TTuple [TInt I16; TStr]) adj_two) = Ok [91; 45; 51; 48; 48; 44; 34; 104; 105; 34; 93] /\
  literal [92; 117; 48; 48; 55; 52] adj_t /\ literal [84; 119; 111] [84; 119; 111] /\
  match js_from_mut_slice x64 bits_fl false HexDecoder 60 (adjacent no_floats JDeserializeError adj_t adj_c adj_vs)
    ([32] ++ ([123; 34] ++ [99] ++ [34; 58] ++ [91; 45; 51; 48; 48; 44; 34; 104; 105; 34; 93] ++ [44; 34] ++ [92; 117; 48; 48; 55; 52] ++ [34; 58; 34] ++ [84; 119; 111] ++ [34; 125]) ++ []) with
  | Done _ r => r = Ok (UVar 2 adj_two) | _ => False end.
Proof.
  split; [shown|]. split; [shown|]. split; [cbn; intuition discriminate|]. split; [cbn; intuition|]. split; [vm_compute; reflexivity|].
  split. { split; [|shown]. apply (B_u false [48; 48; 55; 52] 116 [] []); [|unfold is_scalar; lia|constructor]. exists 48, 48, 55, 52, 0, 0, 7, 4. repeat split; unfold hex_digit; lia. }
  split; [ascii|]. vm_compute. reflexivity.
Qed.

(** C71: an object is refused, with the error of its first fault, when it has no tag, a tag that names no
    variant, no content where one is needed, content of the wrong kind, or the tag or the content twice. *)
Theorem C71_json_adjacent_faults : forall ar fl fo (any_f32 : bool) dec tag content vs input e,
  names_ok [tag; content] -> wf (TEnum vs) -> all_bytes input -> (dec = Base64Decoder -> 3 * zlen input <= usize_max ar) ->
  adjacent_js_fault (f32_from_str fl) (f64_from_str fl) dec any_f32 tag content vs input e ->
  exists N, forall fuel, (N <= fuel)%nat ->
    exists s, js_from_mut_slice ar fl any_f32 dec fuel (adjacent fo JDeserializeError tag content vs) input = Done s (Err e).
Proof. intros ar fl fo any_f32 dec tag content vs input e Hn W. exact (js_adjacent_refuses ar fl fo any_f32 dec tag content vs Hn W input e). Qed.
Print Assumptions C71_json_adjacent_faults.

(** The tag twice; then, in order: an empty input, [7], [{}], [{,], [{'z':1}], [{'z':+], [{'t':7], [{'t':'No'], [{'t' 'Off'], [{'t':'At'}], [{'t':'Off','t':], [{'t':'Off','c':[], [{'t':'At','c':[7,true]}], [{'t':'At','c':{'x':256], [{'t':'Two','c':7], [{'t':'Off','c':null,'c'], [{'t':'Off','c':null]], [{'c':[1]}], [{'c':1,'c'], [{'c':tru3]. *)
Example C71_json_adjacent_faults_case :
  adjacent_js_fault (fun _ => None) (fun _ => None) HexDecoder false adj_t adj_c adj_vs [123; 34; 116; 34; 58; 34; 79; 102; 102; 34; 44; 34; 116; 34; 58] JDeserializeError /\
  map (fun input => match js_from_mut_slice x64 bits_fl false HexDecoder 60 (adjacent no_floats JDeserializeError adj_t adj_c adj_vs) input with Done _ (Err e) => Some e | _ => None end)
    [[];
     [32; 55];
     [123; 125];
     [123; 44];
     [123; 34; 122; 34; 58; 49; 125];
     [123; 34; 122; 34; 58; 43];
     [123; 34; 116; 34; 58; 55];
     [123; 34; 116; 34; 58; 34; 78; 111; 34];
     [123; 34; 116; 34; 32; 34; 79; 102; 102; 34];
     [123; 34; 116; 34; 58; 34; 65; 116; 34; 125];
     [123; 34; 116; 34; 58; 34; 79; 102; 102; 34; 44; 34; 116; 34; 58];
     [123; 34; 116; 34; 58; 34; 79; 102; 102; 34; 44; 34; 99; 34; 58; 91];
     [123; 34; 116; 34; 58; 34; 65; 116; 34; 44; 34; 99; 34; 58; 91; 55; 44; 116; 114; 117; 101; 93; 125];
     [123; 34; 116; 34; 58; 34; 65; 116; 34; 44; 34; 99; 34; 58; 123; 34; 120; 34; 58; 50; 53; 54];
     [123; 34; 116; 34; 58; 34; 84; 119; 111; 34; 44; 34; 99; 34; 58; 55];
     [123; 34; 116; 34; 58; 34; 79; 102; 102; 34; 44; 34; 99; 34; 58; 110; 117; 108; 108; 44; 34; 99; 34];
     [123; 34; 116; 34; 58; 34; 79; 102; 102; 34; 44; 34; 99; 34; 58; 110; 117; 108; 108; 93];
     [123; 34; 99; 34; 58; 91; 49; 93; 125];
     [123; 34; 99; 34; 58; 49; 44; 34; 99; 34];
     [123; 34; 99; 34; 58; 116; 114; 117; 51]]
  = [Some JUnexpectedEof; Some JExpectedStruct; Some JDeserializeError; Some JLeadingObjectComma; Some JDeserializeError; Some JUnexpectedChar; Some JExpectedEnumValue; Some JDeserializeError; Some JExpectedColon; Some JDeserializeError; Some JDeserializeError; Some JDeserializeError; Some JDeserializeError; Some JInvalidNumber; Some JExpectedArray; Some JDeserializeError; Some JExpectedObjectCommaOrEnd; Some JDeserializeError; Some JDeserializeError; Some JExpectedToken].
Proof.
  split; [|vm_compute; reflexivity].
  assert (B : forall c r, ~ is_ws c -> begins (c :: r) c r) by (intros c r N; exists []; split; [reflexivity|split; [constructor|exact N]]).
  eapply (AJ_tag_again _ _ _ _ _ _ _ _ _ 0%nat).
  - apply B. unfold is_ws. lia.
  - eexists _, _. split; [|split].
    + eexists _, _, [116]. split; [apply OI_none|]. split; [|ascii]. cbn [app]. eexists _, _. split; [reflexivity|]. split; [lia|]. split; [apply B; unfold is_ws; lia|lia].
    + apply B. unfold is_ws. lia.
    + exists [], (JStr [79; 102; 102]), [34; 79; 102; 102; 34]. split; [reflexivity|]. split; [constructor|]. split; [apply T_str; qtd|]. split; [|exact Logic.I]. cbn. split; [reflexivity|]. exists [79; 102; 102]. split; [reflexivity|ascii].
  - eexists _, _, [116]. split; [apply OI_none|]. split; [|ascii]. eexists _, _. split; [reflexivity|]. split; [lia|]. eexists. split; apply B; unfold is_ws; lia.
Qed.

(** C71: and the values can be written: in the compact flavour if no field inside is left out. *)
Theorem C71_msgpack_writable : forall cfg fl tag content vs i n k t v, fl <> Compact \/ plain t ->
  names_ok [tag; content] -> wf (TEnum vs) -> nth_error vs i = Some (n, k, t) -> hastype t v ->
  exists out, mp_to_vec cfg fl (adjacent_trace tag content vs (UVar i v)) = Ok out.
Proof. exact mp_adjacent_writable. Qed.
Print Assumptions C71_msgpack_writable.
Theorem C71_json_writable : forall fp enc tag content vs i n k t v, enc <> PassThroughByteEncoder -> printer_ok fp ->
  names_ok [tag; content] -> wf (TEnum vs) -> nth_error vs i = Some (n, k, t) -> hastype t v -> good_keys t ->
  exists out, js_to_string fp enc (adjacent_trace tag content vs (UVar i v)) = Ok out.
Proof. exact js_adjacent_writable. Qed.
Print Assumptions C71_json_writable.
(** Off, and At { x: 7, k: true } as {"t":"At","c":{"x":7,"k":true}}. *)
Example C71_writable_case : names_ok [adj_t; adj_c] /\ wf (TEnum adj_vs) /\ hastype TUnit UUnit /\
  hastype (TStruct [([120], FPlain, TInt U8); ([107], FPlain, TBool)]) adj_at /\ good_keys (TStruct [([120], FPlain, TInt U8); ([107], FPlain, TBool)]) /\
  plain (TStruct [([120], FPlain, TInt U8); ([107], FPlain, TBool)]) /\
  mp_to_vec cfg64 StructMapStr (adjacent_trace adj_t adj_c adj_vs (UVar 0 UUnit)) = Ok [0x81; 0xa1; 116; 0xa3; 79; 102; 102].
Proof. split; [apply adj_ok|]. split; [apply adj_ok|]. split; [exact I|]. split; [shown|]. split; [cbn; auto|]. split; [cbn; auto|]. vm_compute. reflexivity. Qed.

(** C71: decoding ends on any input, with a step budget as in C53. *)
Theorem C71_msgpack_terminates : forall ar fo tag content vs input fuel,
  arch64 ar -> wf (TEnum vs) -> slice64 input -> (10 * type_size (TEnum vs) + 1 + 3 * length input <= fuel)%nat ->
  exists s r, mp_from_slice ar fo fuel (adjacent fo DeserializeError tag content vs) input = Done s r.
Proof. intros ar fo tag content vs input fuel A. exact (mp_adjacent_ends ar fo A tag content vs input fuel). Qed.
Print Assumptions C71_msgpack_terminates.
Theorem C71_json_terminates : forall ar fl fo any_f32 dec tag content vs input fuel,
  (dec = Base64Decoder -> 3 * zlen input <= usize_max ar) -> (10 * type_size (TEnum vs) + 1 + 3 * length input <= fuel)%nat ->
  exists s r, js_from_mut_slice ar fl any_f32 dec fuel (adjacent fo JDeserializeError tag content vs) input = Done s r.
Proof. exact js_adjacent_ends. Qed.
Print Assumptions C71_json_terminates.
(** A map of 2^32-1 entries, that only has entries of no interest; and [{'c':[[[[[[[]. *)
Example C71_terminates_case :
  let input := [0xdf; 255; 255; 255; 255; 7; 0xdd; 255; 255; 255; 255; 0xc0; 0xc0] in
  let text := [123; 34; 99; 34; 58; 91; 91; 91; 91; 91; 91; 91] in
  wf (TEnum adj_vs) /\ slice64 input /\ (10 * type_size (TEnum adj_vs) + 1 + 3 * length input = 140)%nat /\ (10 * type_size (TEnum adj_vs) + 1 + 3 * length text = 137)%nat /\
  match mp_from_slice x64 no_floats 140 (adjacent no_floats DeserializeError adj_t adj_c adj_vs) input with Done _ r => Some r | _ => None end = Some (Err UnexpectedEof) /\
  match js_from_mut_slice x64 bits_fl false NopeDecoder 137 (adjacent no_floats JDeserializeError adj_t adj_c adj_vs) text with Done _ r => Some r | _ => None end = Some (Err JUnexpectedEof).
Proof.
  intros input text. split; [apply adj_ok|]. split; [split; [repeat constructor; unfold is_byte; lia|vm_compute; reflexivity]|].
  split; [reflexivity|]. split; [reflexivity|]. split; vm_compute; reflexivity.
Qed.

(** C71: an encoding cut short is reported as incomplete, and no input is an encoding of
    two values. *)
Theorem C71_msgpack_truncated : forall ar fo tag content vs i v bs c q,
  arch32up ar -> names_ok [tag; content] -> wf (TEnum vs) -> adjacent_enc fo tag content vs i v (bs ++ c :: q) -> slice_of ar (bs ++ c :: q) ->
  exists N, forall fuel, (N <= fuel)%nat ->
    exists s, mp_from_slice ar fo fuel (adjacent fo DeserializeError tag content vs) bs = Done s (Err UnexpectedEof).
Proof. exact mp_adjacent_truncated. Qed.
Print Assumptions C71_msgpack_truncated.
Theorem C71_msgpack_unambiguous : forall fo tag content vs i v i' v' bs tail,
  names_ok [tag; content] -> wf (TEnum vs) -> slice64 (bs ++ tail) ->
  adjacent_enc fo tag content vs i v bs -> adjacent_enc fo tag content vs i' v' (bs ++ tail) -> i = i' /\ v = v' /\ tail = [].
Proof. exact mp_adjacent_unambiguous. Qed.
Print Assumptions C71_msgpack_unambiguous.
Theorem C71_json_unambiguous : forall f32_of f64_of dec tag content vs i v i' v' d text,
  let reads := reads_as no_ws f32_of f64_of
    (match dec with NopeDecoder => bytes_as_string | HexDecoder => hex_bytes | Base64Decoder => bytes_as_base64 end) in
  names_ok [tag; content] -> wf (TEnum vs) -> raw_text d text ->
  adjacent_doc reads tag content vs i v d -> adjacent_doc reads tag content vs i' v' d -> i = i' /\ v = v'.
Proof. exact js_adjacent_unambiguous. Qed.
Print Assumptions C71_json_unambiguous.
(** The encoding of [C71_msgpack_interoperability_case], and that with the content, cut at every place. *)
Example C71_truncated_case :
  let cut input := map (fun n => match mp_from_slice x64 no_floats 99 (adjacent no_floats DeserializeError adj_t adj_c adj_vs) (firstn n input) with Done _ r => Some r | _ => None end) (seq 0 (length input)) in
  cut [0x82; 0xa1; 122; 0x90; 0xa1; 116; 0xa3; 79; 110; 101] = repeat (Some (Err UnexpectedEof)) 10 /\
  cut [0x82; 0xa1; 116; 0xa2; 65; 116; 0xa1; 99; 0x82; 0xa1; 120; 7; 0xa1; 107; 0xc3] = repeat (Some (Err UnexpectedEof)) 15.
Proof. intros cut. split; vm_compute; reflexivity. Qed.

(** C71: the content is taken before the tag too, for what C75 makes of it, and with other entries around. *)
Theorem C71_msgpack_takes : forall ar fo tag content vs i v bs tail,
  arch32up ar -> names_ok [tag; content] -> wf (TEnum vs) -> adjacent_takes fo tag content vs i v bs -> slice_of ar (bs ++ tail) ->
  exists N, forall fuel, (N <= fuel)%nat ->
    exists s, mp_from_slice ar fo fuel (adjacent fo DeserializeError tag content vs) (bs ++ tail) = Done s (Ok (UVar i v, zlen bs)).
Proof. exact mp_adjacent_takes. Qed.
Print Assumptions C71_msgpack_takes.
Theorem C71_msgpack_takes_truncated : forall ar fo tag content vs i v bs c q,
  arch32up ar -> names_ok [tag; content] -> wf (TEnum vs) -> adjacent_takes fo tag content vs i v (bs ++ c :: q) -> slice_of ar (bs ++ c :: q) ->
  exists N, forall fuel, (N <= fuel)%nat ->
    exists s, mp_from_slice ar fo fuel (adjacent fo DeserializeError tag content vs) bs = Done s (Err UnexpectedEof).
Proof. exact mp_adjacent_takes_truncated. Qed.
Print Assumptions C71_msgpack_takes_truncated.
(** C71: every input is decided: a value comes from an encoding of it at the start of the
    input, and an input is refused only when no encoding is there. *)
Theorem C71_msgpack_decides : forall ar fo tag content vs input fuel,
  arch64 ar -> names_ok [tag; content] -> wf (TEnum vs) -> slice64 input -> (10 * type_size (TEnum vs) + 1 + 3 * length input <= fuel)%nat ->
  (exists s i v bs tail, mp_from_slice ar fo fuel (adjacent fo DeserializeError tag content vs) input = Done s (Ok (UVar i v, zlen bs)) /\
     input = bs ++ tail /\ adjacent_got fo tag content vs i v bs) \/
  (exists s e, mp_from_slice ar fo fuel (adjacent fo DeserializeError tag content vs) input = Done s (Err e) /\
     forall i v bs tail, input = bs ++ tail -> ~ adjacent_takes fo tag content vs i v bs).
Proof. exact mp_adjacent_decides. Qed.
Print Assumptions C71_msgpack_decides.
(** The content, an entry of no interest, the tag; that with a struct variant, whose
    content comes with names and with numbers; and what is refused: no tag, the content
    twice, an array of three. *)
Example C71_msgpack_decides_case :
  adjacent_takes no_floats adj_t adj_c adj_vs 3 (USome (UInt 7)) [0x83; 0xa1; 99; 7; 0xa1; 122; 0x90; 0xa1; 116; 0xa3; 79; 110; 101] /\
  map (fun input => match mp_from_slice x64 no_floats 999 (adjacent no_floats DeserializeError adj_t adj_c adj_vs) input with Done _ r => Some r | _ => None end)
    [[0x83; 0xa1; 99; 7; 0xa1; 122; 0x90; 0xa1; 116; 0xa3; 79; 110; 101]; [0x82; 1; 0x82; 0xa1; 120; 7; 0xa1; 107; 0xc3; 0; 1; 88]; [0x82; 1; 0x82; 0; 7; 1; 0xc3; 0; 1; 88];
     [0x81; 1; 7]; [0x83; 1; 7; 0; 3; 1; 7]; [0x93; 3; 7; 7]]
  = [Some (Ok (UVar 3 (USome (UInt 7)), 13)); Some (Ok (UVar 1 adj_at, 11)); Some (Ok (UVar 1 adj_at, 9)); Some (Err DeserializeError); Some (Err DeserializeError); Some (Err TrailingElements)].
Proof.
  split; [|vm_compute; reflexivity]. right.
  apply (CF_map adj_t adj_c adj_vs 3 _ [79; 110; 101] KNewtype (TOption (TInt U8)) 0 1 0 [0x83] [] [0xa1; 99] (VInt 7) (UInt 7) [7] [0xa1; 122; 0x90] [0xa1; 116] [0xa3; 79; 110; 101] []).
  - reflexivity.
  - apply (MH_fix 3). lia.
  - constructor.
  - left. exists [99]. split; [reflexivity|]. exists [0xa1]. split; [apply (SH_fix 1); lia|reflexivity].
  - apply MF_int. constructor. lia.
  - constructor.
  - apply (OT_cons [adj_t; adj_c] 0 (VArr []) [0xa1; 122] [0x90] []); [|apply (MF_arr [] [0x90] []); [apply (AH_fix 0); lia|constructor]|constructor].
    left. exists [122]. split; [utf8|]. split; [cbn; intuition discriminate|]. exists [0xa1]. split; [apply (SH_fix 1); lia|reflexivity].
  - left. exists [116]. split; [reflexivity|]. exists [0xa1]. split; [apply (SH_fix 1); lia|reflexivity].
  - left. exists [79; 110; 101]. split; [reflexivity|]. exists [0xa3]. split; [apply (SH_fix 3); lia|reflexivity].
  - constructor.
  - split; [exact I|]. cbn. split; [discriminate|]. split; [discriminate|]. split; [reflexivity|]. unfold in_ikind. cbn. lia.
Qed.

(** C71: the same for JSON. *)
Theorem C71_json_takes : forall ar fl fo (any_f32 : bool) dec tag content vs i v d text w1 w2,
  names_ok [tag; content] -> wf (TEnum vs) ->
  adjacent_doc (reads_as any_ws (f32_from_str fl) (f64_from_str fl)
    (match dec with NopeDecoder => bytes_as_string | HexDecoder => hex_bytes | Base64Decoder => bytes_as_base64 end)) tag content vs i v d \/
  content_first_doc fo any_f32 (if any_f32 then f32_from_str fl else f64_from_str fl) tag content vs i v d ->
  loose_text d text -> any_ws w1 -> any_ws w2 -> (dec = Base64Decoder -> 3 * zlen (w1 ++ text ++ w2) <= usize_max ar) ->
  exists N, forall fuel, (N <= fuel)%nat ->
    exists s, js_from_mut_slice ar fl any_f32 dec fuel (adjacent fo JDeserializeError tag content vs) (w1 ++ text ++ w2) = Done s (Ok (UVar i v)).
Proof. exact js_adjacent_takes. Qed.
Print Assumptions C71_json_takes.
Theorem C71_json_decides : forall ar fl fo (any_f32 : bool) dec tag content vs input fuel,
  let takes i v d :=
    adjacent_doc (reads_as any_ws (f32_from_str fl) (f64_from_str fl)
      (match dec with NopeDecoder => bytes_as_string | HexDecoder => hex_bytes | Base64Decoder => bytes_as_base64 end)) tag content vs i v d \/
    content_first_doc fo any_f32 (if any_f32 then f32_from_str fl else f64_from_str fl) tag content vs i v d in
  f32_from_str fl [] = None -> f64_from_str fl [] = None -> names_ok [tag; content] -> wf (TEnum vs) -> all_bytes input ->
  (dec = Base64Decoder -> 3 * zlen input <= usize_max ar) -> (10 * type_size (TEnum vs) + 1 + 3 * length input <= fuel)%nat ->
  (exists s i v d w1 text w2, js_from_mut_slice ar fl any_f32 dec fuel (adjacent fo JDeserializeError tag content vs) input = Done s (Ok (UVar i v)) /\
     input = w1 ++ text ++ w2 /\ any_ws w1 /\ any_ws w2 /\ loose_text d text /\ takes i v d) \/
  (exists s e, js_from_mut_slice ar fl any_f32 dec fuel (adjacent fo JDeserializeError tag content vs) input = Done s (Err e) /\
     forall i v d w1 text w2, input = w1 ++ text ++ w2 -> any_ws w1 -> any_ws w2 -> loose_text d text -> ~ takes i v d).
Proof. intros ar fl fo any_f32 dec tag content vs input fuel takes. exact (js_adjacent_decides ar fl fo any_f32 dec tag content vs input fuel). Qed.
Print Assumptions C71_json_decides.
(** C71: a text cut short is refused. *)
Theorem C71_json_cut_refused : forall ar fl fo any_f32 dec tag content vs fuel s u d w1 text p q,
  f32_from_str fl [] = None -> f64_from_str fl [] = None -> wf (TEnum vs) ->
  (dec = Base64Decoder -> 3 * zlen (w1 ++ text) <= usize_max ar) ->
  loose_text d text -> any_ws w1 -> (forall tok, d <> JNum tok) -> w1 ++ text = p ++ q -> q <> [] ->
  js_from_mut_slice ar fl any_f32 dec fuel (adjacent fo JDeserializeError tag content vs) p <> Done s (Ok u).
Proof. exact js_adjacent_cut. Qed.
Print Assumptions C71_json_cut_refused.
(** [{"c":7,"z":null,"t":"One"}], that cut at every place, and what is refused:
    [{"c":7}], [{"c":7,"t":"One","c":7}], [["One",7,7]], [{"t":"One","c":7}7]. *)
Example C71_json_decides_case :
  let text := [123; 34;99;34; 58; 55; 44; 34;122;34; 58; 110;117;108;108; 44; 34;116;34; 58; 34;79;110;101;34; 125] in
  let d := JObj ([] ++ ([99], JNum [55]) :: [([122], JNull)] ++ ([116], JStr [79; 110; 101]) :: []) in
  content_first_doc no_floats false (fun _ => None) adj_t adj_c adj_vs 3 (USome (UInt 7)) d /\ raw_text d text /\
  map (fun input => match js_from_mut_slice x64 bits_fl false HexDecoder 999 (adjacent no_floats JDeserializeError adj_t adj_c adj_vs) input with Done _ (Ok v) => Some v | _ => None end)
    (map (fun n => firstn n text) (seq 0 27)) = repeat None 26 ++ [Some (UVar 3 (USome (UInt 7)))] /\
  map (fun input => match js_from_mut_slice x64 bits_fl false HexDecoder 999 (adjacent no_floats JDeserializeError adj_t adj_c adj_vs) input with Done _ (Err e) => Some e | _ => None end)
    [[123; 34;99;34; 58; 55; 125]; [123; 34;99;34; 58; 55; 44; 34;116;34; 58; 34;79;110;101;34; 44; 34;99;34; 58; 55; 125];
     [91; 34;79;110;101;34; 44; 55; 44; 55; 93]; [123; 34;116;34; 58; 34;79;110;101;34; 44; 34;99;34; 58; 55; 125; 55]]
  = [Some JDeserializeError; Some JDeserializeError; Some JExpectedArrayEnd; Some JTrailingCharacters].
Proof.
  intros text d. split.
  { apply (CD_object no_floats false _ adj_t adj_c adj_vs 3 _ [79; 110; 101] KNewtype (TOption (TInt U8)) [] [99] (JNum [55]) (UInt 7) [([122], JNull)] [116] [79; 110; 101] []).
    - reflexivity.
    - repeat constructor. exists [122]. split; [ascii|]. split; [cbn; intuition discriminate|exact I].
    - ascii.
    - apply A_num. apply (N_pos false _ [55]); [dgt|cbn; lia].
    - ascii.
    - ascii.
    - cbn. split; [discriminate|]. split; [discriminate|]. split; [reflexivity|]. unfold in_ikind. cbn. lia. }
  split.
  { pose proof (O_one any_ws quoted quoted json_number [116] [34; 116; 34] (JStr [79; 110; 101]) [34; 79; 110; 101; 34] [] [] [] []
      ltac:(ws) ltac:(qtd) ltac:(ws) ltac:(ws) (T_str any_ws quoted quoted json_number [79; 110; 101] [34; 79; 110; 101; 34] ltac:(qtd)) ltac:(ws)) as M1.
    pose proof (O_more any_ws quoted quoted json_number [122] [34; 122; 34] JNull [110; 117; 108; 108] _ _ [] [] [] []
      ltac:(ws) ltac:(qtd) ltac:(ws) ltac:(ws) (T_null _ _ _ _) ltac:(ws) M1) as M2.
    assert (N : json_number [55]) by (exists [], [55], [], []; split; [reflexivity|]; split; [auto|]; split; [split; [dgt|right; exists 55, []; split; [reflexivity|lia]]|split; left; reflexivity]).
    pose proof (O_more any_ws quoted quoted json_number [99] [34; 99; 34] (JNum [55]) [55] _ _ [] [] [] []
      ltac:(ws) ltac:(qtd) ltac:(ws) ltac:(ws) (T_num _ _ _ _ _ N) ltac:(ws) M2) as M3.
    exact (T_obj _ _ _ _ _ _ M3). }
  split; [vm_compute; reflexivity|]. vm_compute. reflexivity.
Qed.

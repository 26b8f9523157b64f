(** C76: untagged and internally tagged enums inside options, lists, tuples, maps and
    structs, newtypes and enums with names outside, at any depth. *)
From Verif Require Import Prelude Utf8Spec SerdeSer SerdeDe FloatOps MpSpec MpErrMap MpSer MpDe MpDeView MpDeTop Types MpTypeSpec Base64Spec JsonSpec JsonTypeSpec JsonSer JsonErrMap JsonDe
  JsonAnySpec JsonCases Content ContentSpec Nested NestedSpec MpNested JsonNested BufferSpec NestedReadSpec NestedRead NestedSound JsonNestedSound NestedSize MpNestedFuel JsonNestedFuel NestedCut PropsMpSer PropsMpDe PropsMpTyped PropsJsonSer PropsContent PropsTagged PropsJsonTyped PropsBuffer.

(** C76: what is written is read back, and all of it is read: each enum is what it was,
    ordinary parts are what a round trip leaves of them (C49), and [Some] of something
    written as nil is [None]. *)
Theorem C76_msgpack_nested : forall ar fo cfg fl x v out tail,
  arch32up ar -> 2 ^ 32 - 1 <= cfg_usize_max cfg -> mp_made (style_of fl) x v ->
  mp_to_vec cfg fl (xtrace x v) = Ok out -> slice_of ar (out ++ tail) ->
  exists N, forall fuel, (N <= fuel)%nat ->
    exists s, mp_from_slice ar fo fuel (xdenote fo DeserializeError x) (out ++ tail) = Done s (Ok (mp_image x v, zlen out)).
Proof. exact (fun ar fo cfg fl x v out tail A Hc => mp_nested_trip ar fo cfg fl x v out tail A Hc). Qed.
Print Assumptions C76_msgpack_nested.

(** struct { a: Vec<E>, t: Option<T>, o: Option<E>, m: Map<String, (E, u8)>, r: Rec } with the
    untagged E of C65 and the internally tagged T of C66. *)
Definition deep_ty : xty := XStruct [([97], XSeq (XUntagged e_ty)); ([116], XOption (XTagged tag_t tag_vs)); ([111], XOption (XUntagged e_ty));
  ([109], XMap TStr (XTuple [XUntagged e_ty; XTy (TInt U8)])); ([114], XTy rec_ty)].
Definition deep_val (o : val) : val := USeq [USeq [UVar 0 UUnit; UVar 1 (UStr [104; 105]); UVar 3 rec_val; UVar 2 (USeq [UBool true; UInt (-9)])];
  USome (UVar 1 tag_val); o; UMap [(UStr [107], USeq [UVar 1 (UStr []); UInt 200])]; rec_val].

Lemma deep_mp : mp_made SNameMap deep_ty (deep_val (USome (UVar 0 UUnit))).
Proof.
  assert (E0 : mp_untagged_ok SNameMap e_ty (UVar 0 UUnit)).
  { exists 0%nat, KUnit, TUnit, UUnit. split; [reflexivity|]. split; [reflexivity|]. split; [exact I|]. split; [shown|]. split; [shown|]. split; [shown|]. split; [cbn; auto|].
    split; [discriminate|]. intros f s Hi J K. destruct Hi. }
  assert (E1 : forall s, valid_utf8 s -> short s -> mp_untagged_ok SNameMap e_ty (UVar 1 (UStr s))).
  { intros s V Hs. exists 1%nat, KNewtype, TStr, (UStr s). split; [reflexivity|]. split; [reflexivity|]. split; [exact I|]. split; [shown|]. split; [shown|]. split; [cbn; auto|]. split; [cbn; auto|].
    split; [discriminate|]. intros f s0 Hi J K. cbn in Hi, J. destruct J as [<-|[]]. destruct Hi as [<-|[]]; cbn in K; intuition discriminate. }
  assert (E2 : mp_untagged_ok SNameMap e_ty (UVar 2 (USeq [UBool true; UInt (-9)]))).
  { exists 2%nat, KTuple, (TTuple [TBool; TInt I32]), (USeq [UBool true; UInt (-9)]). split; [reflexivity|]. split; [reflexivity|]. split; [shown|]. split; [shown|]. split; [shown|]. split; [shown|]. split; [cbn; auto|].
    split; [discriminate|]. intros f s Hi J K. cbn in Hi, J. destruct J as [<-|[]]. destruct Hi as [<-|[<-|[]]]; cbn in K; intuition discriminate. }
  assert (E3 : mp_untagged_ok SNameMap e_ty (UVar 3 rec_val)).
  { exists 3%nat, KStruct, rec_ty, rec_val. split; [reflexivity|]. split; [reflexivity|]. split; [shown|]. split; [shown|]. split; [shown|]. split; [shown|]. split; [cbn; intuition (try discriminate; auto)|].
    split; [discriminate|]. intros f s Hi J K. cbn in Hi, J. destruct J as [<-|[]]. destruct Hi as [<-|[<-|[<-|[]]]]; cbn in K; intuition discriminate. }
  assert (T : mp_tagged_ok SNameMap tag_t tag_vs (UVar 1 tag_val)).
  { destruct tag_demo as (A & B & C & D). split; [discriminate|]. split; [exact A|]. exists 1%nat, ([65; 116], Some tag_fields), tag_val.
    split; [reflexivity|]. split; [reflexivity|]. split; [exact B|]. split; [exact C|]. split; [cbn; intuition discriminate|exact D]. }
  split; [shown|]. split; [split; [repeat constructor; auto; apply E1; [utf8|reflexivity]|reflexivity]|]. split; [exact T|]. split; [exact E0|].
  split; [|split; [split; shown|exact I]].
  unfold mp_made. cbn [snd made_of]. split; [|reflexivity]. constructor; [|constructor]. cbn [fst snd map all2].
  split; [split; shown|]. split; [|reflexivity]. split; [apply E1; [utf8|reflexivity]|]. split; [split; shown|exact I].
Qed.
Example C76_msgpack_case : mp_made SNameMap deep_ty (deep_val (USome (UVar 0 UUnit))) /\
  mp_image deep_ty (deep_val (USome (UVar 0 UUnit))) = deep_val UNone /\
  exists out, mp_to_vec cfg64 StructMapStr (xtrace deep_ty (deep_val (USome (UVar 0 UUnit)))) = Ok out /\ zlen out = 92 /\
    match mp_from_slice x64 no_floats 99 (xdenote no_floats DeserializeError deep_ty) (out ++ [1]) with
    | Done _ r => r = Ok (deep_val UNone, 92) | _ => False end.
Proof.
  split; [exact deep_mp|]. split; [vm_compute; reflexivity|]. eexists. split; [vm_compute; reflexivity|]. split; [vm_compute; reflexivity|]. vm_compute. reflexivity.
Qed.

(** enum M { Ping, Put(W) } with struct W(Deep), by name and by number. *)
Definition msg_ty (x : xty) : xty := XEnum [([80; 105; 110; 103], None); ([80; 117; 116], Some (XNewtype x))].
Example C76_msgpack_enum_case : mp_made SNameMap (msg_ty deep_ty) (UVar 1 (deep_val (USome (UVar 0 UUnit)))) /\ mp_made SIndexMap (msg_ty (XTy TStr)) (UVar 1 (UStr [104; 105])) /\
  (exists out, mp_to_vec cfg64 StructMapStr (xtrace (msg_ty deep_ty) (UVar 1 (deep_val (USome (UVar 0 UUnit))))) = Ok (0x81 :: 0xa3 :: 80 :: 117 :: 116 :: out) /\ zlen out = 92 /\
    match mp_from_slice x64 no_floats 99 (xdenote no_floats DeserializeError (msg_ty deep_ty)) ((0x81 :: 0xa3 :: 80 :: 117 :: 116 :: out) ++ [1]) with
    | Done _ r => r = Ok (UVar 1 (deep_val UNone), 97) | _ => False end) /\
  mp_to_vec cfg64 StructMapIdx (xtrace (msg_ty (XTy TStr)) (UVar 1 (UStr [104; 105]))) = Ok [0x81; 1; 0xa2; 104; 105] /\
  map (fun input => match mp_from_slice x64 no_floats 99 (xdenote no_floats DeserializeError (msg_ty (XTy TStr))) input with Done _ r => Some r | _ => None end)
    [[0x81; 1; 0xa2; 104; 105]; [0]; [1]; [2]; [0x81; 0; 0xc0]; [0xa4; 80; 105; 110; 103; 7]] =
  [Some (Ok (UVar 1 (UStr [104; 105]), 5)); Some (Ok (UVar 0 UUnit, 1)); Some (Err InvalidType); Some (Err DeserializeError); Some (Err InvalidType); Some (Ok (UVar 0 UUnit, 5))].
Proof.
  assert (N : names_ok [[80; 105; 110; 103]; [80; 117; 116]]) by shown.
  split; [split; [exact N|exact deep_mp]|]. split; [split; [exact N|split; shown]|].
  split; [eexists; split; [vm_compute; reflexivity|]; split; [vm_compute; reflexivity|]; vm_compute; reflexivity|]. split; [vm_compute; reflexivity|]. vm_compute. reflexivity.
Qed.

(** C76: JSON.  Floats inside the enums are as in C65; elsewhere they lose what C49 says. *)
Theorem C76_json_nested : forall ar fl fp fo (any_f32 : bool) enc dec x v out w1 w2,
  let float_of := if any_f32 then f32_from_str fl else f64_from_str fl in
  (forall b, 0 <= b < 2 ^ 32 -> finite32 b -> f32_from_str fl (format_f32 fp b) = Some (if b =? 0x80000000 then 0 else b)) ->
  (forall b, 0 <= b < 2 ^ 64 -> finite64 b -> f64_from_str fl (format_f64 fp b) = Some (if b =? 0x8000000000000000 then 0 else b)) ->
  printer_ok fp ->
  In (enc, dec) [(ArrayByteEncoder, NopeDecoder); (ArrayByteEncoder, HexDecoder); (ArrayByteEncoder, Base64Decoder);
                 (HexStrByteEncoder, HexDecoder); (Base64ByteEncoder, Base64Decoder)] ->
  js_made (fun b => finite32 b /\ told32 fo any_f32 float_of (format_f32 fp b) b) (fun b => finite64 b /\ told64 fo any_f32 float_of (format_f64 fp b) b)
    (enc = ArrayByteEncoder) x v ->
  js_to_string fp enc (xtrace x v) = Ok out -> any_ws w1 -> any_ws w2 ->
  (dec = Base64Decoder -> 3 * zlen (w1 ++ out ++ w2) <= usize_max ar) ->
  exists N, forall fuel, (N <= fuel)%nat ->
    exists s, js_from_mut_slice ar fl any_f32 dec fuel (xdenote fo JDeserializeError x) (w1 ++ out ++ w2) = Done s (Ok (js_image x v)).
Proof. exact js_nested_cases. Qed.
Print Assumptions C76_json_nested.

(** The same value, with an infinity and a byte string beside it. *)
Definition deep_js : xty := XTuple [deep_ty; XTy (TTuple [TF64; TBytes])].
Definition deep_pair (o f : val) : val := USeq [deep_val o; USeq [f; UBytes [1; 255]]].
Lemma deep_json ok32 ok64 : js_made ok32 ok64 (ArrayByteEncoder = ArrayByteEncoder) deep_js (deep_pair (USome (UVar 0 UUnit)) (UF64 0x7ff0000000000000)).
Proof.
  assert (E0 : js_untagged_ok ok32 ok64 (ArrayByteEncoder = ArrayByteEncoder) e_ty (UVar 0 UUnit)).
  { exists 0%nat, KUnit, TUnit, UUnit. split; [reflexivity|]. split; [reflexivity|]. split; [exact I|]. split; [shown|]. split; [shown|]. split; [shown|]. split; [cbn; auto|].
    split; [cbn; auto|]. intros f s Hi J K. destruct Hi. }
  assert (E1 : forall s, valid_utf8 s -> short s -> js_untagged_ok ok32 ok64 (ArrayByteEncoder = ArrayByteEncoder) e_ty (UVar 1 (UStr s))).
  { intros s V Hs. exists 1%nat, KNewtype, TStr, (UStr s). split; [reflexivity|]. split; [reflexivity|]. split; [exact I|]. split; [shown|]. split; [shown|]. split; [cbn; auto|]. split; [cbn; auto|].
    split; [cbn; auto|]. intros f s0 Hi J K. cbn in Hi, J. destruct J as [<-|[]]. destruct Hi as [<-|[]]; cbn in K; intuition discriminate. }
  assert (E2 : js_untagged_ok ok32 ok64 (ArrayByteEncoder = ArrayByteEncoder) e_ty (UVar 2 (USeq [UBool true; UInt (-9)]))).
  { exists 2%nat, KTuple, (TTuple [TBool; TInt I32]), (USeq [UBool true; UInt (-9)]). split; [reflexivity|]. split; [reflexivity|]. split; [shown|]. split; [shown|]. split; [shown|]. split; [shown|]. split; [cbn; auto|].
    split; [cbn; auto|]. intros f s Hi J K. cbn in Hi, J. destruct J as [<-|[]]. destruct Hi as [<-|[<-|[]]]; cbn in K; intuition discriminate. }
  assert (E3 : js_untagged_ok ok32 ok64 (ArrayByteEncoder = ArrayByteEncoder) e_ty (UVar 3 rec_val)).
  { exists 3%nat, KStruct, rec_ty, rec_val. split; [reflexivity|]. split; [reflexivity|]. split; [shown|]. split; [shown|]. split; [shown|]. split; [shown|]. split; [cbn; intuition (try discriminate; auto)|].
    split; [cbn; intuition auto|]. intros f s Hi J K. cbn in Hi, J. destruct J as [<-|[]]. destruct Hi as [<-|[<-|[<-|[]]]]; cbn in K; intuition discriminate. }
  assert (T : js_tagged_ok ok32 ok64 (ArrayByteEncoder = ArrayByteEncoder) tag_t tag_vs (UVar 1 tag_val)).
  { destruct tag_demo as (A & B & C & D). split; [exact A|]. exists 1%nat, ([65; 116], Some tag_fields), tag_val.
    split; [reflexivity|]. split; [reflexivity|]. split; [exact B|]. split; [exact C|]. split; [cbn; intuition discriminate|]. split; [exact D|]. cbn. intuition auto. }
  split; [|reflexivity]. split; [|split; [split; [|split]; shown|exact I]].
  split; [shown|]. split; [split; [repeat constructor; auto; apply E1; [utf8|reflexivity]|reflexivity]|]. split; [exact T|]. split; [exact E0|].
  split; [|split; [split; [|split]; shown|exact I]].
  cbn [snd made_of]. split; [|reflexivity]. constructor; [|constructor]. cbn [fst snd map all2].
  split; [split; [|split]; [shown|shown|discriminate]|]. split; [|reflexivity]. split; [apply E1; [utf8|reflexivity]|]. split; [split; [|split]; shown|exact I].
  repeat constructor; unfold is_byte; lia.
Qed.
Example C76_json_case :
  (forall ok32 ok64, js_made ok32 ok64 (ArrayByteEncoder = ArrayByteEncoder) deep_js (deep_pair (USome (UVar 0 UUnit)) (UF64 0x7ff0000000000000))) /\
  js_image deep_js (deep_pair (USome (UVar 0 UUnit)) (UF64 0x7ff0000000000000)) = deep_pair UNone (UF64 0x7ff8000000000000) /\
  exists out, js_to_string bits_fp ArrayByteEncoder (xtrace deep_js (deep_pair (USome (UVar 0 UUnit)) (UF64 0x7ff0000000000000))) = Ok out /\ zlen out = 212 /\
    match js_from_mut_slice x64 bits_fl false HexDecoder 250 (xdenote no_floats JDeserializeError deep_js) ([32] ++ out ++ [10]) with
    | Done _ r => r = Ok (deep_pair UNone (UF64 0x7ff8000000000000)) | _ => False end.
Proof.
  split; [exact deep_json|]. split; [vm_compute; reflexivity|]. eexists. split; [vm_compute; reflexivity|]. split; [vm_compute; reflexivity|]. vm_compute. reflexivity.
Qed.

(** [{"Put":..}] and ["Ping"]; [{"Ping":null}], ["Put"], [{"No":1}] and [{"Put":"x","a":1}] are refused. *)
Example C76_json_enum_case :
  (forall ok32 ok64, js_made ok32 ok64 (ArrayByteEncoder = ArrayByteEncoder) (msg_ty deep_js) (UVar 1 (deep_pair (USome (UVar 0 UUnit)) (UF64 0x7ff0000000000000)))) /\
  (exists out, js_to_string bits_fp ArrayByteEncoder (xtrace (msg_ty deep_js) (UVar 1 (deep_pair (USome (UVar 0 UUnit)) (UF64 0x7ff0000000000000)))) = Ok ([123; 34; 80; 117; 116; 34; 58] ++ out) /\ zlen out = 213 /\
    match js_from_mut_slice x64 bits_fl false HexDecoder 250 (xdenote no_floats JDeserializeError (msg_ty deep_js)) ([32] ++ ([123; 34; 80; 117; 116; 34; 58] ++ out) ++ [10]) with
    | Done _ r => r = Ok (UVar 1 (deep_pair UNone (UF64 0x7ff8000000000000))) | _ => False end) /\
  map (fun input => match js_from_mut_slice x64 bits_fl false HexDecoder 250 (xdenote no_floats JDeserializeError (msg_ty (XTy TStr))) input with Done _ (Ok v) => Some (Some v) | Done _ (Err _) => Some None | _ => None end)
    [[34; 80; 105; 110; 103; 34]; [123; 34; 80; 117; 116; 34; 58; 34; 120; 34; 125]; [123; 34; 80; 105; 110; 103; 34; 58; 110; 117; 108; 108; 125]; [34; 80; 117; 116; 34];
     [123; 34; 78; 111; 34; 58; 49; 125]; [123; 34; 80; 117; 116; 34; 58; 34; 120; 34; 44; 34; 97; 34; 58; 49; 125]] =
  [Some (Some (UVar 0 UUnit)); Some (Some (UVar 1 (UStr [120]))); Some None; Some None; Some None; Some None].
Proof.
  split; [intros; split; [shown|exact (deep_json ok32 ok64)]|].
  split; [eexists; split; [vm_compute; reflexivity|]; split; [vm_compute; reflexivity|]; vm_compute; reflexivity|]. vm_compute. reflexivity.
Qed.

(** C76: and these values can be written, in the compact flavour if no field inside is left out. *)
Theorem C76_msgpack_writable : forall cfg fl x v, 2 ^ 32 - 1 <= cfg_usize_max cfg -> fl <> Compact \/ xplain x -> mp_made (style_of fl) x v ->
  exists out, mp_to_vec cfg fl (xtrace x v) = Ok out.
Proof. exact mp_writable. Qed.
Print Assumptions C76_msgpack_writable.
Theorem C76_json_writable : forall ok32 ok64 fp enc x v, enc <> PassThroughByteEncoder -> printer_ok fp ->
  xgood_keys x -> js_made ok32 ok64 (enc = ArrayByteEncoder) x v -> exists out, js_to_string fp enc (xtrace x v) = Ok out.
Proof. exact (fun ok32 ok64 fp enc x v He Hp => js_nested_writable fp enc He Hp ok32 ok64 x v). Qed.
Print Assumptions C76_json_writable.
Example C76_writable_case : mp_made (style_of StructMapStr) deep_ty (deep_val (USome (UVar 0 UUnit))) /\ xgood_keys deep_js /\
  js_made (fun _ => False) (fun _ => False) (ArrayByteEncoder = ArrayByteEncoder) deep_js (deep_pair (USome (UVar 0 UUnit)) (UF64 0x7ff0000000000000)).
Proof. split; [exact deep_mp|]. split; [cbn; intuition auto|apply deep_json]. Qed.
Example C76_compact_writable_case : xplain (msg_ty (XStruct [([97], XTy TStr)])) /\ mp_made (style_of Compact) (msg_ty (XStruct [([97], XTy TStr)])) (UVar 1 (USeq [UStr [104; 105]])) /\
  mp_to_vec cfg64 Compact (xtrace (msg_ty (XStruct [([97], XTy TStr)])) (UVar 1 (USeq [UStr [104; 105]]))) = Ok [0x81; 1; 0x91; 0xa2; 104; 105].
Proof. split; [cbn; tauto|]. split; [split; [shown|split; [shown|split; [split; shown|exact I]]]|]. vm_compute. reflexivity. Qed.

(** C76: what other programs write is read as well, as for ordinary types (C22, C40): any
    form of the numbers, strings and headers, fields in any order, by name or number, or as
    an array, entries with other names, options left out; and of each enum what C75 says. *)
Theorem C76_msgpack_interoperability : forall ar fo x v bs tail,
  arch32up ar -> xwf x -> xadm fo x v bs -> slice_of ar (bs ++ tail) ->
  exists N, forall fuel, (N <= fuel)%nat ->
    exists s, mp_from_slice ar fo fuel (xdenote fo DeserializeError x) (bs ++ tail) = Done s (Ok (v, zlen bs)).
Proof. exact mp_nested_reads. Qed.
Print Assumptions C76_msgpack_interoperability.
Theorem C76_json_interoperability : forall ar fl fo any_f32 dec x v d text w1 w2, xwf x ->
  xreads fo any_f32 (f32_from_str fl) (f64_from_str fl) no_ws
    (match dec with NopeDecoder => bytes_as_string | HexDecoder => hex_bytes | Base64Decoder => bytes_as_base64 end) x v d ->
  raw_text d text -> any_ws w1 -> any_ws w2 ->
  (dec = Base64Decoder -> 3 * zlen (w1 ++ text ++ w2) <= usize_max ar) ->
  exists N, forall fuel, (N <= fuel)%nat ->
    exists s, js_from_mut_slice ar fl any_f32 dec fuel (xdenote fo JDeserializeError x) (w1 ++ text ++ w2) = Done s (Ok v).
Proof. exact js_nested_interop. Qed.
Print Assumptions C76_json_interoperability.

(** struct { a: Vec<E>, o: Option<T>, b: bool } with the enums of C75. *)
Definition near_ty : xty := XStruct [([97], XSeq (XUntagged buf_vs)); ([111], XOption (XTagged [116] [([79; 102; 102], None); ([79; 110], Some buf_fs)])); ([98], XTy TBool)].
Definition near_val (o : val) : val := USeq [USeq [UVar 1 (USeq [UInt 7; UNone])]; o; UBool true].
Lemma near_wf : xwf near_ty.
Proof.
  split; [shown|]. split; [constructor; [split; shown|constructor; [split; shown|constructor]]|]. split; [split; [shown|constructor; [exact I|constructor; [shown|constructor]]]|]. split; exact I.
Qed.
Lemma near_first : first_variant no_floats buf_vs 1 (USeq [UInt 7; UNone]) (UMap [(UStr [122], UInt 1); (UStr [97], UInt 7)]).
Proof.
  exists (KStruct, TStruct buf_fs). split; [reflexivity|]. split.
  - split; [eauto|]. right. eexists. exists [Some (UInt 7); None]. split; [reflexivity|]. split.
    + apply BF_other with (s := [122]); [left; reflexivity|cbn; intuition discriminate|].
      apply (BF_field _ _ _ 0 [97] (buf_as no_floats (TInt U8)) (UInt 7)); [reflexivity|reflexivity|reflexivity|left; reflexivity| |apply BF_nil].
      split; [reflexivity|]. unfold in_ikind. cbn. lia.
    + cbn. repeat split. eexists. reflexivity.
  - intros [|j] g u L E; [|lia]. injection E as <-. unfold variant_as. cbn. destruct u; auto. intros [E|[E _]]; discriminate.
Qed.
(** As a map: an entry with another name first, b before a, o left out, a named by its
    number; and as an array. *)
Example C76_msgpack_interoperability_case :
  let e := [0x82; 0xa1; 122; 1; 0xa1; 97; 7] in
  let input1 := [0x83; 0xa1; 122; 0xc0] ++ [0xa1; 98; 0xc3] ++ [0; 0x91] ++ e in
  let input2 := [0x93; 0x91] ++ e ++ [0x91; 0xa3; 79; 102; 102; 0xc3] in
  xwf near_ty /\ xadm no_floats near_ty (near_val UNone) input1 /\ xadm no_floats near_ty (near_val (USome (UVar 0 UUnit))) input2 /\
  match mp_from_slice x64 no_floats 99 (xdenote no_floats DeserializeError near_ty) (input1 ++ [1]) with Done _ r => Some r | _ => None end = Some (Ok (near_val UNone, zlen input1)) /\
  match mp_from_slice x64 no_floats 99 (xdenote no_floats DeserializeError near_ty) input2 with Done _ r => Some r | _ => None end = Some (Ok (near_val (USome (UVar 0 UUnit)), zlen input2)).
Proof.
  intros e input1 input2.
  assert (Q : forall c, str_enc [c] [0xa1; c]) by (intros c; exists [0xa1]; split; [apply (SH_fix 1); lia|reflexivity]).
  assert (Fs : forall c, 0 <= c < 128 -> mp_fmt (VStr [c]) [0xa1; c]).
  { intros c Hc. apply (MF_str [c] [0xa1]); [constructor; [unfold is_byte; lia|constructor]|apply (SH_fix 1); lia]. }
  assert (Fe : mp_fmt (VMap [(VStr [122], VInt 1); (VStr [97], VInt 7)]) e).
  { apply (MF_map [(VStr [122], VInt 1); (VStr [97], VInt 7)] [0x82] [0xa1; 122; 1; 0xa1; 97; 7]); [apply (MH_fix 2); lia|].
    apply (MP_cons (VStr [122]) (VInt 1) _ [0xa1; 122] [1] [0xa1; 97; 7]); [apply Fs; lia|apply MF_int, IF_pos; lia|].
    apply (MP_cons (VStr [97]) (VInt 7) _ [0xa1; 97] [7] []); [apply Fs; lia|apply MF_int, IF_pos; lia|constructor]. }
  assert (A : xadm no_floats (XSeq (XUntagged buf_vs)) (USeq [UVar 1 (USeq [UInt 7; UNone])]) (0x91 :: e)).
  { exists [0x91], e. split; [reflexivity|]. split; [apply (AH_fix 1); lia|]. exists e, []. split; [reflexivity|]. split; [|reflexivity].
    do 3 eexists. exists (UMap [(UStr [122], UInt 1); (UStr [97], UInt 7)]). split; [reflexivity|]. split; [exact Fe|]. split.
    { apply DN_map, DP_cons; [apply DN_str, ascii_ok; reflexivity|constructor|]. apply DP_cons; [apply DN_str, ascii_ok; reflexivity|constructor|constructor]. }
    split; [cbn; intuition discriminate|exact near_first]. }
  split; [exact near_wf|]. split; [|split; [|split; vm_compute; reflexivity]].
  - right. exists 3, [0x83]. eexists. exists [Some (USeq [UVar 1 (USeq [UInt 7; UNone])]); None; Some (UBool true)]. split; [reflexivity|].
    split; [apply (MH_fix 3); lia|]. split; [|cbn; repeat split; left; eexists; reflexivity].
    apply (EN_unknown _ _ _ 2 VNil [0xa1; 122] [0xc0]); [left; exists [122]; split; [apply ascii_ok; reflexivity|]; split; [cbn; intuition discriminate|apply Q]|constructor|].
    apply (EN_field _ _ _ 1 2%nat (xadm no_floats (XTy TBool)) (UBool true) [0xa1; 98] [0xc3]); [reflexivity|reflexivity|left; exists [98]; split; [reflexivity|apply Q]|reflexivity|].
    apply (EN_field _ _ _ 0 0%nat (xadm no_floats (XSeq (XUntagged buf_vs))) (USeq [UVar 1 (USeq [UInt 7; UNone])]) [0] (0x91 :: e) []); [reflexivity|reflexivity|right; split; [cbn; lia|apply II_pos; lia]|exact A|constructor].
  - left. exists [0x93]. eexists. split; [reflexivity|]. split; [apply (AH_fix 3); lia|]. split; [reflexivity|]. exists (0x91 :: e), [0x91; 0xa3; 79; 102; 102; 0xc3]. split; [reflexivity|]. split; [exact A|].
    exists [0x91; 0xa3; 79; 102; 102], [0xc3]. split; [reflexivity|]. split; [|exists [0xc3], []; split; [reflexivity|]; split; reflexivity].
    split; [|discriminate]. do 2 eexists. exists (VArr [VStr [79; 102; 102]]), (USeq [UStr [79; 102; 102]]). split; [reflexivity|]. split.
    { apply (MF_arr [VStr [79; 102; 102]] [0x91] [0xa3; 79; 102; 102]); [apply (AH_fix 1); lia|]. apply (ML_cons _ _ [0xa3; 79; 102; 102] []); [|constructor].
      apply (MF_str [79; 102; 102] [0xa3]); [repeat constructor; unfold is_byte; lia|apply (SH_fix 3); lia]. }
    split; [apply DN_arr, DL_cons; [apply DN_str, ascii_ok; reflexivity|constructor]|]. split; [exact (conj I I)|].
    exists [79; 102; 102], None, (UStr [79; 102; 102]). split; [reflexivity|]. split; [left; reflexivity|]. left. exists []. split; [reflexivity|]. split; [reflexivity|left; reflexivity].
Qed.

(** [{"z":[1],"b":true,"a":[{"z":1,"a":7}]}], and as an array. *)
Example C76_json_interoperability_case :
  let e := JObj [([122], JNum [49]); ([97], JNum [55])] in
  let d1 := JObj [([122], JArr [JNum [49]]); ([98], JBool true); ([97], JArr [e])] in
  let d2 := JArr [JArr [e]; JArr [JStr [79; 102; 102]]; JBool true] in
  let reads := xreads no_floats false (f32_from_str bits_fl) (f64_from_str bits_fl) no_ws bytes_as_string near_ty in
  xwf near_ty /\ reads (near_val UNone) d1 /\ reads (near_val (USome (UVar 0 UUnit))) d2 /\
  map (fun input => match js_from_mut_slice x64 bits_fl false NopeDecoder 99 (xdenote no_floats JDeserializeError near_ty) input with Done _ r => Some r | _ => None end)
    [[123; 34;122;34; 58; 91;49;93; 44; 34;98;34; 58; 116;114;117;101; 44; 34;97;34; 58; 91; 123; 34;122;34; 58; 49; 44; 34;97;34; 58; 55; 125; 93; 125; 10];
     [91; 91; 123; 34;122;34; 58; 49; 44; 34;97;34; 58; 55; 125; 93; 44; 32; 91; 34;79;102;102;34; 93; 44; 116;114;117;101; 93]]
  = [Some (Ok (near_val UNone)); Some (Ok (near_val (USome (UVar 0 UUnit))))].
Proof.
  intros e d1 d2 reads.
  assert (Lt : forall c, plain_byte c -> 0 <= c <= 127 -> literal [c] [c]).
  { intros c Hp Hc. split; [apply B_plain; [exact Hp|constructor]|]. apply ascii_ok. cbn. replace (0 <=? c) with true by lia. replace (c <=? 127) with true by lia. reflexivity. }
  assert (A : xreads no_floats false (f32_from_str bits_fl) (f64_from_str bits_fl) no_ws bytes_as_string (XSeq (XUntagged buf_vs)) (USeq [UVar 1 (USeq [UInt 7; UNone])]) (JArr [e])).
  { exists [e]. split; [reflexivity|]. constructor; [|constructor]. do 2 eexists. exists (UMap [(UStr [122], UInt 1); (UStr [97], UInt 7)]). split; [reflexivity|]. split; [|exact near_first].
    apply A_obj. constructor; [|constructor; [|constructor]]; cbn [fst snd].
    - split; [exists [122]; split; [reflexivity|apply Lt; unfold plain_byte; lia]|]. apply A_num. apply (N_pos _ _ [49]); [dgt|reflexivity].
    - split; [exists [97]; split; [reflexivity|apply Lt; unfold plain_byte; lia]|]. apply A_num. apply (N_pos _ _ [55]); [dgt|reflexivity]. }
  split; [exact near_wf|]. split; [|split; [|vm_compute; reflexivity]].
  - right. eexists. exists [Some (USeq [UVar 1 (USeq [UInt 7; UNone])]); None; Some (UBool true)]. split; [reflexivity|]. split; [|cbn; repeat split; left; eexists; reflexivity].
    apply OF_unknown with (s := [122]); [apply Lt; unfold plain_byte; lia|cbn; intuition discriminate|cbn; split; [exists 49, []; split; [auto|left; unfold is_digit; lia]|exact I]|].
    eapply OF_field with (i := 2%nat) (n := [98]) (v := UBool true); [reflexivity|reflexivity|reflexivity|apply Lt; unfold plain_byte; lia|reflexivity|].
    eapply OF_field with (i := 0%nat) (n := [97]); [reflexivity|reflexivity|reflexivity|apply Lt; unfold plain_byte; lia|exact A|constructor].
  - left. eexists. split; [reflexivity|]. split; [exact A|]. split; [|split; [reflexivity|exact I]].
    split; [|discriminate]. do 2 eexists. exists (USeq [UStr [79; 102; 102]]). split; [reflexivity|]. split.
    { apply A_arr. constructor; [|constructor]. apply A_str. split; [|apply ascii_ok; reflexivity]. repeat (apply B_plain; [unfold plain_byte; lia|]). constructor. }
    exists [79; 102; 102], None, (UStr [79; 102; 102]). split; [reflexivity|]. split; [left; reflexivity|]. left. exists []. split; [reflexivity|]. split; [reflexivity|left; reflexivity].
Qed.

(** C76: a success is right.  In MessagePack the bytes consumed are an encoding of what is
    returned: every part outside of the enums is exactly as C50 has it, and each enum is
    one whole message; an untagged enum is the first variant that its message fits. *)
Theorem C76_msgpack_sound : forall ar fo fuel x input s v n,
  arch64 ar -> xwf x -> slice64 input ->
  mp_from_slice ar fo fuel (xdenote fo DeserializeError x) input = Done s (Ok (v, n)) ->
  exists bs tail, input = bs ++ tail /\ zlen bs = n /\ xgot fo x v bs.
Proof. exact (fun ar fo fuel x input s v n A => mp_nested_sound ar fo (arch64_wide ar A) A fuel x input s v n). Qed.
Print Assumptions C76_msgpack_sound.

(** A value, and what is refused: no variant fits the bool in a; b is left out; the map
    has one entry less than it says. *)
Example C76_msgpack_sound_case :
  let read input := match mp_from_slice x64 no_floats 99 (xdenote no_floats DeserializeError near_ty) input with Done _ r => Some r | _ => None end in
  arch64 x64 /\ xwf near_ty /\
  map read [[0x82; 0xa1; 98; 0xc3; 0xa1; 97; 0x91; 0x82; 0xa1; 122; 1; 0xa1; 97; 7; 5]; [0x82; 0xa1; 98; 0xc3; 0xa1; 97; 0x91; 0xc3];
    [0x81; 0xa1; 97; 0x90]; [0x83; 0xa1; 98; 0xc3; 0xa1; 97; 0x90]] =
  [Some (Ok (near_val UNone, 14)); Some (Err DeserializeError); Some (Err DeserializeError); Some (Err UnexpectedEof)].
Proof. split; [repeat split; vm_compute; discriminate|]. split; [exact near_wf|]. vm_compute. reflexivity. Qed.

(** C76: in JSON too; without internally tagged enums inside, decoding succeeds with [v]
    exactly if the input is a text of a document that represents [v].  Assumed of
    [str::parse], as in C51: the empty string is not a float. *)
Theorem C76_json_sound : forall ar fl fo any_f32 dec fuel x input s v,
  f32_from_str fl [] = None -> f64_from_str fl [] = None ->
  xwf x -> all_bytes input -> (dec = Base64Decoder -> 3 * zlen input <= usize_max ar) ->
  js_from_mut_slice ar fl any_f32 dec fuel (xdenote fo JDeserializeError x) input = Done s (Ok v) ->
  exists d w1 text w2, input = w1 ++ text ++ w2 /\ any_ws w1 /\ any_ws w2 /\ loose_text d text /\
    xcame fo any_f32 (f32_from_str fl) (f64_from_str fl) any_ws
      (match dec with NopeDecoder => bytes_as_string | HexDecoder => hex_bytes | Base64Decoder => bytes_as_base64 end) x v d.
Proof. exact js_nested_sound. Qed.
Print Assumptions C76_json_sound.
Theorem C76_json_exact : forall ar fl fo any_f32 dec x input v,
  f32_from_str fl [] = None -> f64_from_str fl [] = None ->
  no_tags x -> xwf x -> all_bytes input -> (dec = Base64Decoder -> 3 * zlen input <= usize_max ar) ->
  ((exists fuel s, js_from_mut_slice ar fl any_f32 dec fuel (xdenote fo JDeserializeError x) input = Done s (Ok v)) <->
   (exists d w1 text w2, input = w1 ++ text ++ w2 /\ any_ws w1 /\ any_ws w2 /\ loose_text d text /\
      xreads fo any_f32 (f32_from_str fl) (f64_from_str fl) any_ws
        (match dec with NopeDecoder => bytes_as_string | HexDecoder => hex_bytes | Base64Decoder => bytes_as_base64 end) x v d)).
Proof. exact js_nested_exact. Qed.
Print Assumptions C76_json_exact.

(** [{"b":true,"a":[{"a":7}]}]; refused: [true] for a, no b, a comma too much. *)
Example C76_json_sound_case :
  let read := fun x input => match js_from_mut_slice x64 bits_fl false NopeDecoder 99 (xdenote no_floats JDeserializeError x) input with Done _ (Ok v) => Some v | _ => None end in
  let flat := XStruct [([97], XSeq (XUntagged buf_vs)); ([98], XTy TBool)] in
  let a := [34;97;34; 58; 91; 123; 34;97;34; 58; 55; 125; 93] in
  let b := [34;98;34; 58; 116;114;117;101] in
  let texts := [[123] ++ b ++ [44] ++ a ++ [125]; [123; 34;97;34; 58; 91; 116;114;117;101; 93; 44] ++ b ++ [125]; [123] ++ a ++ [125]; [123] ++ b ++ [44] ++ a ++ [44; 125]] in
  f32_from_str bits_fl [] = None /\ f64_from_str bits_fl [] = None /\ xwf near_ty /\ no_tags flat /\ xwf flat /\
  map (read near_ty) texts = [Some (near_val UNone); None; None; None] /\
  map (read flat) texts = [Some (USeq [USeq [UVar 1 (USeq [UInt 7; UNone])]; UBool true]); None; None; None].
Proof.
  intros read flat a b texts. split; [reflexivity|]. split; [reflexivity|]. split; [exact near_wf|]. split; [exact (conj I (conj I I))|].
  split; [split; [shown|]; split; [exact (proj1 (proj2 near_wf))|split; exact I]|]. split; vm_compute; reflexivity.
Qed.

(** C76: decoding into such types ends, with a step budget as in C53, on any input; and it
    decides: a value that the input gives, or an error and the input is no encoding. *)
Theorem C76_msgpack_decides : forall ar fo x input fuel,
  arch64 ar -> xwf x -> slice64 input -> (10 * xsize x + 3 * length input <= fuel)%nat ->
  (exists s v bs tail, mp_from_slice ar fo fuel (xdenote fo DeserializeError x) input = Done s (Ok (v, zlen bs)) /\ input = bs ++ tail /\ xgot fo x v bs) \/
  (exists s e, mp_from_slice ar fo fuel (xdenote fo DeserializeError x) input = Done s (Err e) /\ forall v bs tail, input = bs ++ tail -> ~ xadm fo x v bs).
Proof. exact (fun ar fo x input fuel A => mp_nested_decides ar fo A x input fuel). Qed.
Print Assumptions C76_msgpack_decides.
Theorem C76_json_terminates : forall ar fl fo any_f32 dec x input fuel,
  (dec = Base64Decoder -> 3 * zlen input <= usize_max ar) -> (10 * xsize x + 3 * length input <= fuel)%nat ->
  exists s r, js_from_mut_slice ar fl any_f32 dec fuel (xdenote fo JDeserializeError x) input = Done s r.
Proof. exact js_nested_ends. Qed.
Print Assumptions C76_json_terminates.
Theorem C76_json_decides : forall ar fl fo any_f32 dec x input fuel,
  f32_from_str fl [] = None -> f64_from_str fl [] = None ->
  xwf x -> all_bytes input -> (dec = Base64Decoder -> 3 * zlen input <= usize_max ar) -> (10 * xsize x + 3 * length input <= fuel)%nat ->
  (exists s v d w1 text w2, js_from_mut_slice ar fl any_f32 dec fuel (xdenote fo JDeserializeError x) input = Done s (Ok v) /\
     input = w1 ++ text ++ w2 /\ any_ws w1 /\ any_ws w2 /\ loose_text d text /\
     xcame fo any_f32 (f32_from_str fl) (f64_from_str fl) any_ws
       (match dec with NopeDecoder => bytes_as_string | HexDecoder => hex_bytes | Base64Decoder => bytes_as_base64 end) x v d) \/
  (exists s e, js_from_mut_slice ar fl any_f32 dec fuel (xdenote fo JDeserializeError x) input = Done s (Err e) /\
     forall v d w1 text w2, input = w1 ++ text ++ w2 -> any_ws w1 -> any_ws w2 -> loose_text d text ->
       ~ xreads fo any_f32 (f32_from_str fl) (f64_from_str fl) any_ws
           (match dec with NopeDecoder => bytes_as_string | HexDecoder => hex_bytes | Base64Decoder => bytes_as_base64 end) x v d).
Proof. exact js_nested_decides. Qed.
Print Assumptions C76_json_decides.

(** A header of 2^32-1 enums with one of them, an array of 2^32-1 inside; and [[[[[] for a
    list of enums. *)
Example C76_decides_case :
  let x := XSeq (XUntagged buf_vs) in
  let input := [0xdd; 255;255;255;255; 0xdd; 255;255;255;255; 0xc3] in
  xwf x /\ slice64 input /\ (10 * xsize x + 3 * length input = 53)%nat /\
  match mp_from_slice x64 no_floats 53 (xdenote no_floats DeserializeError x) input with Done _ r => Some r | _ => None end = Some (Err UnexpectedEof) /\
  match js_from_mut_slice x64 bits_fl false NopeDecoder 35 (xdenote no_floats JDeserializeError x) [91; 91; 91; 91; 91] with Done _ (Err _) => true | _ => false end = true.
Proof.
  intros x input. split; [exact (proj1 (proj2 near_wf))|]. split; [split; [repeat constructor; unfold is_byte; lia|vm_compute; reflexivity]|].
  split; [reflexivity|]. split; vm_compute; reflexivity.
Qed.

(** C76: cut anywhere, an encoding is reported as incomplete in MessagePack and refused in
    JSON, unless it is a lone number (C56); and no input is an encoding of two values. *)
Theorem C76_msgpack_truncated : forall ar fo x v bs c q,
  arch32up ar -> xwf x -> xadm fo x v (bs ++ c :: q) -> slice_of ar (bs ++ c :: q) ->
  exists N, forall fuel, (N <= fuel)%nat ->
    exists s, mp_from_slice ar fo fuel (xdenote fo DeserializeError x) bs = Done s (Err UnexpectedEof).
Proof. exact mp_nested_truncated. Qed.
Print Assumptions C76_msgpack_truncated.
Theorem C76_msgpack_unambiguous : forall fo x v v' bs tail, xwf x -> slice64 (bs ++ tail) ->
  xadm fo x v bs -> xadm fo x v' (bs ++ tail) -> v = v' /\ tail = [].
Proof. exact mp_nested_unambiguous. Qed.
Print Assumptions C76_msgpack_unambiguous.
Theorem C76_json_cut_refused : forall ar fl fo any_f32 dec x fuel s v d w1 text p q,
  f32_from_str fl [] = None -> f64_from_str fl [] = None -> xwf x ->
  (dec = Base64Decoder -> 3 * zlen (w1 ++ text) <= usize_max ar) ->
  loose_text d text -> any_ws w1 -> (forall tok, d <> JNum tok) -> w1 ++ text = p ++ q -> q <> [] ->
  js_from_mut_slice ar fl any_f32 dec fuel (xdenote fo JDeserializeError x) p <> Done s (Ok v).
Proof. exact js_nested_cut. Qed.
Print Assumptions C76_json_cut_refused.
Theorem C76_json_unambiguous : forall fo any_f32 f32_of f64_of dec x v v' d text,
  let reads := xreads fo any_f32 f32_of f64_of any_ws
    (match dec with NopeDecoder => bytes_as_string | HexDecoder => hex_bytes | Base64Decoder => bytes_as_base64 end) in
  xwf x -> loose_text d text -> reads x v d -> reads x v' d -> v = v'.
Proof. exact js_nested_one_value. Qed.
Print Assumptions C76_json_unambiguous.

(** The message of [C76_msgpack_interoperability_case] and its text in JSON, cut at every
    place. *)
Example C76_cut_case :
  let input := [0x93; 0x91; 0x82; 0xa1; 122; 1; 0xa1; 97; 7; 0x91; 0xa3; 79; 102; 102; 0xc3] in
  let text := [91; 91; 123; 34;122;34; 58; 49; 44; 34;97;34; 58; 55; 125; 93; 44; 32; 91; 34;79;102;102;34; 93; 44; 116;114;117;101; 93] in
  map (fun n => match mp_from_slice x64 no_floats 99 (xdenote no_floats DeserializeError near_ty) (firstn n input) with Done _ r => Some r | _ => None end) (seq 0 15)
    = repeat (Some (Err UnexpectedEof)) 15 /\
  map (fun n => match js_from_mut_slice x64 bits_fl false NopeDecoder 99 (xdenote no_floats JDeserializeError near_ty) (firstn n text) with Done _ (Err _) => true | _ => false end) (seq 0 31)
    = repeat true 31.
Proof. split; vm_compute; reflexivity. Qed.

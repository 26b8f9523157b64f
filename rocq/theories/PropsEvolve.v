(** Properties of data read by a program with other types than those it was written with.
    [EvolveSpec] says what written data means to a type. *)
From Verif Require Import Prelude Utf8Spec SerdeSer SerdeDe MpSpec MpSer MpErrMap MpDe MpDeTop FloatOps Types MpTypeSpec
  EvolveSpec EvolveSelf EvolveTop PropsMpSer PropsMpDe PropsMpTyped.
From Verif Require Import JsonSpec JsonTypeSpec JsonSer JsonErrMap JsonDe JsonCases PropsJsonDe PropsJsonSer.
From Verif Require MpEvolve JsonEvolve.

Local Notation mprog t := (denote DeserializeError t).
Local Notation jprog t := (denote JDeserializeError t).
Local Notation no_floats := PropsMpDe.no_floats.
Local Notation x64 := PropsMpDe.x64.
Local Notation jx64 := PropsJsonDe.x64.

(** C68, MessagePack: whatever a [Serialize] implementation wrote is read as [v] by every
    type [t] that it fits with the value [v]. *)
Theorem C68_msgpack_evolution : forall ar fo cfg fl t v x out tail,
  arch32up ar -> wf t -> sval_ok x -> 2 ^ 32 - 1 <= cfg_usize_max cfg ->
  mp_to_vec cfg fl x = Ok out -> mp_fits fo (style_of fl) t v x -> slice_of ar (out ++ tail) ->
  exists N, forall fuel, (N <= fuel)%nat ->
    exists s, mp_from_slice ar fo fuel (mprog t) (out ++ tail) = Done s (Ok (v, zlen out)).
Proof. exact MpEvolve.evolves. Qed.
Print Assumptions C68_msgpack_evolution.

(** Written: struct { id: 7u8, kind: Kind::A, p: (1i8, 2i8), name: Some("hi"), gone: true }.
    Read: struct { kind: String, name: Name(String), id: Option<i64>, p: Vec<u16>,
    more: u16 with the default 5 }. *)
Definition old_ty : ty := TStruct [([105; 100], FPlain, TInt U8); ([107], FPlain, kind_ty); ([112], FPlain, TTuple [TInt I8; TInt I8]);
  ([110], FPlain, TOption TStr); ([103], FPlain, TBool)].
Definition old_val : val := USeq [UInt 7; UVar 0 UUnit; USeq [UInt 1; UInt 2]; USome (UStr [104; 105]); UBool true].
Definition new_ty : ty := TStruct [([107], FPlain, TStr); ([110], FPlain, TNewtype TStr); ([105; 100], FPlain, TOption (TInt I64));
  ([112], FPlain, TSeq (TInt U16)); ([109], FDefault (UInt 5), TInt U16)].
Definition new_val : val := USeq [UStr [65]; UStr [104; 105]; USome (UInt 7); USeq [UInt 1; UInt 2]; UInt 5].
Ltac fitting := cbn; repeat (match goal with
  | |- context [utf8_char ?c] => let y := eval vm_compute in (utf8_char c) in change (utf8_char c) with y
  | |- _ /\ _ => split
  | |- NoDup _ => constructor
  | |- Forall2 _ _ _ => constructor
  | |- in_ikind _ _ => unfold in_ikind; cbn; lia
  | |- exists _, bare _ = SInt _ _ => eexists; reflexivity
  | |- exists _, SInt _ _ = _ => eexists; reflexivity
  | |- exists _, Some _ = Some _ /\ _ => eexists; split; [reflexivity|]
  | |- exists _, _ => eexists
  | |- True => exact I
  | |- ~ _ => intro; cbn in *; intuition discriminate
  | |- _ => first [reflexivity|lia]
  end; cbn).
Example C68_case : wf old_ty /\ hastype old_ty old_val /\ wf new_ty /\ mp_fits no_floats SNameMap new_ty new_val (trace old_ty old_val) /\
  exists out s, mp_to_vec cfg64 StructMapStr (trace old_ty old_val) = Ok out /\
  out = [0x85; 0xa2; 105; 100; 7; 0xa1; 107; 0xa1; 65; 0xa1; 112; 0x92; 1; 2; 0xa1; 110; 0xa2; 104; 105; 0xa1; 103; 0xc3] /\
  mp_from_slice x64 no_floats 40 (mprog new_ty) (out ++ [9]) = Done s (Ok (new_val, 22)).
Proof.
  split; [shown|]. split; [shown|]. split; [shown|]. split; [fitting|].
  eexists. eexists. split; [vm_compute; reflexivity|]. split; [reflexivity|vm_compute; reflexivity].
Qed.
(** A map and a sequence read as structs. *)
Example C68_shapes_case :
  let t := TStruct [([97], FPlain, TInt U8); ([98], FDefault (UInt 3), TInt U8)] in
  mp_fits no_floats SArray t (USeq [UInt 1; UInt 2]) (SMap (Some 2) [(true, SStr [98]); (false, SInt I64 2); (true, SChar 97); (false, SSome (SInt U16 1))]) /\
  mp_fits no_floats SArray t (USeq [UInt 1; UInt 3]) (SSeq None [SInt I64 1]) /\
  (exists s, mp_from_slice x64 no_floats 40 (mprog t) [0x82; 0xa1; 98; 2; 0xa1; 97; 1] = Done s (Ok (USeq [UInt 1; UInt 2], 7))) /\
  exists s, mp_from_slice x64 no_floats 40 (mprog t) [0x91; 1] = Done s (Ok (USeq [UInt 1; UInt 3], 2)).
Proof. cbv zeta. split; [fitting|]. split; [fitting|]. split.
  - eexists. vm_compute. reflexivity.
  - eexists. vm_compute. reflexivity.
Qed.

(** C68: a value fits its own type as what a round trip leaves of it (C49). *)
Theorem C68_msgpack_same_type : forall fo st t v, wf t -> hastype t v -> mp_fits fo st t (collapse nullish t v) (trace t v).
Proof. exact (fun fo st t v W H => mp_self st fo t W v H). Qed.
Print Assumptions C68_msgpack_same_type.

(** C68: what is written fits a type with one value at most. *)
Theorem C68_msgpack_one_meaning : forall ar fo cfg fl t v v' x out,
  arch32up ar -> 2 ^ 32 - 1 <= cfg_usize_max cfg -> wf t -> sval_ok x -> mp_to_vec cfg fl x = Ok out -> slice_of ar out ->
  mp_fits fo (style_of fl) t v x -> mp_fits fo (style_of fl) t v' x -> v = v'.
Proof. exact (fun ar fo cfg fl t v v' x out A Hc => fits_once ar fo cfg A Hc fl t v v' x out). Qed.
Print Assumptions C68_msgpack_one_meaning.

Example C68_same_case : mp_fits no_floats SIndexMap rec_ty rec_val (trace rec_ty rec_val).
Proof. exact (mp_self SIndexMap no_floats rec_ty (proj1 rec_wf) rec_val (proj2 (proj2 rec_wf))). Qed.

(** C68: a struct written with field names as keys is read by a struct whose fields are in
    another order, some dropped, some added ([None] or the default), each field kept
    being of the type it had. *)
Theorem C68_msgpack_fields_by_name : forall ar fo cfg fs l fs' l' out tail,
  arch32up ar -> 2 ^ 32 - 1 <= cfg_usize_max cfg ->
  wf (TStruct fs) -> wf (TStruct fs') -> hastype (TStruct fs) (USeq l) -> fields_by_name (collapse nullish) fs l fs' l' ->
  mp_to_vec cfg StructMapStr (trace (TStruct fs) (USeq l)) = Ok out -> slice_of ar (out ++ tail) ->
  exists N, forall fuel, (N <= fuel)%nat ->
    exists s, mp_from_slice ar fo fuel (mprog (TStruct fs')) (out ++ tail) = Done s (Ok (USeq l', zlen out)).
Proof. exact (fun ar fo cfg fs l fs' l' out tail A Hc => fields_name ar fo cfg A Hc fs l fs' l' out tail). Qed.
Print Assumptions C68_msgpack_fields_by_name.

(** C68: with indices as keys and as arrays, fields go by their position: they may be
    renamed and added at the end, and with indices also dropped from the end. *)
Theorem C68_msgpack_fields_by_index : forall ar fo cfg fs l fs' l' out tail,
  arch32up ar -> 2 ^ 32 - 1 <= cfg_usize_max cfg ->
  wf (TStruct fs) -> wf (TStruct fs') -> hastype (TStruct fs) (USeq l) -> fields_by_position (collapse nullish) absent_ok fs l fs' l' ->
  mp_to_vec cfg StructMapIdx (trace (TStruct fs) (USeq l)) = Ok out -> slice_of ar (out ++ tail) ->
  exists N, forall fuel, (N <= fuel)%nat ->
    exists s, mp_from_slice ar fo fuel (mprog (TStruct fs')) (out ++ tail) = Done s (Ok (USeq l', zlen out)).
Proof. exact (fun ar fo cfg fs l fs' l' out tail A Hc => fields_index ar fo cfg A Hc fs l fs' l' out tail). Qed.
Print Assumptions C68_msgpack_fields_by_index.
Theorem C68_msgpack_fields_compact : forall ar fo cfg fs l fs' l' out tail,
  arch32up ar -> 2 ^ 32 - 1 <= cfg_usize_max cfg ->
  wf (TStruct fs) -> wf (TStruct fs') -> hastype (TStruct fs) (USeq l) -> (length fs <= length fs')%nat ->
  fields_by_position (collapse nullish) has_default fs l fs' l' ->
  mp_to_vec cfg Compact (trace (TStruct fs) (USeq l)) = Ok out -> slice_of ar (out ++ tail) ->
  exists N, forall fuel, (N <= fuel)%nat ->
    exists s, mp_from_slice ar fo fuel (mprog (TStruct fs')) (out ++ tail) = Done s (Ok (USeq l', zlen out)).
Proof. exact (fun ar fo cfg fs l fs' l' out tail A Hc => fields_compact ar fo cfg A Hc fs l fs' l' out tail). Qed.
Print Assumptions C68_msgpack_fields_compact.

(** C68: fields cannot be dropped from the end of a struct written as an array, unlike in
    all other forms. *)
Theorem C68_msgpack_compact_drop_refuted : forall ar fo cfg fs1 fs2 l out tail,
  arch32up ar -> 2 ^ 32 - 1 <= cfg_usize_max cfg ->
  wf (TStruct (fs1 ++ fs2)) -> hastype (TStruct (fs1 ++ fs2)) (USeq l) -> fs2 <> [] ->
  Forall (fun f => attr_of f = FPlain) (fs1 ++ fs2) ->
  mp_to_vec cfg Compact (trace (TStruct (fs1 ++ fs2)) (USeq l)) = Ok out -> slice_of ar (out ++ tail) ->
  exists N, forall fuel, (N <= fuel)%nat ->
    exists s, mp_from_slice ar fo fuel (mprog (TStruct fs1)) (out ++ tail) = Done s (Err TrailingElements).
Proof. exact (fun ar fo cfg fs1 fs2 l out tail A Hc => compact_drop ar fo cfg A Hc fs1 fs2 l out tail). Qed.
Print Assumptions C68_msgpack_compact_drop_refuted.

(** struct { a: u8, b: String, c: bool } becomes struct { b: String, n: Option<bool>,
    a: u8, d: u16 with the default 5 }. *)
Definition abc : list (bytes * fattr * ty) := [([97], FPlain, TInt U8); ([98], FPlain, TStr); ([99], FPlain, TBool)].
Definition bnad : list (bytes * fattr * ty) := [([98], FPlain, TStr); ([110], FPlain, TOption TBool); ([97], FPlain, TInt U8); ([100], FDefault (UInt 5), TInt U16)].
Definition abc_vals : list val := [UInt 7; UStr [104; 105]; UBool true].
Definition bnad_vals : list val := [UStr [104; 105]; UNone; UInt 7; UInt 5].
Ltac by_name := split; [reflexivity|]; intros [|[|[|[|i]]]] f v F V; try (destruct i; discriminate); injection F as <-; injection V as <-.
Example C68_by_name_case : wf (TStruct abc) /\ wf (TStruct bnad) /\ hastype (TStruct abc) (USeq abc_vals) /\
  fields_by_name (collapse nullish) abc abc_vals bnad bnad_vals /\
  exists out s, mp_to_vec cfg64 StructMapStr (trace (TStruct abc) (USeq abc_vals)) = Ok out /\
  mp_from_slice x64 no_floats 40 (mprog (TStruct bnad)) out = Done s (Ok (USeq bnad_vals, zlen out)).
Proof.
  split; [shown|]. split; [shown|]. split; [shown|]. split.
  - by_name.
    + left. exists 1%nat. eexists. eexists. repeat split; reflexivity.
    + right. split; [cbn; intuition discriminate|]. split; [reflexivity|eexists; reflexivity].
    + left. exists 0%nat. eexists. eexists. repeat split; reflexivity.
    + right. split; [cbn; intuition discriminate|reflexivity].
  - eexists. eexists. split; [vm_compute; reflexivity|vm_compute; reflexivity].
Qed.
(** struct { a: u8, b: String, c: bool } becomes struct { x: u8 }, or struct { a: u8,
    s: String, c: bool, d: u16 with the default 5 }. *)
Example C68_by_position_case :
  let x := [([120], FPlain, TInt U8)] in
  let ascd := [([97], FPlain, TInt U8); ([115], FPlain, TStr); ([99], FPlain, TBool); ([100], FDefault (UInt 5), TInt U16)] in
  fields_by_position (collapse nullish) absent_ok abc abc_vals x [UInt 7] /\
  fields_by_position (collapse nullish) has_default abc abc_vals ascd (abc_vals ++ [UInt 5]) /\
  (exists out s, mp_to_vec cfg64 StructMapIdx (trace (TStruct abc) (USeq abc_vals)) = Ok out /\
    mp_from_slice x64 no_floats 40 (mprog (TStruct x)) out = Done s (Ok (USeq [UInt 7], zlen out))) /\
  (exists out s, mp_to_vec cfg64 Compact (trace (TStruct abc) (USeq abc_vals)) = Ok out /\
    mp_from_slice x64 no_floats 40 (mprog (TStruct ascd)) out = Done s (Ok (USeq (abc_vals ++ [UInt 5]), zlen out))) /\
  exists out s, mp_to_vec cfg64 Compact (trace (TStruct abc) (USeq abc_vals)) = Ok out /\
    mp_from_slice x64 no_floats 40 (mprog (TStruct (firstn 1 abc))) out = Done s (Err TrailingElements).
Proof.
  cbv zeta. split.
  { split; [reflexivity|]. intros [|i] f v F V; [|destruct i; discriminate]. injection F as <-. injection V as <-. split; reflexivity. }
  split; [by_name; try (split; reflexivity); reflexivity|].
  split; [|split]; eexists; eexists; (split; [vm_compute; reflexivity|vm_compute; reflexivity]).
Qed.

(** C68, JSON: the same, each byte string flavour read with its decoder, with any
    whitespace around.  Floats are read from the text that ryu-js printed. *)
Theorem C68_json_evolution : forall ar fl fp any_f32 enc dec t v x out w1 w2,
  printer_ok fp ->
  In (enc, dec) [(ArrayByteEncoder, NopeDecoder); (ArrayByteEncoder, HexDecoder); (ArrayByteEncoder, Base64Decoder);
                 (HexStrByteEncoder, HexDecoder); (Base64ByteEncoder, Base64Decoder)] ->
  wf t -> strings_ok x -> maps_ok x -> js_to_string fp enc x = Ok out ->
  js_fits (format_f32 fp) (format_f64 fp) (f32_from_str fl) (f64_from_str fl) t v x -> any_ws w1 -> any_ws w2 ->
  (dec = Base64Decoder -> 3 * zlen (w1 ++ out ++ w2) <= usize_max ar) ->
  exists N, forall fuel, (N <= fuel)%nat ->
    exists s, js_from_mut_slice ar fl any_f32 dec fuel (jprog t) (w1 ++ out ++ w2) = Done s (Ok v).
Proof. exact json_evolves. Qed.
Print Assumptions C68_json_evolution.

Theorem C68_json_same_type : forall fl fp t v,
  (forall b, 0 <= b < 2 ^ 32 -> finite32 b -> f32_from_str fl (format_f32 fp b) = Some (if b =? 0x80000000 then 0 else b)) ->
  (forall b, 0 <= b < 2 ^ 64 -> finite64 b -> f64_from_str fl (format_f64 fp b) = Some (if b =? 0x8000000000000000 then 0 else b)) ->
  wf t -> good_keys t -> hastype t v ->
  js_fits (format_f32 fp) (format_f64 fp) (f32_from_str fl) (f64_from_str fl) t (json_image t v) (trace t v).
Proof. exact json_self. Qed.
Print Assumptions C68_json_same_type.

Theorem C68_json_one_meaning : forall ar fl fp enc dec t v v' x out, printer_ok fp ->
  In (enc, dec) [(ArrayByteEncoder, NopeDecoder); (ArrayByteEncoder, HexDecoder); (ArrayByteEncoder, Base64Decoder);
                 (HexStrByteEncoder, HexDecoder); (Base64ByteEncoder, Base64Decoder)] ->
  wf t -> strings_ok x -> maps_ok x -> js_to_string fp enc x = Ok out -> (dec = Base64Decoder -> 3 * zlen out <= usize_max ar) ->
  js_fits (format_f32 fp) (format_f64 fp) (f32_from_str fl) (f64_from_str fl) t v x ->
  js_fits (format_f32 fp) (format_f64 fp) (f32_from_str fl) (f64_from_str fl) t v' x -> v = v'.
Proof. exact (fun ar fl fp enc dec => json_fits_once ar fl fp false enc dec). Qed.
Print Assumptions C68_json_one_meaning.

(** C68: a struct is read by a struct whose fields are in another order, some dropped,
    some added. *)
Theorem C68_json_fields_by_name : forall ar fl fp any_f32 enc dec fs l fs' l' out w1 w2,
  (forall b, 0 <= b < 2 ^ 32 -> finite32 b -> f32_from_str fl (format_f32 fp b) = Some (if b =? 0x80000000 then 0 else b)) ->
  (forall b, 0 <= b < 2 ^ 64 -> finite64 b -> f64_from_str fl (format_f64 fp b) = Some (if b =? 0x8000000000000000 then 0 else b)) ->
  printer_ok fp ->
  In (enc, dec) [(ArrayByteEncoder, NopeDecoder); (ArrayByteEncoder, HexDecoder); (ArrayByteEncoder, Base64Decoder);
                 (HexStrByteEncoder, HexDecoder); (Base64ByteEncoder, Base64Decoder)] ->
  wf (TStruct fs) -> good_keys (TStruct fs) -> wf (TStruct fs') -> hastype (TStruct fs) (USeq l) -> fields_by_name json_image fs l fs' l' ->
  js_to_string fp enc (trace (TStruct fs) (USeq l)) = Ok out -> any_ws w1 -> any_ws w2 ->
  (dec = Base64Decoder -> 3 * zlen (w1 ++ out ++ w2) <= usize_max ar) ->
  exists N, forall fuel, (N <= fuel)%nat ->
    exists s, js_from_mut_slice ar fl any_f32 dec fuel (jprog (TStruct fs')) (w1 ++ out ++ w2) = Done s (Ok (USeq l')).
Proof. exact json_fields. Qed.
Print Assumptions C68_json_fields_by_name.

(** [{"id":7,"k":"A","p":[1,2],"n":"hi","g":true}] *)
Definition old_text : bytes := [123; 34;105;100;34; 58; 55; 44; 34;107;34; 58; 34;65;34; 44; 34;112;34; 58; 91; 49; 44; 50; 93; 44;
  34;110;34; 58; 34;104;105;34; 44; 34;103;34; 58; 116;114;117;101; 125].
Example C68_json_case :
  js_fits (format_f32 bits_fp) (format_f64 bits_fp) (f32_from_str bits_fl) (f64_from_str bits_fl) new_ty new_val (trace old_ty old_val) /\
  js_to_string bits_fp HexStrByteEncoder (trace old_ty old_val) = Ok old_text /\
  match js_from_mut_slice jx64 bits_fl false HexDecoder 60 (jprog new_ty) ([32] ++ old_text ++ [10]) with
  | Done _ r => r = Ok new_val
  | _ => False
  end.
Proof. split; [fitting|]. split; vm_compute; reflexivity. Qed.
(** The keys of a map of integers read as strings, an infinite float as an absent Option. *)
Example C68_json_keys_case :
  let x := SMap None [(true, SInt I8 (-4)); (false, SF64 0x7ff0000000000000)] in
  js_fits (format_f32 bits_fp) (format_f64 bits_fp) (f32_from_str bits_fl) (f64_from_str bits_fl)
    (TMap TStr (TOption TBool)) (UMap [(UStr [45; 52], UNone)]) x /\
  js_to_string bits_fp ArrayByteEncoder x = Ok [123; 34; 45; 52; 34; 58; 110; 117; 108; 108; 125] /\
  match js_from_mut_slice jx64 bits_fl false NopeDecoder 60 (jprog (TMap TStr (TOption TBool))) [123; 34; 45; 52; 34; 58; 110; 117; 108; 108; 125] with
  | Done _ r => r = Ok (UMap [(UStr [45; 52], UNone)])
  | _ => False
  end.
Proof. split; [fitting|]. split; vm_compute; reflexivity. Qed.
Example C68_json_by_name_case : fields_by_name json_image abc abc_vals bnad bnad_vals /\ good_keys (TStruct abc) /\
  exists out, js_to_string bits_fp ArrayByteEncoder (trace (TStruct abc) (USeq abc_vals)) = Ok out /\
  match js_from_mut_slice jx64 bits_fl false NopeDecoder 60 (jprog (TStruct bnad)) out with
  | Done _ r => r = Ok (USeq bnad_vals)
  | _ => False
  end.
Proof.
  split; [|split; [cbn; intuition auto|]].
  - by_name.
    + left. exists 1%nat. eexists. eexists. repeat split; reflexivity.
    + right. split; [cbn; intuition discriminate|]. split; [reflexivity|eexists; reflexivity].
    + left. exists 0%nat. eexists. eexists. repeat split; reflexivity.
    + right. split; [cbn; intuition discriminate|reflexivity].
  - eexists. split; [vm_compute; reflexivity|vm_compute; reflexivity].
Qed.

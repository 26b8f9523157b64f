(** Properties of JSON for typed values: every text of a value is read as that value,
    values are skipped exactly, round trips.  [Types] has the universe of types,
    [JsonTypeSpec] which documents represent a value and what a round trip leaves. *)
From Verif Require Import Prelude Utf8Spec SerdeSer SerdeDe MpSpec Base64Spec JsonSpec JsonTypeSpec JsonSer JsonErrMap JsonDe JsonDeSafe
  Types MpTypeSpec JsonTypedTop JsonTypedSer JsonCases PropsMpTyped PropsJsonDe PropsJsonSer.

Local Notation prog t := (denote JDeserializeError t).
Local Notation x64 := PropsJsonDe.x64.

(** C40: [from_mut_slice] and its variants return [v] for every JSON text of a
    document that represents [v], with any whitespace before, inside and behind. *)
Theorem C40_json_interoperability : forall ar fl any_f32 dec t v d text w1 w2,
  wf t ->
  reads_as no_ws (f32_from_str fl) (f64_from_str fl)
    (match dec with NopeDecoder => bytes_as_string | HexDecoder => hex_bytes | Base64Decoder => bytes_as_base64 end) t v d ->
  raw_text d text -> any_ws w1 -> any_ws w2 ->
  (dec = Base64Decoder -> 3 * zlen (w1 ++ text ++ w2) <= usize_max ar) ->
  exists N, forall fuel, (N <= fuel)%nat ->
    exists s, js_from_mut_slice ar fl any_f32 dec fuel (prog t) (w1 ++ text ++ w2) = Done s (Ok v).
Proof. exact interoperability. Qed.
Print Assumptions C40_json_interoperability.

(** struct { x: u8, y: Option<bool>, s: String }: fields out of order, whitespace,
    a key with an escape, an unknown field with an array in it, an absent Option. *)
Definition pts_ty : ty := TStruct [([120], FPlain, TInt U8); ([121], FPlain, TOption TBool); ([115], FPlain, TStr)].
(** [ {"s" : "a\n", "z":[1e5,{}], "x":7} ] *)
Definition pts_doc : jv := JObj [([115], JStr [97; 92; 110]); ([122], JArr [JNum [49; 101; 53]; JObj []]);
  ([92; 117; 48; 48; 55; 56], JNum [55])].
Definition pts_text : bytes := [123; 34;115;34; 32; 58; 32; 34;97;92;110;34; 44; 32; 34;122;34; 58; 91; 49;101;53; 44; 123; 125; 93; 44;
  34;92;117;48;48;55;56;34; 58; 55; 125].
Ltac ws := first [apply Forall_nil | repeat constructor; unfold is_ws; lia].
Ltac span := repeat first [apply Q_nil | apply Q_esc; [lia|] | apply Q_plain; [unfold plain_byte; lia|]].
Ltac qtd := split; [reflexivity|span].
Ltac dgt := split; [discriminate|repeat constructor; unfold is_digit; lia].
Example C40_text : raw_text pts_doc pts_text.
Proof.
  assert (N7 : json_number [55]) by (exists [], [55], [], []; repeat split; auto; try discriminate; [repeat constructor; unfold is_digit; lia|right; exists 55, []; split; [auto|lia]|left; auto|left; auto]).
  assert (N1 : json_number [49; 101; 53]).
  { exists [], [49], [], [101; 53]. split; [auto|]. split; [auto|]. split; [split; [dgt|right; exists 49, []; split; [auto|lia]]|].
    split; [left; auto|]. right. exists 101, [], [53]. split; [auto|]. split; [auto|]. split; [auto|]. dgt. }
  pose proof (O_one any_ws quoted quoted json_number [92;117;48;48;55;56] [34;92;117;48;48;55;56;34] (JNum [55]) [55] [] [] [] []
    ltac:(ws) ltac:(qtd) ltac:(ws) ltac:(ws) (T_num _ _ _ _ _ N7) ltac:(ws)) as M1.
  pose proof (L_one any_ws quoted quoted json_number (JObj []) [123; 125] [] [] ltac:(ws) (T_obj0 _ _ _ _ [] ltac:(ws)) ltac:(ws)) as L1.
  pose proof (L_more any_ws quoted quoted json_number _ _ _ _ [] [] ltac:(ws) (T_num _ _ _ _ _ N1) ltac:(ws) L1) as L2.
  pose proof (O_more any_ws quoted quoted json_number [122] [34;122;34] _ _ _ _ [32] [] [] []
    ltac:(ws) ltac:(qtd) ltac:(ws) ltac:(ws) (T_arr _ _ _ _ _ _ L2) ltac:(ws) M1) as M2.
  pose proof (O_more any_ws quoted quoted json_number [115] [34;115;34] (JStr [97;92;110]) [34;97;92;110;34] _ _ [] [32] [32] []
    ltac:(ws) ltac:(qtd) ltac:(ws) ltac:(ws) (T_str any_ws quoted quoted json_number [97;92;110] [34;97;92;110;34] ltac:(qtd)) ltac:(ws) M2) as M3.
  exact (T_obj _ _ _ _ _ _ M3).
Qed.
Example C40_case : wf pts_ty /\
  reads_as no_ws (f32_from_str bits_fl) (f64_from_str bits_fl) bytes_as_string pts_ty (USeq [UInt 7; UNone; UStr [97; 10]]) pts_doc /\
  match js_from_mut_slice x64 bits_fl false NopeDecoder 40 (prog pts_ty) ([32; 10] ++ pts_text ++ [9]) with
  | Done s r => r = Ok (USeq [UInt 7; UNone; UStr [97; 10]])
  | _ => False
  end.
Proof.
  split; [shown|]. split; [|vm_compute; reflexivity]. right.
  exists (match pts_doc with JObj ms => ms | _ => [] end), [Some (UInt 7); None; Some (UStr [97; 10])].
  split; [reflexivity|]. split; [|cbn; repeat split; eauto].
  eapply (OF_field _ _ _ 2%nat [115] _ (UStr [97; 10])); try reflexivity.
  { split; [apply B_plain; [unfold plain_byte; lia|constructor]|utf8]. }
  { exists [97; 92; 110]. split; [auto|]. split; [|apply ascii_ok; reflexivity]. apply B_plain; [unfold plain_byte; lia|]. apply B_esc; constructor. }
  eapply (OF_unknown _ _ _ _ [122]).
  { split; [apply B_plain; [unfold plain_byte; lia|constructor]|utf8]. }
  { cbn. intuition discriminate. }
  { cbn. split; [exists 49, [101; 53]; split; [auto|left; unfold is_digit; lia]|auto]. }
  eapply (OF_field _ _ _ 0%nat [120] _ (UInt 7)); try reflexivity.
  { split; [|utf8]. apply (B_u false [48; 48; 55; 56] 120 [] []); [|unfold is_scalar; lia|constructor].
    exists 48, 48, 55, 56, 0, 0, 7, 8. repeat split; unfold hex_digit; lia. }
  { exists [55]. split; auto. split; [unfold in_ikind; cbn; lia|]. exists false, [55]. split; [auto|]. split; [split; [dgt|right; exists 55, []; split; [auto|lia]]|].
    split; [reflexivity|discriminate]. }
  constructor.
Qed.

(** C44: [IgnoredAny] on a JSON value, whatever follows that cannot be taken for more
    of it, consumes whitespace before it and the value, and nothing else.  Keys of
    objects inside must not have surrogate pairs (see below). *)
Theorem C44_skips_values : forall ar fl any_f32 dec d b w k s,
  jtext any_ws (json_string true) (json_string false) json_number d b -> any_ws w -> cannot_extend d k ->
  (j_index s <= length (j_input s))%nat -> (dec = Base64Decoder -> 3 * zlen (j_input s) <= usize_max ar) ->
  unparsed s = w ++ b ++ k ->
  exists N, forall fuel, (N <= fuel)%nat ->
    exists s', jr_de (js_run ar fl any_f32 dec fuel) false ignored s = Done s' (Ok UUnit) /\ unparsed s' = k.
Proof. exact ignored_skips. Qed.
Print Assumptions C44_skips_values.

(** An object with an array of a string (a surrogate pair, a bracket and an escaped
    quote in it), -1.5e3 and an empty object; [},] follows. *)
Definition skip_text : bytes := [123; 34;97;34; 58; 91; 34; 92;117;100;56;51;100; 92;117;100;101;48;48; 93; 92;34; 34; 44; 32;
  45;49;46;53;101;51; 44; 123;125; 93; 125].
Example C44_values_case :
  match jr_de (js_run x64 bits_fl false NopeDecoder 40) false ignored (j_from_mut_slice (skip_text ++ [125; 44])) with
  | Done s r => r = Ok UUnit /\ unparsed s = [125; 44]
  | _ => False
  end.
Proof. vm_compute. auto. Qed.

(** The restriction to keys is needed: [{"\ud83d\ude00":1}] cannot be skipped. *)
Theorem C44_surrogate_key_refuted : forall ar fl any_f32 dec fuel,
  json_text (JObj [([240; 159; 152; 128], JNum [49])]) ([123; 34; 92;117;100;56;51;100; 92;117;100;101;48;48; 34; 58; 49; 125]) /\
  match js_from_mut_slice ar fl any_f32 dec (9 + fuel) ignored [123; 34; 92;117;100;56;51;100; 92;117;100;101;48;48; 34; 58; 49; 125] with
  | Done _ (Err e) => e = JInvalidUnicodeCodePoint
  | _ => False
  end.
Proof. exact surrogate_key_not_skipped. Qed.
Print Assumptions C44_surrogate_key_refuted.

(** C39: the round trip.  Any value of any type that survives (finite floats, no
    [Some] of something written as null) comes back, from each byte string flavour
    read with its decoder, with any whitespace around.  Assumed of ryu-js: finite
    floats are written as JSON numbers; of it and [str::parse]: reading gives back
    the float written, up to the sign of zero. *)
Theorem C39_json_round_trip : forall ar fl fp any_f32 enc dec t v out w1 w2,
  (forall b, 0 <= b < 2 ^ 32 -> finite32 b -> f32_from_str fl (format_f32 fp b) = Some (if b =? 0x80000000 then 0 else b)) ->
  (forall b, 0 <= b < 2 ^ 64 -> finite64 b -> f64_from_str fl (format_f64 fp b) = Some (if b =? 0x8000000000000000 then 0 else b)) ->
  printer_ok fp ->
  In (enc, dec) [(ArrayByteEncoder, NopeDecoder); (ArrayByteEncoder, HexDecoder); (ArrayByteEncoder, Base64Decoder);
                 (HexStrByteEncoder, HexDecoder); (Base64ByteEncoder, Base64Decoder)] ->
  wf t -> hastype t v -> no_newtype_keys t -> survives t v ->
  js_to_string fp enc (trace t v) = Ok out -> any_ws w1 -> any_ws w2 ->
  (dec = Base64Decoder -> 3 * zlen (w1 ++ out ++ w2) <= usize_max ar) ->
  exists N, forall fuel, (N <= fuel)%nat ->
    exists s, js_from_mut_slice ar fl any_f32 dec fuel (prog t) (w1 ++ out ++ w2) = Done s (Ok v).
Proof. exact round_trip_survives. Qed.
Print Assumptions C39_json_round_trip.

(** C39: and the serialization succeeds if the keys of maps are bools, integers,
    chars, strings or unit variants. *)
Theorem C39_json_serializable : forall fp enc t v, enc <> PassThroughByteEncoder -> printer_ok fp ->
  wf t -> good_keys t -> hastype t v -> exists out, js_to_string fp enc (trace t v) = Ok out.
Proof. exact (fun fp enc t v He => typed_writable fp enc He t v). Qed.
Print Assumptions C39_json_serializable.

(** struct { id: u16, t: Vec<String>, k: Option<Kind>, o: f64 with a default }, and a
    map with unit variants as keys and byte strings. *)
Definition jrec_ty : ty := TTuple [rec_ty; TMap (TEnum [([65], KUnit, TUnit); ([66; 10], KUnit, TUnit)]) TBytes].
Definition jrec_val : val := USeq [rec_val; UMap [(UVar 1 UUnit, UBytes [1; 255]); (UVar 0 UUnit, UBytes [])]].
(** [[{"id":300,"t":["hi",""],"k":{"B":[-5,null]}},{"B\n":"Af8","A":""}]] *)
Definition jrec_text : bytes := [91; 123; 34;105;100;34; 58; 51;48;48; 44; 34;116;34; 58; 91; 34;104;105;34; 44; 34;34; 93; 44; 34;107;34; 58;
  123; 34;66;34; 58; 91; 45;53; 44; 110;117;108;108; 93; 125; 125; 44; 123; 34;66;92;110;34; 58; 34;65;102;56;34; 44; 34;65;34; 58; 34;34; 125; 93].
Example C39_case : wf jrec_ty /\ hastype jrec_ty jrec_val /\ no_newtype_keys jrec_ty /\ good_keys jrec_ty /\ survives jrec_ty jrec_val /\
  js_to_string bits_fp Base64ByteEncoder (trace jrec_ty jrec_val) = Ok jrec_text /\
  match js_from_mut_slice x64 bits_fl false Base64Decoder 60 (prog jrec_ty) ([32] ++ jrec_text ++ [10]) with
  | Done _ r => r = Ok jrec_val
  | _ => False
  end.
Proof.
  split; [shown|]. split.
  { shown; cbn; try (split; [|reflexivity]); try reflexivity; repeat constructor; unfold is_byte; lia. }
  split.
  { cbn. repeat split. intros t. discriminate. }
  split; [cbn; intuition auto|]. split.
  { cbn. unfold finite64. intuition auto; try lia. }
  split; [vm_compute; reflexivity|vm_compute; reflexivity].
Qed.
(** The assumptions on floats can be met. *)
Example C39_floats : printer_ok bits_fp /\
  (forall b, 0 <= b < 2 ^ 32 -> finite32 b -> f32_from_str bits_fl (format_f32 bits_fp b) = Some (if b =? 0x80000000 then 0 else b)) /\
  (forall b, 0 <= b < 2 ^ 64 -> finite64 b -> f64_from_str bits_fl (format_f64 bits_fp b) = Some (if b =? 0x8000000000000000 then 0 else b)).
Proof. exact bits_floats. Qed.

(** C49: any value comes back with each [Some] of something written as null turned
    into [None], floats without a number turned into NaN, -0 into 0; nothing else. *)
Theorem C49_json_round_trip : forall ar fl fp any_f32 enc dec t v out w1 w2,
  (forall b, 0 <= b < 2 ^ 32 -> finite32 b -> f32_from_str fl (format_f32 fp b) = Some (if b =? 0x80000000 then 0 else b)) ->
  (forall b, 0 <= b < 2 ^ 64 -> finite64 b -> f64_from_str fl (format_f64 fp b) = Some (if b =? 0x8000000000000000 then 0 else b)) ->
  printer_ok fp ->
  In (enc, dec) [(ArrayByteEncoder, NopeDecoder); (ArrayByteEncoder, HexDecoder); (ArrayByteEncoder, Base64Decoder);
                 (HexStrByteEncoder, HexDecoder); (Base64ByteEncoder, Base64Decoder)] ->
  wf t -> hastype t v -> no_newtype_keys t ->
  js_to_string fp enc (trace t v) = Ok out -> any_ws w1 -> any_ws w2 ->
  (dec = Base64Decoder -> 3 * zlen (w1 ++ out ++ w2) <= usize_max ar) ->
  exists N, forall fuel, (N <= fuel)%nat ->
    exists s, js_from_mut_slice ar fl any_f32 dec fuel (prog t) (w1 ++ out ++ w2) = Done s (Ok (json_image t v)).
Proof. exact round_trip_image. Qed.
Print Assumptions C49_json_round_trip.

(** C49: [Some(v)] is written as [v]; it is read as [None] exactly when that is null. *)
Theorem C49_json_option : forall ar fl fp any_f32 enc dec t v out w1 w2,
  (forall b, 0 <= b < 2 ^ 32 -> finite32 b -> f32_from_str fl (format_f32 fp b) = Some (if b =? 0x80000000 then 0 else b)) ->
  (forall b, 0 <= b < 2 ^ 64 -> finite64 b -> f64_from_str fl (format_f64 fp b) = Some (if b =? 0x8000000000000000 then 0 else b)) ->
  printer_ok fp ->
  In (enc, dec) [(ArrayByteEncoder, NopeDecoder); (ArrayByteEncoder, HexDecoder); (ArrayByteEncoder, Base64Decoder);
                 (HexStrByteEncoder, HexDecoder); (Base64ByteEncoder, Base64Decoder)] ->
  wf t -> hastype t v -> no_newtype_keys t ->
  js_to_string fp enc (trace t v) = Ok out -> any_ws w1 -> any_ws w2 ->
  (dec = Base64Decoder -> 3 * zlen (w1 ++ out ++ w2) <= usize_max ar) ->
  js_to_string fp enc (trace (TOption t) (USome v)) = Ok out /\
  exists w N, (w = UNone <-> out = [110; 117; 108; 108]) /\ (out <> [110; 117; 108; 108] -> w = USome (json_image t v)) /\
    forall fuel, (N <= fuel)%nat ->
      exists s, js_from_mut_slice ar fl any_f32 dec fuel (prog (TOption t)) (w1 ++ out ++ w2) = Done s (Ok w).
Proof. exact option_image. Qed.
Print Assumptions C49_json_option.

(** C49: the values that survive are exactly those that come back unchanged. *)
Theorem C49_json_survivors : forall t v, hastype t v -> (json_image t v = v <-> survives t v).
Proof. exact image_survives. Qed.
Print Assumptions C49_json_survivors.

(** [Some(inf)], [Some(None)] and [inf] in a list of [Option<f64>] and [f64]. *)
Example C49_json_case :
  let t := TTuple [TOption TF64; TOption (TOption TBool); TF64; TOption (TInt I8)] in
  let v := USeq [USome (UF64 0x7ff0000000000000); USome UNone; UF64 0x7ff0000000000000; USome (UInt 5)] in
  json_image t v = USeq [UNone; UNone; UF64 0x7ff8000000000000; USome (UInt 5)] /\
  js_to_string bits_fp ArrayByteEncoder (trace t v) = Ok [91; 110;117;108;108; 44; 110;117;108;108; 44; 110;117;108;108; 44; 53; 93] /\
  match js_from_mut_slice x64 bits_fl false NopeDecoder 40 (prog t) [91; 110;117;108;108; 44; 110;117;108;108; 44; 110;117;108;108; 44; 53; 93] with
  | Done _ r => r = Ok (json_image t v)
  | _ => False
  end.
Proof. split; [reflexivity|]. split; vm_compute; reflexivity. Qed.

(** C47: the full statement -- what serializes can be deserialized -- fails for
    newtype structs as map keys: [struct Id(u32)], { Id(1): true }. *)
Theorem C47_newtype_keys_refuted : exists t v out, wf t /\ hastype t v /\ survives t v /\
  js_to_string bits_fp ArrayByteEncoder (trace t v) = Ok out /\
  forall ar fl any_f32 dec fuel, match js_from_mut_slice ar fl any_f32 dec fuel (prog t) out with Done _ (Ok _) => False | _ => True end.
Proof. exact newtype_key_lost. Qed.
Print Assumptions C47_newtype_keys_refuted.

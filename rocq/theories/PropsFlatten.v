(** C72: structs with a flattened field ([#[serde(flatten)]]). *)
From Verif Require Import Prelude Utf8Spec SerdeSer SerdeDe FloatOps MpSpec MpErrMap MpSer Types MpTypeSpec Base64Spec JsonSpec JsonTypeSpec JsonSer JsonErrMap JsonDe
  JsonCases JsonAnySpec Content ContentSpec Flatten FlattenSpec JsonFlatten MpFlatten MpDe MpDeView MpDeTop FlattenEncSpec MpFlattenRead JsonFaultSpec JsonAnyFaultSpec FlattenJsonSpec JsonFlattenRead FlattenWrites TypeSize MpAdjacentEnds JsonAdjacentEnds PropsMpSer PropsMpDe PropsMpTyped PropsJsonSer PropsJsonTyped.

Ltac ascii := split; [repeat (apply B_plain; [unfold plain_byte; lia|]); apply B_nil|utf8].

(** struct A { a: u8, #[serde(flatten)] g: G, b: String }
    with G = struct { x: bool, y: Option<u8> }, or a map from String to i16. *)
Definition flat_fs : list (bytes * fattr * ty) := [([97], FPlain, TInt U8); ([98], FPlain, TStr)].
Definition flat_l : list val := [UInt 7; UStr [104; 105]].
Definition flat_g : ty := TStruct [([120], FPlain, TBool); ([121], FPlain, TOption (TInt U8))].
Definition flat_w : val := USeq [UBool true; UNone].
Definition flat_m : ty := TMap TStr (TInt I16).
Definition flat_n : val := UMap [(UStr [107], UInt (-3)); (UStr [122], UInt 5)].

(** C72: JSON.  What is written is read back: the other fields up to what any JSON round trip
    changes (C49), the flattened one, which is buffered, as it was. *)
Theorem C72_json_flatten : forall ar fl fo (any_f32 : bool) dec fp enc fs p g l w out w1 w2,
  let float_of := if any_f32 then f32_from_str fl else f64_from_str fl in
  (forall b, 0 <= b < 2 ^ 32 -> finite32 b -> f32_from_str fl (format_f32 fp b) = Some (if b =? 0x80000000 then 0 else b)) ->
  (forall b, 0 <= b < 2 ^ 64 -> finite64 b -> f64_from_str fl (format_f64 fp b) = Some (if b =? 0x8000000000000000 then 0 else b)) ->
  printer_ok fp ->
  In (enc, dec) [(ArrayByteEncoder, NopeDecoder); (ArrayByteEncoder, HexDecoder); (ArrayByteEncoder, Base64Decoder);
                 (HexStrByteEncoder, HexDecoder); (Base64ByteEncoder, Base64Decoder)] ->
  wf (TStruct fs) -> hastype (TStruct fs) (USeq l) -> no_newtype_keys (TStruct fs) ->
  wf g -> strict g -> hastype g w -> text_keys (enc = ArrayByteEncoder) g ->
  all_floats (fun b => finite32 b /\ told32 fo any_f32 float_of (format_f32 fp b) b)
             (fun b => finite64 b /\ told64 fo any_f32 float_of (format_f64 fp b) b) (trace g w) ->
  keys_apart (map name_of fs) g w ->
  js_to_string fp enc (flat_trace fs p g (USeq [USeq l; w])) = Ok out -> any_ws w1 -> any_ws w2 ->
  (dec = Base64Decoder -> 3 * zlen (w1 ++ out ++ w2) <= usize_max ar) ->
  exists N, forall fuel, (N <= fuel)%nat ->
    exists s, js_from_mut_slice ar fl any_f32 dec fuel (flattened fo JDeserializeError fs g) (w1 ++ out ++ w2) = Done s (Ok (USeq [json_image (TStruct fs) (USeq l); w])).
Proof.
  intros ar fl fo any_f32 dec fp enc fs p g l w out w1 w2 float_of L32 L64 P F.
  exact (js_flatten_trip ar fl fo any_f32 dec fp enc fs p g l w out w1 w2 (law_inverse32 fl fp L32) (law_inverse64 fl fp L64) (flavours_match enc dec F) P).
Qed.
Print Assumptions C72_json_flatten.

(** {"a":7,"x":true,"y":null,"b":"hi"} and {"a":7,"k":-3,"z":5,"b":"hi"}; the fields in another
    order with an unknown one; a key of the map that is the name of a field. *)
Definition flat_text : bytes := [123; 34; 97; 34; 58; 55; 44; 34; 120; 34; 58; 116; 114; 117; 101; 44; 34; 121; 34; 58; 110; 117; 108; 108; 44; 34; 98; 34; 58; 34; 104; 105; 34; 125].
Definition flat_text2 : bytes := [123; 34; 97; 34; 58; 55; 44; 34; 107; 34; 58; 45; 51; 44; 34; 122; 34; 58; 53; 44; 34; 98; 34; 58; 34; 104; 105; 34; 125].
Example C72_json_case : wf (TStruct flat_fs) /\ hastype (TStruct flat_fs) (USeq flat_l) /\ no_newtype_keys (TStruct flat_fs) /\
  wf flat_g /\ strict flat_g /\ hastype flat_g flat_w /\ text_keys (HexStrByteEncoder = ArrayByteEncoder) flat_g /\
  all_floats (fun _ => False) (fun _ => False) (trace flat_g flat_w) /\ keys_apart (map name_of flat_fs) flat_g flat_w /\
  js_to_string bits_fp HexStrByteEncoder (flat_trace flat_fs 1 flat_g (USeq [USeq flat_l; flat_w])) = Ok flat_text /\
  map (fun input => match js_from_mut_slice x64 bits_fl false HexDecoder 60 (flattened no_floats JDeserializeError flat_fs flat_g) input with Done _ r => Some r | _ => None end)
    [flat_text ++ [32]; [123; 34; 120; 34; 58; 116; 114; 117; 101; 44; 34; 98; 34; 58; 34; 104; 105; 34; 44; 34; 110; 34; 58; 91; 93; 44; 34; 97; 34; 58; 55; 125]; [91; 55; 44; 34; 104; 105; 34; 93]]
  = [Some (Ok (USeq [USeq flat_l; flat_w])); Some (Ok (USeq [USeq flat_l; flat_w])); Some (Err JExpectedObject)].
Proof.
  split; [shown|]. split; [shown|]. split; [cbn; tauto|]. split; [shown|]. split; [shown|]. split; [shown|]. split; [cbn; intuition discriminate|]. split; [cbn; tauto|].
  split; [cbn; intuition; subst; discriminate|]. split; vm_compute; reflexivity.
Qed.
Example C72_json_map_case : keys_apart (map name_of flat_fs) flat_m flat_n /\
  js_to_string bits_fp HexStrByteEncoder (flat_trace flat_fs 1 flat_m (USeq [USeq flat_l; flat_n])) = Ok flat_text2 /\
  map (fun input => match js_from_mut_slice x64 bits_fl false HexDecoder 60 (flattened no_floats JDeserializeError flat_fs flat_m) input with Done _ r => Some r | _ => None end)
    [flat_text2; [123; 34; 97; 34; 58; 55; 44; 34; 97; 34; 58; 53; 44; 34; 98; 34; 58; 34; 104; 105; 34; 125]]
  = [Some (Ok (USeq [USeq flat_l; flat_n])); Some (Err JDeserializeError)].
Proof. split; [intros e raw [<-|[<-|[]]] E; cbn in E; injection E as <-; cbn; intuition discriminate|]. split; vm_compute; reflexivity. Qed.

(** C72: JSON.  Objects from elsewhere are read: the other fields in any order and mixed with
    the members of the flattened one; a flattened struct takes its fields in any order too and
    leaves other members out.  Nothing but white space may follow. *)
Theorem C72_json_flatten_interoperability : forall ar fl fo (any_f32 : bool) dec fs g fp enc l w d w1 text k,
  let float_of := if any_f32 then f32_from_str fl else f64_from_str fl in
  wf (TStruct fs) -> match g with TStruct _ | TMap _ _ => True | _ => False end -> wf g -> strict g -> hastype g w -> text_keys (enc = ArrayByteEncoder) g ->
  all_floats (fun b => finite32 b /\ told32 fo any_f32 float_of (format_f32 fp b) b)
             (fun b => finite64 b /\ told64 fo any_f32 float_of (format_f64 fp b) b) (trace g w) ->
  flat_doc (f32_from_str fl) (f64_from_str fl) dec any_f32 fs g (fun w => js_value fp enc (trace g w)) l w d ->
  any_ws w1 -> loose_text d text -> (dec = Base64Decoder -> 3 * zlen (w1 ++ text ++ k) <= usize_max ar) ->
  exists N, forall fuel, (N <= fuel)%nat ->
    exists s r, js_from_mut_slice ar fl any_f32 dec fuel (flattened fo JDeserializeError fs g) (w1 ++ text ++ k) = Done s r /\
      (any_ws k -> r = Ok (USeq [USeq l; w])) /\ (~ any_ws k -> r = Err JTrailingCharacters).
Proof. exact js_flat_reads. Qed.
Print Assumptions C72_json_flatten_interoperability.

(** {"y":null,"b":"hi","q":[],"x":true,"a":7} *)
Definition flat_text3 : bytes := [123; 34; 121; 34; 58; 110; 117; 108; 108; 44; 34; 98; 34; 58; 34; 104; 105; 34; 44; 34; 113; 34; 58; 91; 93; 44; 34; 120; 34; 58; 116; 114; 117; 101; 44; 34; 97; 34; 58; 55; 125].
Definition flat_members3 : list (bytes * jv) := [([121], JNull); ([98], JStr [104; 105]); ([113], JArr []); ([120], JBool true); ([97], JNum [55])].
Example C72_json_interoperability_case :
  flat_doc (f32_from_str bits_fl) (f64_from_str bits_fl) HexDecoder false flat_fs flat_g (fun w => js_value bits_fp HexStrByteEncoder (trace flat_g w)) flat_l flat_w (JObj flat_members3) /\
  map (fun input => match js_from_mut_slice x64 bits_fl false HexDecoder 60 (flattened no_floats JDeserializeError flat_fs flat_g) input with Done _ r => Some r | _ => None end)
    [flat_text3; flat_text3 ++ [32; 33]] = [Some (Ok (USeq [USeq flat_l; flat_w])); Some (Err JTrailingCharacters)].
Proof.
  split; [|vm_compute; reflexivity].
  exists flat_members3, [(UStr [121], UUnit); (UStr [120], UBool true)], [Some (UInt 7); Some (UStr [104; 105])], [([120], JBool true); ([121], JNull)], [(UStr [120], UBool true); (UStr [121], UUnit)].
  split; [reflexivity|]. split; [|split; [cbn; auto|]; split; [reflexivity|]; split; [repeat constructor|constructor]].
  unfold flat_members3. eapply (FD_flat _ _ _ _ _ _ _ [121]); [ascii|cbn; intuition discriminate|cbn; auto|constructor|].
  eapply (FD_field _ _ _ _ _ _ _ 1 _ (UStr [104; 105])); [reflexivity|reflexivity|ascii|eexists; split; [reflexivity|ascii]|].
  eapply (FD_skip _ _ _ _ _ _ _ [113]); [ascii|cbn; intuition discriminate|cbn; intuition discriminate|apply (A_arr _ _ []); constructor|].
  eapply (FD_flat _ _ _ _ _ _ _ [120]); [ascii|cbn; intuition discriminate|cbn; auto|constructor|].
  eapply (FD_field _ _ _ _ _ _ _ 0 _ (UInt 7)); [reflexivity|reflexivity|ascii| |apply FD_nil].
  exists [55]. split; [reflexivity|]. split; [unfold in_ikind; cbn; lia|]. exists false, [55]. split; [reflexivity|].
  split; [split; [dgt|right; exists 55, []; split; [reflexivity|lia]]|]. split; [reflexivity|discriminate].
Qed.

(** C72: what is refused: anything but an object, a field twice or missing, of the struct or of a
    flattened one, a faulty value, of a field or a buffered one, and anything amiss between them. *)
Theorem C72_json_flatten_faults : forall ar fl fo (any_f32 : bool) dec fs g input e,
  wf (TStruct fs) -> wf g -> all_bytes input -> (dec = Base64Decoder -> 3 * zlen input <= usize_max ar) ->
  flat_js_fault (f32_from_str fl) (f64_from_str fl) dec any_f32 fs g input e ->
  exists N, forall fuel, (N <= fuel)%nat ->
    exists s, js_from_mut_slice ar fl any_f32 dec fuel (flattened fo JDeserializeError fs g) input = Done s (Err e).
Proof. exact js_flat_refuses. Qed.
Print Assumptions C72_json_flatten_faults.

(** {"q":[],"q" 1: no colon; {"a":7,"b":"","x":true,"x":1}; {"b":"","x":true}; {"a":7,"b":""}; {"a":7,"a":7; {"q":01}; {,; [7,"hi"] *)
Definition flat_bad : bytes := [123; 34; 113; 34; 58; 91; 93; 44; 34; 113; 34; 32; 49].
Example C72_json_faults_case : flat_js_fault (f32_from_str bits_fl) (f64_from_str bits_fl) HexDecoder false flat_fs flat_g flat_bad JExpectedColon /\
  map (fun input => match js_from_mut_slice x64 bits_fl false HexDecoder 60 (flattened no_floats JDeserializeError flat_fs flat_g) input with Done _ r => Some r | _ => None end)
    [flat_bad; [123; 34; 97; 34; 58; 55; 44; 34; 98; 34; 58; 34; 34; 44; 34; 120; 34; 58; 116; 114; 117; 101; 44; 34; 120; 34; 58; 49; 125];
     [123; 34; 98; 34; 58; 34; 34; 44; 34; 120; 34; 58; 116; 114; 117; 101; 125]; [123; 34; 97; 34; 58; 55; 44; 34; 98; 34; 58; 34; 34; 125]; [123; 34; 97; 34; 58; 55; 44; 34; 97; 34; 58; 55];
     [123; 34; 113; 34; 58; 45; 125]; [123; 44]; [91; 55; 44; 34; 104; 105; 34; 93]]
  = [Some (Err JExpectedColon); Some (Err JDeserializeError); Some (Err JDeserializeError); Some (Err JDeserializeError); Some (Err JDeserializeError); Some (Err JInvalidNumber); Some (Err JLeadingObjectComma); Some (Err JExpectedObject)].
Proof.
  split; [|vm_compute; reflexivity].
  apply (FJ_other_colon _ _ _ _ _ _ _ (tl flat_bad) [[113]] [None; None] false [44; 34; 113; 34; 32; 49] [113] [113] [32; 49]).
  - exists []. split; [reflexivity|]. split; [ws|]. unfold is_ws. lia.
  - eapply (XF_other _ _ _ _ _ _ _ _ [113] [113] [58; 91; 93; 44; 34; 113; 34; 32; 49] [91; 93; 44; 34; 113; 34; 32; 49]).
    + exists 34, [113; 34; 58; 91; 93; 44; 34; 113; 34; 32; 49]. split; [reflexivity|]. split; [lia|]. split; [|lia]. exists []. split; [reflexivity|]. split; [ws|]. unfold is_ws. lia.
    + ascii.
    + cbn; intuition discriminate.
    + exists []. split; [reflexivity|]. split; [ws|]. unfold is_ws. lia.
    + exists [], (JArr []), [91; 93], (USeq []). split; [reflexivity|]. split; [ws|]. split; [|split; [constructor; constructor|exact Logic.I]]. apply (T_arr0 _ _ _ _ []). ws.
    + apply XF_nil.
  - exists 34, [113; 34; 32; 49]. split; [reflexivity|]. split; [lia|]. exists [34; 113; 34; 32; 49]. split; exists []; (split; [reflexivity|]; split; [ws|]; unfold is_ws; lia).
  - ascii.
  - cbn; intuition discriminate.
  - eapply (CF_colon _ 49 []). exists [32]. split; [reflexivity|]. split; [ws|]. unfold is_ws. lia. lia.
Qed.

(** C72: MessagePack.  No such struct is written in any flavour: the serializers want the
    length of a map, and the derived code does not give one. *)
Theorem C72_msgpack_flatten_refuted : forall cfg fl fs p g l w,
  hastype (TStruct fs) (USeq l) -> hastype g w -> (exists gs, g = TStruct gs) \/ (exists k v, g = TMap k v) ->
  mp_to_vec cfg fl (flat_trace fs p g (USeq [USeq l; w])) = Err MMapLength.
Proof. exact mp_flatten_never. Qed.
Print Assumptions C72_msgpack_flatten_refuted.

Example C72_msgpack_case : hastype (TStruct flat_fs) (USeq flat_l) /\ hastype flat_g flat_w /\
  map (fun fl => mp_to_vec cfg64 fl (flat_trace flat_fs 1 flat_g (USeq [USeq flat_l; flat_w]))) [Compact; StructMapIdx; StructMapStr] = [Err MMapLength; Err MMapLength; Err MMapLength].
Proof. split; [shown|]. split; [shown|]. vm_compute. reflexivity. Qed.

(** C72: MessagePack.  Maps from elsewhere are read: the other fields by name, in any order and
    mixed with the entries of the flattened one; a flattened struct takes its fields in
    any order too and leaves other entries out. *)
Theorem C72_msgpack_flatten_interoperability : forall ar fo fs g st l w bs tail,
  arch32up ar -> wf (TStruct fs) -> (exists gs, g = TStruct gs) \/ (exists k v, g = TMap k v) -> wf g -> strict g -> told_apart st g -> hastype g w ->
  flat_enc fo fs g st l w bs -> slice_of ar (bs ++ tail) ->
  exists N, forall fuel, (N <= fuel)%nat ->
    exists s, mp_from_slice ar fo fuel (flattened fo DeserializeError fs g) (bs ++ tail) = Done s (Ok (USeq [USeq l; w], zlen bs)).
Proof. exact mp_flat_accepts. Qed.
Print Assumptions C72_msgpack_flatten_interoperability.

(** {"y": nil, "b": "hi", 5: nil, "x": true, "a": 7} *)
Definition flat_mp : bytes := [0x85; 0xa1; 121; 0xc0; 0xa1; 98; 0xa2; 104; 105; 5; 0xc0; 0xa1; 120; 0xc3; 0xa1; 97; 7].
Example C72_msgpack_interoperability_case : flat_enc no_floats flat_fs flat_g SNameMap flat_l flat_w flat_mp /\
  wf (TStruct flat_fs) /\ wf flat_g /\ strict flat_g /\ told_apart SNameMap flat_g /\ hastype flat_g flat_w /\
  match mp_from_slice x64 no_floats 60 (flattened no_floats DeserializeError flat_fs flat_g) flat_mp with Done _ r => r = Ok (USeq [USeq flat_l; flat_w], 17) | _ => False end.
Proof.
  assert (E : forall c, str_enc [c] [0xa1; c]) by (intros c; exists [0xa1]; split; [apply (SH_fix 1); lia|reflexivity]).
  split; [|split; [shown|]; split; [shown|]; split; [shown|]; split; [cbn; intuition discriminate|]; split; [shown|vm_compute; reflexivity]].
  exists 5, [0x85], (tl flat_mp), [(VStr [121], VNil); (VStr [120], VBool true)], [Some (UInt 7); Some (UStr [104; 105])], [(VStr [120], VBool true); (VStr [121], VNil)].
  split; [reflexivity|]. split; [apply (MH_fix 5); lia|]. split; [|split; [cbn; auto|]; split; [reflexivity|constructor]].
  apply (FE_flat _ _ _ _ _ 4 (VStr [121]) VNil UUnit [0xa1; 121] [0xc0]).
  1:{ left. exists [121]. split; [reflexivity|]. split; [utf8|]. split; [cbn; intuition discriminate|apply E]. }
  1:{ cbn. auto. }
  1:{ constructor. }
  1:{ constructor. }
  eapply (FE_field _ _ _ _ _ 3 1 _ (UStr [104; 105]) [98] [0xa1; 98] [0xa2; 104; 105]); [reflexivity|reflexivity|reflexivity|apply E| |].
  1:{ cbn [adm snd]. split; [utf8|]. exists [0xa2]. split; [apply (SH_fix 2); lia|reflexivity]. }
  apply (FE_skip _ _ _ _ _ 2 (VInt 5) VNil UUnit [5] [0xc0]).
  1:{ right. exists 5. split; [reflexivity|]. apply (II_pos 5). lia. }
  1:{ cbn. auto. }
  1:{ constructor. }
  1:{ constructor. }
  apply (FE_flat _ _ _ _ _ 1 (VStr [120]) (VBool true) (UBool true) [0xa1; 120] [0xc3]).
  1:{ left. exists [120]. split; [reflexivity|]. split; [utf8|]. split; [cbn; intuition discriminate|apply E]. }
  1:{ cbn. auto. }
  1:{ constructor. }
  1:{ constructor. }
  eapply (FE_field _ _ _ _ _ 0 0 _ (UInt 7) [97] [0xa1; 97] [7] []); [reflexivity|reflexivity|reflexivity|apply E| |].
  1:{ cbn [adm snd]. split; [unfold in_ikind; cbn; lia|]. constructor. lia. }
  apply FE_nil.
Qed.

(** C72: what is refused: anything but a map, a key that is no identifier, a field twice, a
    field missing, of the struct or of a flattened one, a faulty value, of a field or a buffered one. *)
Theorem C72_msgpack_flatten_faults : forall ar fo fs g bs e tail,
  arch32up ar -> wf (TStruct fs) -> wf g -> flat_fault fo fs g bs e -> slice_of ar (bs ++ tail) ->
  exists N, forall fuel, (N <= fuel)%nat ->
    exists s, mp_from_slice ar fo fuel (flattened fo DeserializeError fs g) (bs ++ tail) = Done s (Err e).
Proof. exact mp_flat_refuses. Qed.
Print Assumptions C72_msgpack_flatten_faults.

Example C72_msgpack_faults_case : flat_fault no_floats flat_fs flat_g ([0x82] ++ ([0xa1; 97] ++ [7] ++ []) ++ [0xa1; 97]) DeserializeError /\
  map (fun input => match mp_from_slice x64 no_floats 60 (flattened no_floats DeserializeError flat_fs flat_g) input with Done _ r => Some r | _ => None end)
    [[0x82; 0xa1; 97; 7; 0xa1; 97; 7]; [0x92; 7; 0xa2; 104; 105]; [0x81; 0xa1; 97; 7]; [0x82; 0xa1; 97; 7; 0xa1; 98; 0xa0; 77]; [0x81; 0xc3]; [0x81; 0xa1; 113; 0xc1]; [0x81; 0xa1; 97; 0xc3];
     [0x84; 0xa1; 97; 7; 0xa1; 98; 0xa0; 0xa1; 120; 0xc3; 0xa1; 120; 0xc3]]
  = [Some (Err DeserializeError); Some (Err ExpectedMap); Some (Err DeserializeError); Some (Err DeserializeError); Some (Err ExpectedIdentifier); Some (Err ReservedCode); Some (Err ExpectedInteger); Some (Err DeserializeError)].
Proof.
  assert (E : forall c, str_enc [c] [0xa1; c]) by (intros c; exists [0xa1]; split; [apply (SH_fix 1); lia|reflexivity]).
  split; [|vm_compute; reflexivity].
  apply (FF_again no_floats flat_fs flat_g 2 [0x82] 1 [] ([0xa1; 97] ++ [7] ++ []) [Some (UInt 7); None] 0 (UInt 7) [97]); [apply (MH_fix 2); lia|lia| |reflexivity|reflexivity|apply E].
  eapply (FE_field _ _ _ _ _ 0 0 _ (UInt 7) [97] [0xa1; 97] [7] []); [reflexivity|reflexivity|reflexivity|apply E| |].
  1:{ cbn [adm snd]. split; [unfold in_ikind; cbn; lia|]. constructor. lia. }
  apply FE_nil.
Qed.

(** C72: JSON.  These structs can be written, and the members of the flattened field stand
    between those of the fields before it and those of the fields after it. *)
Theorem C72_json_written : forall fp enc fs p g l w, enc <> PassThroughByteEncoder -> printer_ok fp ->
  wf (TStruct fs) -> good_keys (TStruct fs) -> hastype (TStruct fs) (USeq l) -> wf g -> good_keys g -> hastype g w -> has_members g ->
  exists before inside after out,
    js_value fp enc (trace (TStruct (firstn p fs)) (USeq (firstn p l))) = Some (JObj before) /\
    js_value fp enc (trace g w) = Some (JObj inside) /\
    js_value fp enc (trace (TStruct (skipn p fs)) (USeq (skipn p l))) = Some (JObj after) /\
    js_to_string fp enc (flat_trace fs p g (USeq [USeq l; w])) = Ok out /\ json_compact (JObj (before ++ inside ++ after)) out.
Proof. exact js_flatten_written. Qed.
Print Assumptions C72_json_written.
Example C72_json_written_case : wf (TStruct flat_fs) /\ good_keys (TStruct flat_fs) /\ hastype (TStruct flat_fs) (USeq flat_l) /\
  wf flat_m /\ good_keys flat_m /\ hastype flat_m flat_n /\ has_members flat_m /\
  js_to_string bits_fp HexStrByteEncoder (flat_trace flat_fs 1 flat_m (USeq [USeq flat_l; flat_n])) = Ok flat_text2.
Proof.
  split; [shown|]. split; [cbn; auto|]. split; [shown|]. split; [shown|]. split; [cbn; auto|]. split; [split; [repeat (apply Forall_cons; [split; [simpl; shown|simpl; shown]|]); constructor|reflexivity]|]. split; [exact I|].
  vm_compute. reflexivity.
Qed.

(** C72: decoding ends on any input, with a step budget as in C53. *)
Theorem C72_msgpack_terminates : forall ar fo fs g input fuel,
  arch64 ar -> wf (TStruct fs) -> slice64 input -> (10 * type_size (TStruct fs) + 1 + 3 * length input <= fuel)%nat ->
  exists s r, mp_from_slice ar fo fuel (flattened fo DeserializeError fs g) input = Done s r.
Proof. intros ar fo fs g input fuel A. exact (mp_flattened_ends ar fo A fs g input fuel). Qed.
Print Assumptions C72_msgpack_terminates.
Theorem C72_json_terminates : forall ar fl fo any_f32 dec fs g input fuel,
  (dec = Base64Decoder -> 3 * zlen input <= usize_max ar) -> (10 * type_size (TStruct fs) + 1 + 3 * length input <= fuel)%nat ->
  exists s r, js_from_mut_slice ar fl any_f32 dec fuel (flattened fo JDeserializeError fs g) input = Done s r.
Proof. exact js_flattened_ends. Qed.
Print Assumptions C72_json_terminates.
(** A map of 2^32-1 entries that holds one; and [{'q':[[[[[[[]. *)
Example C72_terminates_case :
  let input := [0xdf; 255; 255; 255; 255; 0xa1; 113; 0xdd; 255; 255; 255; 255; 0xc0; 0xc0] in
  let text := [123; 34; 113; 34; 58; 91; 91; 91; 91; 91; 91; 91] in
  wf (TStruct flat_fs) /\ slice64 input /\ (10 * type_size (TStruct flat_fs) + 1 + 3 * length input = 73)%nat /\ (10 * type_size (TStruct flat_fs) + 1 + 3 * length text = 67)%nat /\
  match mp_from_slice x64 no_floats 73 (flattened no_floats DeserializeError flat_fs flat_g) input with Done _ r => Some r | _ => None end = Some (Err UnexpectedEof) /\
  match js_from_mut_slice x64 bits_fl false NopeDecoder 67 (flattened no_floats JDeserializeError flat_fs flat_g) text with Done _ r => Some r | _ => None end = Some (Err JUnexpectedEof).
Proof.
  intros input text. split; [shown|]. split; [split; [repeat constructor; unfold is_byte; lia|vm_compute; reflexivity]|].
  split; [reflexivity|]. split; [reflexivity|]. split; vm_compute; reflexivity.
Qed.

(** C72: MessagePack.  An encoding cut short is reported as incomplete, and no input is an
    encoding of two values. *)
Theorem C72_msgpack_truncated : forall ar fo fs g st l w bs c q,
  arch32up ar -> wf (TStruct fs) -> (exists gs, g = TStruct gs) \/ (exists k v, g = TMap k v) -> wf g -> strict g -> told_apart st g -> hastype g w ->
  flat_enc fo fs g st l w (bs ++ c :: q) -> slice_of ar (bs ++ c :: q) ->
  exists N, forall fuel, (N <= fuel)%nat ->
    exists s, mp_from_slice ar fo fuel (flattened fo DeserializeError fs g) bs = Done s (Err UnexpectedEof).
Proof. exact mp_flattened_truncated. Qed.
Print Assumptions C72_msgpack_truncated.
Theorem C72_msgpack_unambiguous : forall fo fs g st st' l w l' w' bs tail,
  wf (TStruct fs) -> (exists gs, g = TStruct gs) \/ (exists k v, g = TMap k v) -> wf g -> strict g ->
  told_apart st g -> told_apart st' g -> hastype g w -> hastype g w' -> slice64 (bs ++ tail) ->
  flat_enc fo fs g st l w bs -> flat_enc fo fs g st' l' w' (bs ++ tail) -> l = l' /\ w = w' /\ tail = [].
Proof. exact mp_flattened_unambiguous. Qed.
Print Assumptions C72_msgpack_unambiguous.
(** The map of [C72_msgpack_interoperability_case], cut at every place. *)
Example C72_truncated_case :
  map (fun n => match mp_from_slice x64 no_floats 99 (flattened no_floats DeserializeError flat_fs flat_g) (firstn n flat_mp) with Done _ r => Some r | _ => None end) (seq 0 (length flat_mp))
  = repeat (Some (Err UnexpectedEof)) 17.
Proof. vm_compute. reflexivity. Qed.

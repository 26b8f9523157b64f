(** C65: untagged enums, whose derived code reads the input into a buffer with
    [deserialize_any] and then tries the variants in order. *)
From Verif Require Import Prelude Utf8Spec SerdeSer SerdeDe FloatOps MpSpec MpErrMap MpSer MpDe MpDeView MpDeTop Types MpTypeSpec Base64Spec JsonSpec JsonTypeSpec JsonSer JsonErrMap JsonDe
  JsonAnySpec JsonCases Content ContentSpec MpContent JsonContent PropsMpSer PropsMpDe PropsMpTyped PropsJsonSer.

(** enum E { None, Name(String), Pair(bool, i32), Rec { the fields of rec_ty } } *)
Definition e_ty : list (vkind * ty) := [(KUnit, TUnit); (KNewtype, TStr); (KTuple, TTuple [TBool; TInt I32]); (KStruct, rec_ty)].

(** C65: every value whose shape no earlier variant takes is read back. *)
Theorem C65_msgpack_untagged : forall ar fo cfg fl vs i k t v out tail,
  arch32up ar -> nth_error vs i = Some (k, t) -> kind_ok k t -> wf t -> strict t -> hastype t v -> told_apart (style_of fl) t ->
  (k = KStruct -> fl <> Compact) -> apart (firstn i vs) (written Bin (match fl with Compact => Arr | _ => Obj end) t) ->
  2 ^ 32 - 1 <= cfg_usize_max cfg -> mp_to_vec cfg fl (untagged_trace vs (UVar i v)) = Ok out -> slice_of ar (out ++ tail) ->
  exists N, forall fuel, (N <= fuel)%nat ->
    exists s, mp_from_slice ar fo fuel (untagged fo DeserializeError vs) (out ++ tail) = Done s (Ok (UVar i v, zlen out)).
Proof. exact mp_untagged_trip. Qed.
Print Assumptions C65_msgpack_untagged.

Example C65_msgpack_case : wf rec_ty /\ strict rec_ty /\ hastype rec_ty rec_val /\ told_apart SNameMap rec_ty /\
  apart (firstn 3 e_ty) (written Bin Obj rec_ty) /\
  exists out, mp_to_vec cfg64 StructMapStr (untagged_trace e_ty (UVar 3 rec_val)) = Ok out /\ zlen out = 22 /\
    match mp_from_slice x64 no_floats 60 (untagged no_floats DeserializeError e_ty) (out ++ [1]) with
    | Done _ r => r = Ok (UVar 3 rec_val, 22) | _ => False end.
Proof.
  split; [shown|]. split; [shown|]. split; [shown|]. split; [cbn; intuition (try discriminate; auto)|]. split.
  { intros f s I J K. cbn in I, J. destruct J as [<-|[]]. destruct I as [<-|[<-|[<-|[]]]]; cbn in K; intuition discriminate. }
  eexists. split; [vm_compute; reflexivity|]. split; [vm_compute; reflexivity|]. vm_compute. reflexivity.
Qed.

(** C65: the compact flavour writes a struct variant as an array, which the derived code
    does not take: no struct variant is read back. *)
Theorem C65_msgpack_compact_struct_refuted : forall ar fo cfg vs i fs v out tail,
  arch32up ar -> nth_error vs i = Some (KStruct, TStruct fs) -> wf (TStruct fs) -> hastype (TStruct fs) v ->
  (forall f, In f vs -> ~ In Arr (variant_readable f)) ->
  2 ^ 32 - 1 <= cfg_usize_max cfg -> mp_to_vec cfg Compact (untagged_trace vs (UVar i v)) = Ok out -> slice_of ar (out ++ tail) ->
  exists N, forall fuel, (N <= fuel)%nat ->
    exists s, mp_from_slice ar fo fuel (untagged fo DeserializeError vs) (out ++ tail) = Done s (Err DeserializeError).
Proof. exact mp_untagged_array. Qed.
Print Assumptions C65_msgpack_compact_struct_refuted.

Example C65_msgpack_compact_case : let vs := [(KUnit, TUnit); (KNewtype, TStr); (KStruct, rec_ty)] in
  (forall f, In f vs -> ~ In Arr (variant_readable f)) /\
  exists out, mp_to_vec cfg64 Compact (untagged_trace vs (UVar 2 rec_val)) = Ok out /\
    match mp_from_slice x64 no_floats 60 (untagged no_floats DeserializeError vs) out with Done _ r => r = Err DeserializeError | _ => False end.
Proof.
  split; [intros f [<-|[<-|[<-|[]]]] K; cbn in K; intuition discriminate|]. eexists. split; [vm_compute; reflexivity|]. vm_compute. reflexivity.
Qed.

(** C65: unit variants of an enum inside are numbers in the flavours that do not write
    names, and the buffer only takes a string or a map for an enum. *)
Theorem C65_msgpack_unit_variant_refuted : forall ar fo cfg fl vs i es n out tail,
  arch32up ar -> fl <> StructMapStr -> nth_error vs i = Some (KNewtype, TEnum es) -> wf (TEnum es) -> hastype (TEnum es) (UVar n UUnit) ->
  nth_error (map attr_of es) n = Some KUnit -> (forall f, In f vs -> ~ In Num (variant_readable f)) ->
  2 ^ 32 - 1 <= cfg_usize_max cfg -> mp_to_vec cfg fl (untagged_trace vs (UVar i (UVar n UUnit))) = Ok out -> slice_of ar (out ++ tail) ->
  exists N, forall fuel, (N <= fuel)%nat ->
    exists s, mp_from_slice ar fo fuel (untagged fo DeserializeError vs) (out ++ tail) = Done s (Err DeserializeError).
Proof. exact mp_untagged_number. Qed.
Print Assumptions C65_msgpack_unit_variant_refuted.

Example C65_msgpack_unit_variant_case : let vs := [(KUnit, TUnit); (KNewtype, kind_ty)] in
  wf kind_ty /\ hastype kind_ty (UVar 0 UUnit) /\ (forall f, In f vs -> ~ In Num (variant_readable f)) /\
  mp_to_vec cfg64 StructMapIdx (untagged_trace vs (UVar 1 (UVar 0 UUnit))) = Ok [0] /\
  match mp_from_slice x64 no_floats 60 (untagged no_floats DeserializeError vs) [0] with Done _ r => r = Err DeserializeError | _ => False end /\
  match mp_from_slice x64 no_floats 60 (denote DeserializeError kind_ty) [0] with Done _ r => r = Ok (UVar 0 UUnit, 1) | _ => False end.
Proof.
  split; [shown|]. split; [shown|]. split; [intros f [<-|[<-|[]]] K; cbn in K; intuition discriminate|]. split; [vm_compute; reflexivity|]. split; vm_compute; reflexivity.
Qed.

(** C65: in JSON, when keys are text, byte strings are written as arrays and the floats are
    finite and told by their text, which may be an integer. *)
Theorem C65_json_untagged : forall ar fl fo (any_f32 : bool) dec fp enc vs i k t v out w1 w2,
  let float_of := if any_f32 then f32_from_str fl else f64_from_str fl in
  enc <> PassThroughByteEncoder -> printer_ok fp -> nth_error vs i = Some (k, t) -> kind_ok k t -> wf t -> strict t -> hastype t v ->
  text_keys (enc = ArrayByteEncoder) t ->
  all_floats (fun b => finite32 b /\ told32 fo any_f32 float_of (format_f32 fp b) b)
             (fun b => finite64 b /\ told64 fo any_f32 float_of (format_f64 fp b) b) (trace t v) ->
  apart (firstn i vs) (written Arr Obj t) ->
  js_to_string fp enc (untagged_trace vs (UVar i v)) = Ok out -> any_ws w1 -> any_ws w2 ->
  (dec = Base64Decoder -> 3 * zlen (w1 ++ out ++ w2) <= usize_max ar) ->
  exists N, forall fuel, (N <= fuel)%nat ->
    exists s, js_from_mut_slice ar fl any_f32 dec fuel (untagged fo JDeserializeError vs) (w1 ++ out ++ w2) = Done s (Ok (UVar i v)).
Proof. exact js_untagged_trip. Qed.
Print Assumptions C65_json_untagged.

(** The printer of this case prints bit patterns as integers; [no_floats] keeps
    them. *)
Definition j_ty : list (vkind * ty) :=
  [(KUnit, TUnit); (KNewtype, TStr); (KNewtype, TF64); (KStruct, TStruct [([97], FPlain, TMap TStr TF64); ([98], FDefault UNone, TOption (TSeq (TInt I16)))])].
Definition j_val : val := USeq [UMap [(UStr [104; 105], UF64 4607182418800017408)]; USome (USeq [UInt (-5)])].
Example C65_json_case : let t := snd (nth 3 j_ty (KUnit, TUnit)) in
  printer_ok bits_fp /\ wf t /\ strict t /\ hastype t j_val /\ text_keys (HexStrByteEncoder = ArrayByteEncoder) t /\
  all_floats (fun b => finite32 b /\ told32 no_floats false (f64_from_str bits_fl) (format_f32 bits_fp b) b)
             (fun b => finite64 b /\ told64 no_floats false (f64_from_str bits_fl) (format_f64 bits_fp b) b) (trace t j_val) /\
  apart (firstn 3 j_ty) (written Arr Obj t) /\
  exists out, js_to_string bits_fp HexStrByteEncoder (untagged_trace j_ty (UVar 3 j_val)) = Ok out /\
    match js_from_mut_slice x64 bits_fl false HexDecoder 60 (untagged no_floats JDeserializeError j_ty) ([32] ++ out ++ [10]) with
    | Done _ r => r = Ok (UVar 3 j_val) | _ => False end.
Proof.
  split; [exact (proj1 bits_floats)|]. split; [shown|]. split; [shown|].
  split; [cbn; split; [split; [constructor; [cbn; shown|constructor]|reflexivity]|shown]|]. split; [cbn; auto|]. split.
  { cbn -[finite64 told64 format_f64 bits_fp]. split; [|auto]. split; [exact I|]. split; [|exact I]. split; [unfold finite64; vm_compute; discriminate|].
    exists (UInt (dec_val [52;54;48;55;49;56;50;52;49;56;56;48;48;48;49;55;52;48;56])). split; [|reflexivity].
    change (format_f64 bits_fp 4607182418800017408) with [52;54;48;55;49;56;50;52;49;56;56;48;48;48;49;55;52;48;56].
    apply N_pos; [split; [discriminate|repeat constructor; unfold is_digit; lia]|reflexivity]. }
  split.
  { intros f s Hi J K. cbn in Hi, J. destruct J as [<-|[]]. destruct Hi as [<-|[<-|[<-|[]]]]; cbn in K; intuition discriminate. }
  eexists. split; [vm_compute; reflexivity|]. vm_compute. reflexivity.
Qed.

(** C65: the hexadecimal and Base64 encoders write byte strings as text, and the buffer
    hands the byte string the bytes of that text: another value, without an error. *)
Theorem C65_json_bytes_refuted : forall ar fl fo any_f32 dec fp enc vs i b out w1 w2,
  In enc [HexStrByteEncoder; Base64ByteEncoder] -> printer_ok fp -> nth_error vs i = Some (KNewtype, TBytes) -> hastype TBytes (UBytes b) -> b <> [] ->
  apart (firstn i vs) [Text] ->
  js_to_string fp enc (untagged_trace vs (UVar i (UBytes b))) = Ok out -> any_ws w1 -> any_ws w2 ->
  (dec = Base64Decoder -> 3 * zlen (w1 ++ out ++ w2) <= usize_max ar) ->
  exists text N, text <> b /\ forall fuel, (N <= fuel)%nat ->
    exists s, js_from_mut_slice ar fl any_f32 dec fuel (untagged fo JDeserializeError vs) (w1 ++ out ++ w2) = Done s (Ok (UVar i (UBytes text))).
Proof. exact js_untagged_bytes. Qed.
Print Assumptions C65_json_bytes_refuted.

Example C65_json_bytes_case : let vs := [(KUnit, TUnit); (KNewtype, TBytes)] in
  apart (firstn 1 vs) [Text] /\
  js_to_string demo_fp HexStrByteEncoder (untagged_trace vs (UVar 1 (UBytes [1; 255]))) = Ok [34; 48; 49; 70; 70; 34] /\
  match js_from_mut_slice x64 bits_fl false HexDecoder 30 (untagged no_floats JDeserializeError vs) [34; 48; 49; 70; 70; 34] with
  | Done _ r => r = Ok (UVar 1 (UBytes [48; 49; 70; 70])) | _ => False end /\
  match js_from_mut_slice x64 bits_fl false HexDecoder 30 (denote JDeserializeError TBytes) [34; 48; 49; 70; 70; 34] with
  | Done _ r => r = Ok (UBytes [1; 255]) | _ => False end.
Proof.
  split. { intros f s [<-|[]] [<-|[]] K. cbn in K. intuition discriminate. } split; [vm_compute; reflexivity|]. split; vm_compute; reflexivity.
Qed.

(** C65: integers and booleans as keys are written as text, which the buffer does not turn
    back. *)
Theorem C65_json_keys_refuted : forall ar fl fo (any_f32 : bool) dec fp enc k t e l out w1 w2,
  let float_of := if any_f32 then f32_from_str fl else f64_from_str fl in
  enc <> PassThroughByteEncoder -> printer_ok fp -> In k [TBool] \/ (exists ik, k = TInt ik) ->
  wf (TMap k t) -> hastype (TMap k t) (UMap (e :: l)) -> let vs := [(KNewtype, TMap k t)] in
  all_floats (fun b => finite32 b -> exists w, number_as any_f32 float_of w (format_f32 fp b))
             (fun b => finite64 b -> exists w, number_as any_f32 float_of w (format_f64 fp b)) (trace (TMap k t) (UMap (e :: l))) ->
  js_to_string fp enc (untagged_trace vs (UVar 0 (UMap (e :: l)))) = Ok out -> any_ws w1 -> any_ws w2 ->
  (dec = Base64Decoder -> 3 * zlen (w1 ++ out ++ w2) <= usize_max ar) ->
  exists N, forall fuel, (N <= fuel)%nat ->
    exists s, js_from_mut_slice ar fl any_f32 dec fuel (untagged fo JDeserializeError vs) (w1 ++ out ++ w2) = Done s (Err JDeserializeError).
Proof. exact js_untagged_keys. Qed.
Print Assumptions C65_json_keys_refuted.

Example C65_json_keys_case : let t := TMap (TInt U8) TBool in let v := UMap [(UInt 7, UBool true)] in
  wf t /\ hastype t v /\
  js_to_string demo_fp HexStrByteEncoder (trace t v) = Ok [123; 34; 55; 34; 58; 116; 114; 117; 101; 125] /\
  match js_from_mut_slice x64 bits_fl false HexDecoder 30 (untagged no_floats JDeserializeError [(KNewtype, t)]) [123; 34; 55; 34; 58; 116; 114; 117; 101; 125] with
  | Done _ r => r = Err JDeserializeError | _ => False end /\
  match js_from_mut_slice x64 bits_fl false HexDecoder 30 (denote JDeserializeError t) [123; 34; 55; 34; 58; 116; 114; 117; 101; 125] with
  | Done _ r => r = Ok v | _ => False end.
Proof.
  split; [shown|]. split; [cbn; split; [constructor; [cbn; shown|constructor]|reflexivity]|]. split; [vm_compute; reflexivity|]. split; vm_compute; reflexivity.
Qed.

(** C65: a float that is not finite is written [null], which the buffer does not take for a
    float (outside a buffer it is read as NaN, C49). *)
Theorem C65_json_nan_refuted : forall ar fl fo any_f32 dec fp enc vs i b out w1 w2,
  enc <> PassThroughByteEncoder -> printer_ok fp -> nth_error vs i = Some (KNewtype, TF64) -> 0 <= b < 2 ^ 64 -> ~ finite64 b ->
  (forall f, In f vs -> ~ In Null (variant_readable f)) ->
  js_to_string fp enc (untagged_trace vs (UVar i (UF64 b))) = Ok out -> any_ws w1 -> any_ws w2 ->
  (dec = Base64Decoder -> 3 * zlen (w1 ++ out ++ w2) <= usize_max ar) ->
  exists N, forall fuel, (N <= fuel)%nat ->
    exists s, js_from_mut_slice ar fl any_f32 dec fuel (untagged fo JDeserializeError vs) (w1 ++ out ++ w2) = Done s (Err JDeserializeError).
Proof. exact js_untagged_nan. Qed.
Print Assumptions C65_json_nan_refuted.

Example C65_json_nan_case : let vs := [(KNewtype, TStr); (KNewtype, TF64)] in let nan := 0x7ff8000000000000 in
  ~ finite64 nan /\ (forall f, In f vs -> ~ In Null (variant_readable f)) /\
  js_to_string demo_fp HexStrByteEncoder (untagged_trace vs (UVar 1 (UF64 nan))) = Ok [110; 117; 108; 108] /\
  match js_from_mut_slice x64 bits_fl false HexDecoder 30 (untagged no_floats JDeserializeError vs) [110; 117; 108; 108] with
  | Done _ r => r = Err JDeserializeError | _ => False end /\
  match js_from_mut_slice x64 bits_fl false HexDecoder 30 (denote JDeserializeError TF64) [110; 117; 108; 108] with
  | Done _ r => r = Ok (UF64 nan) | _ => False end.
Proof.
  split; [intros H; apply H; reflexivity|]. split; [intros f [<-|[<-|[]]] K; cbn in K; intuition discriminate|]. split; [vm_compute; reflexivity|]. split; vm_compute; reflexivity.
Qed.

(** Properties of MessagePack for typed values: round trips, interoperability,
    integers, truncation, surplus elements, streams, self-describing decoding.
    [Types] has the universe of types; [MpTypeSpec] the admissible encodings. *)
From Verif Require Import Prelude Utf8Spec SerdeSer SerdeDe MpMagick MpSpec MpSer MpDe MpDeTop FloatOps Types MpTypeSpec MpAny MpTypedTop MpSound PropsMpSer PropsMpDe.

From Verif Require MpAnySound.
Local Notation prog t := (denote DeserializeError t).

(** struct { id: u16, tags: Vec<String>, kind: Option<Kind>, opt: f64 with a default }
    enum Kind { A, B(i8, ()), C { x: bytes } } *)
Definition kind_ty : ty := TEnum [([65], KUnit, TUnit); ([66], KTuple, TTuple [TInt I8; TUnit]);
  ([67], KStruct, TStruct [([120], FPlain, TBytes)])].
Definition rec_ty : ty := TStruct [([105; 100], FPlain, TInt U16); ([116], FPlain, TSeq TStr);
  ([107], FPlain, TOption kind_ty); ([111], FDefault (UF64 0), TF64)].
Definition rec_val : val := USeq [UInt 300; USeq [UStr [104; 105]; UStr []]; USome (UVar 1 (USeq [UInt (-5); UUnit])); UF64 0].
Ltac utf8 := first [exists []; split; [constructor|reflexivity] |
  exists [104; 105]; split; [repeat constructor; unfold is_scalar; lia|reflexivity] |
  match goal with |- valid_utf8 ?l => exists l; split; [repeat constructor; unfold is_scalar; lia|reflexivity] end].
Ltac shown := cbn; repeat lazymatch goal with
  | |- names_ok _ => unfold names_ok; cbn
  | |- _ /\ _ => split
  | |- True => exact I
  | |- ~ _ => intro; cbn in *; intuition discriminate
  | |- NoDup _ => constructor
  | |- Forall _ _ => constructor
  | |- valid_utf8 _ => utf8
  | |- short _ => reflexivity
  | |- in_ikind _ _ => unfold in_ikind; cbn; lia
  | |- _ => cbn; first [lia|tauto]
  end.
Example rec_wf : wf rec_ty /\ strict rec_ty /\ hastype rec_ty rec_val.
Proof. split; [shown|split; shown]. Qed.

(** C21: the round trip, for every type of the universe without an Option of a
    nullable type, every value, each serializer and any bytes behind. *)
Theorem C21_msgpack_round_trip : forall ar fo cfg fl t v out tail,
  arch32up ar -> wf t -> hastype t v -> strict t ->
  mp_to_vec cfg fl (trace t v) = Ok out -> slice_of ar (out ++ tail) ->
  exists N, forall fuel, (N <= fuel)%nat ->
    exists s, mp_from_slice ar fo fuel (prog t) (out ++ tail) = Done s (Ok (v, zlen out)).
Proof. exact (fun ar fo cfg fl t v out tail A => typed_strict_round_trip ar fo A cfg fl t v out tail). Qed.
Print Assumptions C21_msgpack_round_trip.

(** C21: and the serialization itself succeeds, except that the compact one may
    refuse a struct that skips fields. *)
Theorem C21_msgpack_serializable : forall (fo : float_ops) cfg fl t v, wf t -> hastype t v -> fl <> Compact \/ plain t ->
  exists out, mp_to_vec cfg fl (trace t v) = Ok out.
Proof. exact typed_succeeds. Qed.
Print Assumptions C21_msgpack_serializable.

Example C21_case : exists out s, mp_to_vec cfg64 StructMapStr (trace rec_ty rec_val) = Ok out /\
  out = [0x83; 0xa2; 105; 100; 0xcd; 1; 44; 0xa1; 116; 0x92; 0xa2; 104; 105; 0xa0; 0xa1; 107; 0x81; 0xa1; 66; 0x92; 0xfb; 0xc0] /\
  mp_from_slice x64 no_floats 40 (prog rec_ty) (out ++ [7]) = Done s (Ok (rec_val, 22)).
Proof. eexists. eexists. split; [vm_compute; reflexivity|]. split; [reflexivity|vm_compute; reflexivity]. Qed.
(** The same on a 32-bit target. *)
Example C21_case_32bit : arch32up (x32 true) /\
  slice_of (x32 true) ([0x83; 0xa2; 105; 100; 0xcd; 1; 44; 0xa1; 116; 0x92; 0xa2; 104; 105; 0xa0; 0xa1; 107; 0x81; 0xa1; 66; 0x92; 0xfb; 0xc0] ++ [7]) /\
  mp_to_vec {| cfg_alloc := false; cfg_usize_max := 2 ^ 32 - 1 |} StructMapStr (trace rec_ty rec_val) = Ok [0x83; 0xa2; 105; 100; 0xcd; 1; 44; 0xa1; 116; 0x92; 0xa2; 104; 105; 0xa0; 0xa1; 107; 0x81; 0xa1; 66; 0x92; 0xfb; 0xc0] /\
  exists s, mp_from_slice (x32 true) no_floats 40 (prog rec_ty)
    ([0x83; 0xa2; 105; 100; 0xcd; 1; 44; 0xa1; 116; 0x92; 0xa2; 104; 105; 0xa0; 0xa1; 107; 0x81; 0xa1; 66; 0x92; 0xfb; 0xc0] ++ [7]) = Done s (Ok (rec_val, 22)).
Proof.
  split; [unfold arch32up; cbn; lia|]. split; [split; [repeat (apply Forall_cons; [unfold is_byte; lia|]); apply Forall_nil|vm_compute; discriminate]|].
  split; [vm_compute; reflexivity|]. eexists. vm_compute. reflexivity.
Qed.
(** Bit patterns of floats survive: a NaN with payload and -0.0. *)
Example C21_floats_case : exists out s, mp_to_vec cfg64 Compact (trace (TTuple [TF32; TF64]) (USeq [UF32 0x7fa00001; UF64 0x8000000000000000])) = Ok out /\
  mp_from_slice x64 no_floats 40 (prog (TTuple [TF32; TF64])) out = Done s (Ok (USeq [UF32 0x7fa00001; UF64 0x8000000000000000], 15)).
Proof. eexists. eexists. split; [vm_compute; reflexivity|vm_compute; reflexivity]. Qed.

Ltac be := repeat split; try reflexivity; repeat constructor; unfold is_byte; lia.

(** C22: every admissible encoding is accepted and read as the value it encodes. *)
Theorem C22_msgpack_interoperability : forall ar fo t v bs tail,
  arch32up ar -> wf t -> adm fo t v bs -> slice_of ar (bs ++ tail) ->
  exists N, forall fuel, (N <= fuel)%nat ->
    exists s, mp_from_slice ar fo fuel (prog t) (bs ++ tail) = Done s (Ok (v, zlen bs)).
Proof. exact (fun ar fo t v bs tail A => typed_accepts ar fo A t v bs tail). Qed.
Print Assumptions C22_msgpack_interoperability.

(** A struct as a map16 with a key by index, an unknown key with an ext value, a
    wide signed integer for a small number, an absent Option. *)
Definition pt_ty : ty := TStruct [([120], FPlain, TInt U8); ([121], FPlain, TOption TBool)].
Definition pt_bytes : bytes := [0xde; 0; 2; 0xa1; 122; 0xd4; 5; 9; 0; 0xd3; 0; 0; 0; 0; 0; 0; 0; 7].
Example C22_case : adm no_floats pt_ty (USeq [UInt 7; UNone]) pt_bytes /\
  exists s, mp_from_slice x64 no_floats 40 (prog pt_ty) (pt_bytes ++ [1]) = Done s (Ok (USeq [UInt 7; UNone], 18)).
Proof.
  split; [|eexists; vm_compute; reflexivity]. right.
  exists 2, [0xde; 0; 2], [0xa1; 122; 0xd4; 5; 9; 0; 0xd3; 0; 0; 0; 0; 0; 0; 0; 7], [Some (UInt 7); None].
  split; [reflexivity|]. split; [apply MH_16; be|]. split.
  - apply (EN_unknown _ _ _ 1 (VExt 5 [9]) [0xa1; 122] [0xd4; 5; 9]).
    + left. exists [122]. split; [utf8|]. split; [cbn; intuition discriminate|]. exists [0xa1]. split; [apply (SH_fix 1); lia|reflexivity].
    + apply (MF_ext 5 [9] [0xd4]); [unfold is_byte; lia|repeat constructor; unfold is_byte; lia|constructor].
    + apply (EN_field _ _ _ 0 0%nat (adm no_floats (TInt U8)) (UInt 7) [0] [0xd3; 0; 0; 0; 0; 0; 0; 0; 7] []); try reflexivity.
      * right. split; [cbn; lia|]. apply II_pos. lia.
      * cbn. split; [unfold in_ikind; cbn; lia|]. apply IF_i64. be.
      * constructor.
  - cbn. split; auto. split; auto. split; eauto.
Qed.

(** C23: an integer in any format into any integer type: exact or rejected. *)
Theorem C23_msgpack_integers_exact : forall ar fo k z bs tail,
  arch32up ar -> int_fmt z bs -> slice_of ar (bs ++ tail) ->
  exists N, forall fuel, (N <= fuel)%nat -> exists s,
    mp_from_slice ar fo fuel (prog (TInt k)) (bs ++ tail) =
    Done s (if (imin k <=? z) && (z <=? imax k) then Ok (UInt z, zlen bs) else Err InvalidInteger).
Proof. exact (fun ar fo k z bs tail A => typed_integer ar fo A k z bs tail). Qed.
Print Assumptions C23_msgpack_integers_exact.

Example C23_case : int_fmt (-129) [0xd1; 255; 127] /\
  (exists s, mp_from_slice x64 no_floats 9 (prog (TInt I8)) [0xd1; 255; 127] = Done s (Err InvalidInteger)) /\
  (exists s, mp_from_slice x64 no_floats 9 (prog (TInt I16)) [0xd1; 255; 127] = Done s (Ok (UInt (-129), 3))).
Proof.
  split; [|split; eexists; reflexivity]. apply IF_i16. be.
Qed.

(** C25: cut anywhere, no encoding decodes: UnexpectedEof. *)
Theorem C25_msgpack_truncated : forall ar fo t v bs c q,
  arch32up ar -> wf t -> adm fo t v (bs ++ c :: q) -> slice_of ar (bs ++ c :: q) ->
  exists N, forall fuel, (N <= fuel)%nat ->
    exists s, mp_from_slice ar fo fuel (prog t) bs = Done s (Err UnexpectedEof).
Proof. exact (fun ar fo t v bs c q A => typed_truncated ar fo A t v bs c q). Qed.
Print Assumptions C25_msgpack_truncated.

Example C25_case : forall n, In n (seq 0 18) ->
  exists s, mp_from_slice x64 no_floats 40 (prog pt_ty) (firstn n pt_bytes) = Done s (Err UnexpectedEof).
Proof. intros n H. cbn in H. repeat (destruct H as [<-|H]; [eexists; vm_compute; reflexivity|]). destruct H. Qed.

(** C26: tuples, tuple structs and structs refuse a longer array. *)
Theorem C26_msgpack_longer_array : forall ar fo t ts l n h b tail,
  arch32up ar -> wf t -> elements t = Some ts -> length l = length ts ->
  arr_hdr n h -> zlen ts < n -> seq_enc (zip (fun p v => p v) (map (adm fo) ts) l) b -> slice_of ar ((h ++ b) ++ tail) ->
  exists N, forall fuel, (N <= fuel)%nat ->
    exists s, mp_from_slice ar fo fuel (prog t) ((h ++ b) ++ tail) = Done s (Err TrailingElements).
Proof. exact (fun ar fo t ts l n h b tail A => typed_surplus ar fo A t ts l n h b tail). Qed.
Print Assumptions C26_msgpack_longer_array.

Example C26_longer_array_case :
  exists s, mp_from_slice x64 no_floats 40 (prog (TTuple [TBool; TUnit])) ([0x93; 0xc3; 0xc0] ++ [0xc0]) = Done s (Err TrailingElements).
Proof. eexists. vm_compute. reflexivity. Qed.

(** C20: messages laid end to end are read one by one, in order, through the tails. *)
Theorem C20_msgpack_stream : forall ar fo (ms : list (ty * val * bytes)) tail,
  arch32up ar -> Forall (fun m => wf (fst (fst m)) /\ adm fo (fst (fst m)) (snd (fst m)) (snd m)) ms ->
  slice_of ar (concat (map snd ms) ++ tail) ->
  exists N, forall fuel, (N <= fuel)%nat ->
    read_stream ar fo fuel (map (fun m => fst (fst m)) ms) (concat (map snd ms) ++ tail) = Some (map (fun m => snd (fst m)) ms, tail).
Proof. exact (fun ar fo ms tail A => stream_reads ar fo A ms tail). Qed.
Print Assumptions C20_msgpack_stream.

Example C20_stream_case :
  read_stream x64 no_floats 40 [TBool; pt_ty; TInt I8] ([0xc3] ++ pt_bytes ++ [0xff] ++ [0xc1; 2])
  = Some ([UBool true; USeq [UInt 7; UNone]; UInt (-1)], [0xc1; 2]).
Proof. vm_compute. reflexivity. Qed.

(** C27: a self-describing type gets exactly what the message denotes; an ext value
    or a string that is not UTF-8 is an error. *)
Theorem C27_msgpack_self_describing : forall ar fo m bs tail,
  arch32up ar -> mp_fmt m bs -> slice_of ar (bs ++ tail) ->
  (forall v, denotes m (inl v) -> exists N, forall fuel, (N <= fuel)%nat ->
    exists s, mp_from_slice ar fo fuel (any DeserializeError) (bs ++ tail) = Done s (Ok (v, zlen bs))) /\
  (forall e, denotes m (inr e) -> exists N, forall fuel, (N <= fuel)%nat ->
    exists s, mp_from_slice ar fo fuel (any DeserializeError) (bs ++ tail) =
      Done s (Err (match e with ExtValue => UnsupportedExt | BadUtf8 => InvalidUnicodeCodePoint end))).
Proof. exact (fun ar fo m bs tail A => any_total ar fo A m bs tail). Qed.
Print Assumptions C27_msgpack_self_describing.

(** C27: and it never returns anything else. *)
Theorem C27_msgpack_self_describing_sound : forall ar fo fuel input s v n,
  arch32up ar -> slice_of ar input ->
  mp_from_slice ar fo fuel (any DeserializeError) input = Done s (Ok (v, n)) ->
  exists m bs tail, input = bs ++ tail /\ zlen bs = n /\ mp_fmt m bs /\ denotes m (inl v).
Proof. exact (fun ar fo => MpAnySound.any_sound_top ar fo). Qed.
Print Assumptions C27_msgpack_self_describing_sound.

(** C27: every message has one of the two outcomes. *)
Theorem C27_msgpack_denotes_total : forall m bs, mp_fmt m bs -> exists r, denotes m r.
Proof. exact (proj1 denotes_total). Qed.
Print Assumptions C27_msgpack_denotes_total.

Theorem C27_msgpack_reserved_code : forall ar fo tail, arch32up ar -> slice_of ar (0xc1 :: tail) ->
  exists N, forall fuel, (N <= fuel)%nat ->
    exists s, mp_from_slice ar fo fuel (any DeserializeError) (0xc1 :: tail) = Done s (Err ReservedCode).
Proof. exact (fun ar fo tail A => any_reserved_top ar fo A tail). Qed.
Print Assumptions C27_msgpack_reserved_code.

Example C27_case :
  (exists s, mp_from_slice x64 no_floats 40 (any DeserializeError) [0x82; 0xa1; 97; 0x92; 0xc0; 0xcf; 255;255;255;255;255;255;255;255; 0xc2; 0xc4; 1; 9; 5]
    = Done s (Ok (UMap [(UStr [97], USeq [UUnit; UInt (2^64-1)]); (UBool false, UBytes [9])], 18))) /\
  (exists s, mp_from_slice x64 no_floats 40 (any DeserializeError) [0x92; 1; 0xd4; 1; 1] = Done s (Err UnsupportedExt)).
Proof. split; eexists; vm_compute; reflexivity. Qed.

(** C49: any value of any type comes back with each [Some] of a nil turned into
    [None], and nothing else changed. *)
Theorem C49_msgpack_round_trip : forall ar fo cfg fl t v out tail,
  arch32up ar -> wf t -> hastype t v ->
  mp_to_vec cfg fl (trace t v) = Ok out -> slice_of ar (out ++ tail) ->
  exists N, forall fuel, (N <= fuel)%nat ->
    exists s, mp_from_slice ar fo fuel (prog t) (out ++ tail) = Done s (Ok (collapse nullish t v, zlen out)).
Proof. exact (fun ar fo cfg fl t v out tail A => typed_round_trip ar fo A cfg fl t v out tail). Qed.
Print Assumptions C49_msgpack_round_trip.

(** C49: [Some(v)] is written as [v]; it is read as [None] exactly when that is nil. *)
Theorem C49_msgpack_option : forall ar fo cfg fl t v out tail,
  arch32up ar -> wf t -> hastype t v ->
  mp_to_vec cfg fl (trace t v) = Ok out -> slice_of ar (out ++ tail) ->
  mp_to_vec cfg fl (trace (TOption t) (USome v)) = Ok out /\
  exists w N, (w = UNone <-> out = [0xc0]) /\ (out <> [0xc0] -> w = USome (collapse nullish t v)) /\
    forall fuel, (N <= fuel)%nat ->
      exists s, mp_from_slice ar fo fuel (prog (TOption t)) (out ++ tail) = Done s (Ok (w, zlen out)).
Proof. exact (fun ar fo cfg fl t v out tail A => typed_option ar fo A cfg fl t v out tail). Qed.
Print Assumptions C49_msgpack_option.

Example C49_case :
  collapse nullish (TSeq (TOption (TOption TF64))) (USeq [USome UNone; USome (USome (UF64 0x7ff8000000000000)); UNone])
    = USeq [UNone; USome (USome (UF64 0x7ff8000000000000)); UNone] /\
  collapse nullish (TOption (TNewtype TUnit)) (USome UUnit) = UNone.
Proof. split; reflexivity. Qed.

(** C50: a success is always right: for any input and any type, the bytes consumed
    are an encoding of the value returned, in the sense of the specification. *)
Theorem C50_msgpack_sound : forall ar fo fuel t input s v n,
  arch64 ar -> wf t -> slice64 input ->
  mp_from_slice ar fo fuel (prog t) input = Done s (Ok (v, n)) ->
  exists bs tail, input = bs ++ tail /\ zlen bs = n /\ adm fo t v bs.
Proof. exact (fun ar fo fuel t input s v n A => typed_sound ar fo A fuel t input s v n). Qed.
Print Assumptions C50_msgpack_sound.

(** C50: so decoding is exactly the specification, and no encoding is the beginning
    of an encoding of another value of the type. *)
Theorem C50_msgpack_exact : forall ar fo t input v n, arch64 ar -> wf t -> slice64 input ->
  ((exists fuel s, mp_from_slice ar fo fuel (prog t) input = Done s (Ok (v, n))) <->
   (exists bs tail, input = bs ++ tail /\ zlen bs = n /\ adm fo t v bs)).
Proof. exact (fun ar fo t input v n A => typed_exact ar fo A t input v n). Qed.
Print Assumptions C50_msgpack_exact.
Theorem C50_msgpack_unambiguous : forall fo t v v' bs tail, wf t -> slice64 (bs ++ tail) ->
  adm fo t v bs -> adm fo t v' (bs ++ tail) -> v = v' /\ tail = [].
Proof. exact adm_unambiguous. Qed.
Print Assumptions C50_msgpack_unambiguous.

(** Wrong types are refused: a number for a bool, a two-character string for a
    char, false for unit, a bare identifier for a newtype variant. *)
Example C50_case :
  (exists s, mp_from_slice x64 no_floats 9 (prog TBool) [1] = Done s (Err InvalidType)) /\
  (exists s, mp_from_slice x64 no_floats 9 (prog TChar) [0xa2; 97; 98] = Done s (Err InvalidLength)) /\
  (exists s, mp_from_slice x64 no_floats 9 (prog TUnit) [0xc2] = Done s (Err ExpectedNil)) /\
  (exists s, mp_from_slice x64 no_floats 9 (prog (TEnum [([65], KNewtype, TBool)])) [0; 0xc2] = Done s (Err InvalidType)) /\
  (exists s, mp_from_slice x64 no_floats 40 (prog pt_ty) (pt_bytes ++ [1]) = Done s (Ok (USeq [UInt 7; UNone], 18))).
Proof. repeat split; eexists; vm_compute; reflexivity. Qed.

(** Property theorems about the MessagePack serializers (C05-C14). *)
From Verif Require Import Prelude Utf8Spec Writer Foreign WriterContract WriterObs SerdeSer SerSpec MpSpec MpSer
  MpErrMap MpSerProofs MpSerFacts MpSerFacts2.

(** Build configurations used in the examples: 64-bit with and without alloc. *)
Definition cfg64 : mp_cfg := {| cfg_alloc := true; cfg_usize_max := 2 ^ 64 - 1 |}.
Definition cfg64_noalloc : mp_cfg := {| cfg_alloc := false; cfg_usize_max := 2 ^ 64 - 1 |}.

(** A struct { a: 300u16, b: skipped, c: Some("hi"), d: [true, ()] }. *)
Definition demo : sval :=
  SStruct 3 [([97], Some (SInt U16 300)); ([98], None); ([99], Some (SSome (SStr [104;105])));
             ([100], Some (STuple 2 [SBool true; SUnit]))].

(** C05: if serialization into any lawful writer succeeds, exactly the bytes of
    [to_vec] were appended. *)
Theorem C05_msgpack_bytes_independent_of_writer :
  forall W E (SW : SerWrite W E) inv content, lawful SW inv content ->
  forall cfg fl v w w', displays_propagate v -> inv w ->
  mp_to_writer SW cfg fl w v = (w', Ok tt) ->
  exists out, mp_to_vec cfg fl v = Ok out /\ content w' = content w ++ out.
Proof. exact @to_writer_ok_bytes. Qed.
Print Assumptions C05_msgpack_bytes_independent_of_writer.

Example C05_case :
  lawful SliceWriter sl_inv sl_content /\ displays_propagate demo /\
  (exists w', mp_to_writer SliceWriter cfg64 StructMapIdx (sl_new (repeat 0 20)) demo = (w', Ok tt)) /\
  mp_to_vec cfg64 StructMapIdx demo = Ok [0x83; 0; 0xcd; 1; 44; 2; 0xa2; 104; 105; 3; 0x92; 0xc3; 0xc0].
Proof.
  split; [exact WriterProofs.SliceWriter_lawful|]. split; [cbn; tauto|]. split; [eexists; vm_compute; reflexivity|reflexivity].
Qed.

(** C05: a failure that is not the writer's is the same for every writer ... *)
Theorem C05_msgpack_own_errors_independent_of_writer :
  forall W E (SW : SerWrite W E) inv content, lawful SW inv content ->
  forall cfg fl v w w' e, displays_propagate v -> inv w ->
  mp_to_writer SW cfg fl w v = (w', Err e) -> (forall x, e <> MWriter x) -> e <> MFormatError ->
  mp_to_vec cfg fl v = Err (err_map (fun _ => BufferFull) e).
Proof. exact @to_writer_own_error. Qed.
Print Assumptions C05_msgpack_own_errors_independent_of_writer.

Example C05_own_error_case :
  exists w', mp_to_writer SliceWriter cfg64 Compact (sl_new (repeat 0 20)) demo = (w', Err MFieldSkipped).
Proof. eexists. vm_compute. reflexivity. Qed.

(** ... and a value that [to_vec] cannot serialize never serializes anywhere. *)
Theorem C05_msgpack_failures_independent_of_writer :
  forall W E (SW : SerWrite W E) inv content, lawful SW inv content ->
  forall cfg fl v w e, displays_propagate v -> inv w ->
  mp_to_vec cfg fl v = Err e ->
  exists e', snd (mp_to_writer SW cfg fl w v) = Err e' /\
    (err_map (fun _ => BufferFull) e' = e \/ (exists x, e' = MWriter x) \/ e' = MFormatError).
Proof. exact @to_vec_error_everywhere. Qed.
Print Assumptions C05_msgpack_failures_independent_of_writer.

Example C05_failure_case : mp_to_vec cfg64 Compact demo = Err MFieldSkipped.
Proof. reflexivity. Qed.

(** C06: whatever happens, only a prefix of the full output reaches the writer,
    and anything but the full output comes with a writer (or format) error. *)
Theorem C06_msgpack_only_a_prefix_is_written :
  forall W E (SW : SerWrite W E) inv content, lawful SW inv content ->
  forall cfg fl v w, displays_propagate v -> inv w ->
  exists p, content (fst (mp_to_writer SW cfg fl w v)) = content w ++ p /\
    prefix p (fst (mp_to_writer (@VecWriter E) cfg fl [] v)) /\
    ((snd (mp_to_writer SW cfg fl w v) = snd (mp_to_writer (@VecWriter E) cfg fl [] v) /\
      p = fst (mp_to_writer (@VecWriter E) cfg fl [] v)) \/
     (exists x, snd (mp_to_writer SW cfg fl w v) = Err (MWriter x)) \/
     snd (mp_to_writer SW cfg fl w v) = Err MFormatError).
Proof. exact @to_writer_prefix. Qed.
Print Assumptions C06_msgpack_only_a_prefix_is_written.

Example C06_prefix_case :
  let r := mp_to_writer SliceWriter cfg64 StructMapIdx (sl_new (repeat 9 4)) demo in
  sl_content (fst r) = [0x83; 0; 0xcd] /\ snd r = Err (MWriter BufferFull).
Proof. split; vm_compute; reflexivity. Qed.

(** C06: on any writer at all, calls stop at the first failing one, whose own
    error is returned (or [FormatError] if it happened inside a Display). *)
Theorem C06_msgpack_writer_error_is_reported :
  forall W E (SW : SerWrite W E) cfg fl v w w' lg r, displays_propagate v ->
  mp_to_writer (Logged SW) cfg fl (w, []) v = ((w', lg), r) ->
  (all_ok lg /\ forall e, r <> Err (MWriter e)) \/
  (exists pre e, lg = pre ++ [Err e] /\ all_ok pre /\ (r = Err (MWriter e) \/ r = Err MFormatError)).
Proof. exact @to_writer_reports. Qed.
Print Assumptions C06_msgpack_writer_error_is_reported.

Example C06_reported_case :
  exists w', mp_to_writer (Logged SliceWriter) cfg64 StructMapIdx (sl_new (repeat 9 4), []) demo
    = ((w', [Ok tt; Ok tt; Ok tt; Err BufferFull]), Err (MWriter BufferFull)).
Proof. eexists. vm_compute. reflexivity. Qed.

(** C07: into any bounded writer, success exactly when the output fits. *)
Theorem C07_msgpack_succeeds_iff_it_fits :
  forall W E (SW : SerWrite W E) inv content, lawful SW inv content ->
  forall cfg fl v w cap out, displays_propagate v -> inv w ->
  bounded SW inv content cap -> (length (content w) <= cap w)%nat ->
  mp_to_vec cfg fl v = Ok out ->
  (snd (mp_to_writer SW cfg fl w v) = Ok tt <-> (length out <= cap w - length (content w))%nat).
Proof. exact @to_writer_capacity. Qed.
Print Assumptions C07_msgpack_succeeds_iff_it_fits.

Theorem C07_msgpack_slice_writer : forall cfg fl v buf out, displays_propagate v ->
  mp_to_vec cfg fl v = Ok out ->
  match mp_to_writer SliceWriter cfg fl (sl_new buf) v with
  | (w, Ok _) => (length out <= length buf)%nat /\ sl_as_ref w = Some out
  | (w, Err _) => (length buf < length out)%nat
  end.
Proof. exact slice_writer_fits. Qed.
Print Assumptions C07_msgpack_slice_writer.

Example C07_case :
  bounded SliceWriter sl_inv sl_content sl_capacity /\
  mp_to_vec cfg64 StructMapStr (SMap (Some 1) [(true, SInt U8 200); (false, SBytes [1;2])])
    = Ok [0x81; 0xcc; 200; 0xc4; 2; 1; 2] /\
  snd (mp_to_writer SliceWriter cfg64 StructMapStr (sl_new (repeat 0 7))
     (SMap (Some 1) [(true, SInt U8 200); (false, SBytes [1;2])])) = Ok tt /\
  snd (mp_to_writer SliceWriter cfg64 StructMapStr (sl_new (repeat 0 6))
     (SMap (Some 1) [(true, SInt U8 200); (false, SBytes [1;2])])) = Err (MWriter BufferFull).
Proof.
  split; [exact WriterProofs.SliceWriter_bounded|]. repeat split; vm_compute; reflexivity.
Qed.

(** C08: on success the output is one well-formed message encoding the documented
    value. [cfg_usize_max] at least 2^32-1: any 32- or 64-bit target. *)
Theorem C08_msgpack_output_well_formed : forall cfg fl v out,
  sval_ok v -> 2 ^ 32 - 1 <= cfg_usize_max cfg ->
  mp_to_vec cfg fl v = Ok out ->
  exists m, mp_doc (style_of fl) v = Some m /\ mp_fmt m out.
Proof. exact to_vec_ok_documented. Qed.
Print Assumptions C08_msgpack_output_well_formed.

(** C08: and it succeeds exactly when the value has a documented encoding. *)
Theorem C08_msgpack_succeeds_iff_documented : forall cfg fl v,
  sval_ok v -> 2 ^ 32 - 1 <= cfg_usize_max cfg ->
  match mp_doc (style_of fl) v with
  | Some m => exists out, mp_to_vec cfg fl v = Ok out /\ mp_fmt m out /\
                forall b, mp_fmt m b -> (length out <= length b)%nat
  | None => exists e, mp_to_vec cfg fl v = Err e
  end.
Proof. exact to_vec_documented. Qed.
Print Assumptions C08_msgpack_succeeds_iff_documented.

Ltac ok_demo := cbn; unfold in_ikind, is_len, valid_utf8; cbn;
  repeat match goal with |- _ /\ _ => split end; auto; try lia; try congruence; try reflexivity;
  try (eexists [97]; split; [repeat constructor; unfold is_scalar; lia|reflexivity]);
  try (eexists [98]; split; [repeat constructor; unfold is_scalar; lia|reflexivity]);
  try (eexists [99]; split; [repeat constructor; unfold is_scalar; lia|reflexivity]);
  try (eexists [100]; split; [repeat constructor; unfold is_scalar; lia|reflexivity]);
  try (eexists [104;105]; split; [repeat constructor; unfold is_scalar; lia|reflexivity]).

Example C08_case :
  sval_ok demo /\
  mp_doc SIndexMap demo = Some (VMap [(VInt 0, VInt 300); (VInt 2, VStr [104;105]); (VInt 3, VArr [VBool true; VNil])]) /\
  mp_to_vec cfg64 StructMapIdx demo = Ok [0x83; 0; 0xcd; 1; 44; 2; 0xa2; 104; 105; 3; 0x92; 0xc3; 0xc0].
Proof. split; [ok_demo|]. split; reflexivity. Qed.

(** C09: no well-formed encoding of the same value is shorter. *)
Theorem C09_msgpack_output_is_shortest : forall cfg fl v out,
  sval_ok v -> 2 ^ 32 - 1 <= cfg_usize_max cfg ->
  mp_to_vec cfg fl v = Ok out ->
  exists m, mp_fmt m out /\ forall b, mp_fmt m b -> (length out <= length b)%nat.
Proof. exact to_vec_shortest. Qed.
Print Assumptions C09_msgpack_output_is_shortest.

Example C09_case :
  sval_ok (SInt I64 (-33)) /\ mp_to_vec cfg64 Compact (SInt I64 (-33)) = Ok [0xd0; 223] /\
  mp_fmt (VInt (-33)) [0xd1; 255; 223].
Proof.
  split; [ok_demo|]. split; [reflexivity|]. repeat constructor; unfold is_byte; try lia; reflexivity.
Qed.

(** C10: every integer type: shortest encoding of exactly that number. *)
Theorem C10_msgpack_integer_encoding : forall cfg fl k z, in_ikind k z ->
  exists out, mp_to_vec cfg fl (SInt k z) = Ok out /\ int_fmt z out /\
    forall b, int_fmt z b -> (length out <= length b)%nat.
Proof. exact int_encodes. Qed.
Print Assumptions C10_msgpack_integer_encoding.

(** C10: the bytes are the same for all types of the same signedness, and for all
    types at all unless the number has two shortest encodings. *)
Theorem C10_msgpack_integer_type_irrelevant : forall cfg fl cfg' fl' k1 k2 z,
  in_ikind k1 z -> in_ikind k2 z ->
  is_signed k1 = is_signed k2 \/ ~ mixed_range z ->
  mp_to_vec cfg fl (SInt k1 z) = mp_to_vec cfg' fl' (SInt k2 z).
Proof. exact int_same_bytes. Qed.
Print Assumptions C10_msgpack_integer_type_irrelevant.

Example C10_case :
  mp_to_vec cfg64 Compact (SInt I64 40000) = Ok [0xcd; 156; 64] /\
  mp_to_vec cfg64 Compact (SInt U16 40000) = Ok [0xcd; 156; 64] /\
  mp_to_vec cfg64 Compact (SInt I16 300) = Ok [0xd1; 1; 44] /\
  mp_to_vec cfg64 Compact (SInt U16 300) = Ok [0xcd; 1; 44].
Proof. repeat split. Qed.

(** C11: wrong or unknown lengths are errors. *)
Theorem C11_msgpack_unknown_length : forall cfg fl l ops,
  mp_to_vec cfg fl (SSeq None l) = Err MSeqLength /\ mp_to_vec cfg fl (SMap None ops) = Err MMapLength.
Proof. exact (fun cfg fl l ops => conj eq_refl eq_refl). Qed.
Print Assumptions C11_msgpack_unknown_length.

Theorem C11_msgpack_seq_length : forall cfg fl len l,
  2 ^ 32 - 1 <= cfg_usize_max cfg -> 0 <= len ->
  Forall (serializes cfg fl) l -> len <> zlen l ->
  mp_to_vec cfg fl (SSeq (Some len) l) = Err MSeqLength /\
  mp_to_vec cfg fl (STuple len l) = Err MSeqLength /\
  mp_to_vec cfg fl (STupleStruct len l) = Err MSeqLength /\
  forall i n, is_u32 i -> valid_utf8 n -> zlen n < 2 ^ 32 ->
    mp_to_vec cfg fl (STupleVariant i n len l) = Err MSeqLength.
Proof. exact seq_mismatch. Qed.
Print Assumptions C11_msgpack_seq_length.

Theorem C11_msgpack_map_length : forall cfg fl len ops ps,
  2 ^ 32 - 1 <= cfg_usize_max cfg -> 0 <= len ->
  Forall (fun o => serializes cfg fl (snd o)) ops -> pair_up ops = Some ps -> len <> zlen ps ->
  mp_to_vec cfg fl (SMap (Some len) ops) = Err MMapLength.
Proof. exact map_len_mismatch. Qed.
Print Assumptions C11_msgpack_map_length.

Theorem C11_msgpack_struct_length : forall cfg fl len fs,
  2 ^ 32 - 1 <= cfg_usize_max cfg -> 0 <= len -> zlen fs < 2 ^ 32 ->
  Forall (field_ok cfg fl) fs -> len <> present fs ->
  match fl with
  | Compact => mp_to_vec cfg fl (SStruct len fs) = Err MSeqLength \/
               mp_to_vec cfg fl (SStruct len fs) = Err MFieldSkipped
  | _ => mp_to_vec cfg fl (SStruct len fs) = Err MMapLength
  end.
Proof. exact struct_mismatch. Qed.
Print Assumptions C11_msgpack_struct_length.

Example C11_case :
  mp_to_vec cfg64 Compact (SSeq (Some 2) [SUnit; SUnit; SUnit]) = Err MSeqLength /\
  mp_to_vec cfg64 Compact (STuple 4 [SUnit; SUnit; SUnit]) = Err MSeqLength /\
  mp_to_vec cfg64 Compact (SMap (Some 0) [(true, SUnit); (false, SUnit)]) = Err MMapLength /\
  mp_to_vec cfg64 StructMapStr (SStruct 1 [([97], Some SUnit); ([98], Some SUnit)]) = Err MMapLength /\
  Forall (serializes cfg64 Compact) [SUnit; SUnit; SUnit].
Proof.
  repeat split; try reflexivity.
  repeat constructor; eexists; reflexivity.
Qed.

(** C12: where each field ends up. *)
Theorem C12_msgpack_struct_fields_placed : forall cfg fl len fs out,
  sval_ok (SStruct len fs) -> 2 ^ 32 - 1 <= cfg_usize_max cfg ->
  mp_to_vec cfg fl (SStruct len fs) = Ok out ->
  match fl with
  | Compact => exists vs, mp_fmt (VArr vs) out /\ zlen vs = present fs /\
      forall i, match nth_error vs i with
                | Some v => exists n x, nth_error fs i = Some (n, Some x) /\ mp_doc SArray x = Some v
                | None => forall n x, nth_error fs i = Some (n, x) -> x = None
                end
  | StructMapIdx => exists kvs, mp_fmt (VMap kvs) out /\ zlen kvs = present fs /\
      forall k v, In (k, v) kvs <->
        exists i n x, nth_error fs i = Some (n, Some x) /\ mp_doc SIndexMap x = Some v /\ k = VInt (Z.of_nat i)
  | StructMapStr => exists kvs, mp_fmt (VMap kvs) out /\ zlen kvs = present fs /\
      forall k v, In (k, v) kvs <->
        exists i n x, nth_error fs i = Some (n, Some x) /\ mp_doc SNameMap x = Some v /\ k = VStr n
  end.
Proof. exact struct_fields_placed. Qed.
Print Assumptions C12_msgpack_struct_fields_placed.

Example C12_case :
  sval_ok demo /\
  mp_to_vec cfg64 StructMapStr demo =
    Ok [0x83; 0xa1; 97; 0xcd; 1; 44; 0xa1; 99; 0xa2; 104; 105; 0xa1; 100; 0x92; 0xc3; 0xc0].
Proof. split; [ok_demo|reflexivity]. Qed.

(** C12: skipping a field before a serialized one with the compact serializer. *)
Theorem C12_msgpack_compact_skip_rejected : forall cfg fs,
  2 ^ 32 - 1 <= cfg_usize_max cfg -> zlen fs < 2 ^ 32 ->
  Forall (field_ok cfg Compact) fs -> ~ skips_at_end fs ->
  mp_to_vec cfg Compact (SStruct (present fs) fs) = Err MFieldSkipped.
Proof. exact compact_skip. Qed.
Print Assumptions C12_msgpack_compact_skip_rejected.

Example C12_skip_case :
  mp_to_vec cfg64 Compact demo = Err MFieldSkipped /\
  mp_to_vec cfg64 Compact (SStruct 1 [([97], Some SUnit); ([98], None)]) = Ok [0x91; 0xc0].
Proof. split; reflexivity. Qed.

(** C13: collect_str without alloc. *)
Theorem C13_msgpack_collect_str_same_as_str : forall cfg fl p1 p2 t,
  cfg_alloc cfg = false -> zlen t <= cfg_usize_max cfg ->
  fmt_propagates p1 -> fmt_text p1 = Some t -> fmt_text p2 = Some t ->
  mp_to_vec cfg fl (SCollect p1 p2) = mp_to_vec cfg fl (SStr t).
Proof. exact collect_same_as_str. Qed.
Print Assumptions C13_msgpack_collect_str_same_as_str.

Theorem C13_msgpack_collect_str_growing_rejected :
  forall W E (SW : SerWrite W E) cfg fl p1 p2 t1 t2 w, cfg_alloc cfg = false ->
  0 <= cfg_usize_max cfg -> fmt_propagates p1 -> fmt_propagates p2 ->
  fmt_text p1 = Some t1 -> fmt_text p2 = Some t2 -> zlen t1 < zlen t2 ->
  exists e, snd (mp_to_writer SW cfg fl w (SCollect p1 p2)) = Err e.
Proof. exact @collect_growing. Qed.
Print Assumptions C13_msgpack_collect_str_growing_rejected.

Definition print_once (s : bytes) : fmtp := FWrite s (FRet true) (FRet false).
Example C13_case :
  let p := FWrite [97] (FWrite [98;99] (FRet true) (FRet false)) (FRet false) in
  fmt_propagates p /\ fmt_text p = Some [97;98;99] /\
  mp_to_vec cfg64_noalloc Compact (SCollect p (print_once [97;98;99])) = Ok [0xa3; 97; 98; 99] /\
  mp_to_vec cfg64_noalloc Compact (SCollect (print_once [97;98]) p) = Err MFormatError.
Proof. repeat split. Qed.

(** C14: the desired "Ok implies a well-formed message" fails without alloc for a
    Display whose second run prints less than the first. *)
Theorem C14_msgpack_shrinking_display_refuted : exists cfg fl p1 p2 out,
  cfg_alloc cfg = false /\ fmt_propagates p1 /\ fmt_propagates p2 /\
  mp_to_vec cfg fl (SCollect p1 p2) = Ok out /\ ~ exists m, mp_fmt m out.
Proof. exact shrinking_display. Qed.
Print Assumptions C14_msgpack_shrinking_display_refuted.

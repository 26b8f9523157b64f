(** Property theorems about the errors of serialization (C63): a value that cannot be
    written is reported by the first of its faults, in the order a reader of the value
    would meet them. *)
From Verif Require Import Prelude Utf8Spec Writer WriterContract WriterProofs SerdeSer MpSpec JsonSpec SerFaultSpec
  MpSer SerSpec MpErrMap MpSerFault JsonSer JsonErrMap JsonSerFault PropsJsonSer.

(** [mp_named alloc f] is the error the documentation gives for [f] (a [Display] that fails panics with [alloc]
    and is the format error without); [style_of fl] says how the flavour writes structs. *)
Theorem C63_msgpack_first_fault :
  forall cfg fl v, 0 <= cfg_usize_max cfg -> displays_propagate v ->
  match mp_first_fault (style_of fl) (cfg_alloc cfg) (cfg_usize_max cfg) v with
  | Some f => mp_to_vec cfg fl v = Err (mp_named (cfg_alloc cfg) f)
  | None => exists out, mp_to_vec cfg fl v = Ok out
  end.
Proof. exact to_vec_first_fault. Qed.
Print Assumptions C63_msgpack_first_fault.

(** Two faults in one value, in either order; and a declared length that is wrong, found
    after the fault of an element. *)
Definition std_cfg : mp_cfg := {| cfg_alloc := true; cfg_usize_max := 2 ^ 64 - 1 |}.
Example C63_msgpack_case :
  map (fun v => (mp_first_fault SNameMap true (2 ^ 64 - 1) v, mp_to_vec std_cfg StructMapStr v))
    [ STuple 2 [SSeq None []; SCustom]; STuple 2 [SCustom; SSeq None []]; STuple 3 [SBool true; SMap None []];
      STuple 3 [SBool true; SUnit]; SMap (Some 1) [(true, SUnit); (false, SUnit); (true, SUnit)]; STuple 1 [SUnit] ]
  = [ (Some WrongSeqLength, Err MSeqLength); (Some Refused, Err MSerializeError); (Some WrongMapLength, Err MMapLength);
      (Some WrongSeqLength, Err MSeqLength); (Some WrongMapLength, Err MMapLength); (None, Ok [145; 192]) ].
Proof. vm_compute. reflexivity. Qed.

(** Through any writer: what is not the writer's own error (which a [Display] turns into
    the format error) is the first fault of the value, and success means there is none. *)
Theorem C63_msgpack_any_writer :
  forall W E (SW : SerWrite W E) inv content, lawful SW inv content ->
  forall cfg fl v w, 0 <= cfg_usize_max cfg -> displays_propagate v -> inv w ->
  match snd (mp_to_writer SW cfg fl w v), mp_first_fault (style_of fl) (cfg_alloc cfg) (cfg_usize_max cfg) v with
  | Ok _, o => o = None
  | Err e, o => (exists x, e = MWriter x) \/ e = MFormatError \/ exists f, o = Some f /\ e = mp_named (cfg_alloc cfg) f
  end.
Proof. exact @to_writer_first_fault. Qed.
Print Assumptions C63_msgpack_any_writer.

Example C63_msgpack_any_writer_case :
  map (fun n => snd (mp_to_writer SliceWriter std_cfg StructMapStr (sl_new (repeat 0 n)) (STuple 2 [SInt U8 200; SCustom]))) [0; 1; 2; 3; 9]%nat
  = [Err (MWriter BufferFull); Err (MWriter BufferFull); Err (MWriter BufferFull); Err MSerializeError; Err MSerializeError].
Proof. vm_compute. reflexivity. Qed.

(** JSON.  [js_named] is the error the documentation gives; the lengths a value declares
    play no part.  All four encodings of byte arrays. *)
Theorem C63_json_first_fault :
  forall fp enc v, strings_ok v ->
  match js_first_fault v with
  | Some f => js_full fp enc v = Err (js_named f)
  | None => exists out, js_full fp enc v = Ok out
  end.
Proof. exact js_first_fault_full. Qed.
Print Assumptions C63_json_first_fault.

Example C63_json_case :
  map (fun v => (js_first_fault v, js_full demo_fp PassThroughByteEncoder v))
    [ SSeq None [SMap (Some 1) [(true, SUnit); (false, SCustom)]]; SMap None [(true, SBool true); (false, SCustom)];
      SMap None [(true, SCustom); (false, SUnit)]; SMap None [(true, SNewtypeStruct (SSome (SBool true))); (false, SUnit)]; STuple 7 [SUnit] ]
  = [ (Some KeyNotString, Err JInvalidKeyType); (Some Refused, Err JSerializeError); (Some Refused, Err JSerializeError);
      (Some KeyNotString, Err JInvalidKeyType); (None, Ok [91; 110; 117; 108; 108; 93]) ].
Proof. vm_compute. reflexivity. Qed.

Theorem C63_json_any_writer :
  forall W E (SW : SerWrite W E) inv content, lawful SW inv content ->
  forall fp enc v w, strings_ok v -> displays_propagate v -> inv w ->
  match snd (js_to_writer SW fp enc w v), js_first_fault v with
  | Ok _, o => o = None
  | Err e, o => (exists x, e = JWriter x) \/ e = JFormatError \/ exists f, o = Some f /\ e = js_named f
  end.
Proof. exact @js_first_fault_writer. Qed.
Print Assumptions C63_json_any_writer.

Example C63_json_any_writer_case :
  map (fun n => snd (js_to_writer SliceWriter demo_fp HexStrByteEncoder (sl_new (repeat 0 n)) (STuple 2 [SInt U8 200; SCustom]))) [0; 3; 4; 5; 9]%nat
  = [Err (JWriter BufferFull); Err (JWriter BufferFull); Err (JWriter BufferFull); Err JSerializeError; Err JSerializeError].
Proof. vm_compute. reflexivity. Qed.

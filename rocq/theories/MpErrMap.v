(** Vocabulary used to state properties of the MessagePack serializers. *)
From Verif Require Import Prelude Utf8Spec SerdeSer MpSer MpSpec.

(** Change the writer's error inside a serializer error. *)
Definition err_map {E F} (f : E -> F) (e : mp_ser_error E) : mp_ser_error F :=
  match e with
  | MWriter e => MWriter (f e)
  | MMapLength => MMapLength | MSeqLength => MSeqLength | MStrLength => MStrLength
  | MDataLength => MDataLength | MFieldSkipped => MFieldSkipped | MFormatError => MFormatError
  | MSerializeError => MSerializeError | MPanic => MPanic
  end.

(** Which documented layout each serializer is meant to produce (ser.rs:18-30). *)
Definition style_of (fl : flavour) : style :=
  match fl with Compact => SArray | StructMapIdx => SIndexMap | StructMapStr => SNameMap end.

(** A well-formed call tree that serializes on its own. *)
Definition serializes (cfg : mp_cfg) (fl : flavour) (v : sval) : Prop :=
  sval_ok v /\ exists out, mp_to_vec cfg fl v = Ok out.

(** A struct field with a usable name whose value (if not skipped) serializes. *)
Definition field_ok cfg fl (f : bytes * option sval) : Prop :=
  valid_utf8 (fst f) /\ zlen (fst f) < 2 ^ 32 /\ forall v, snd f = Some v -> serializes cfg fl v.


(** Types that are written in one way by formats people read and in another by the others:
    they ask the [Serializer] and the [Deserializer] ([is_human_readable]) for the form to
    use, as the standard library's addresses do. *)
From Verif Require Import Prelude SerdeSer SerdeDe Types.

(** What the serializers answer: the three of MessagePack override serde's default
    (ser-write-msgpack/src/ser.rs:248-250), JSON has the default (serde's
    [Serializer::is_human_readable]; no override in ser-write-json/src/ser.rs). *)
Definition mp_human_readable : bool := false.
Definition js_human_readable : bool := true.

(** A [Serialize] impl that asks first; [h] the form for people, [c] the compact one. *)
Definition form_trace (human : bool) (h c : ty) (x : val * val) : sval :=
  if human then trace h (fst x) else trace c (snd x).
(** The [Deserialize] impl that goes with it. *)
Definition forms {E} (custom : E) (h c : ty) : deser val E :=
  DHuman (fun human => if human then denote custom h else denote custom c).
(** A vector of such values; [xs] has both forms of each. *)
Definition forms_seq_trace (human : bool) (h c : ty) (xs : list (val * val)) : sval :=
  SSeq (Some (zlen xs)) (map (form_trace human h c) xs).
Definition forms_seq {E} (custom : E) (h c : ty) : deser val E :=
  request DSeq (v_seq custom (SHint (fun _ => seq_loop (forms custom h c) []))).

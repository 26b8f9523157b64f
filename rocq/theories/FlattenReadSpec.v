(** Specification: what a struct with a flattened field is read from (C72). *)
From Verif Require Import Prelude SerdeSer FloatOps MpSpec Types MpTypeSpec JsonSpec JsonTypeSpec JsonDe BufferSpec FlattenEncSpec FlattenJsonSpec.

(** JSON: the other fields [l] come from their members, the flattened one is what its type
    makes of the members it takes (C75).  From [JsonDe] only the enumeration of the decoders
    is used. *)
Definition flat_from_doc (fo : float_ops) (f32_of f64_of : bytes -> option Z) (dec : byte_decoder) (any_f32 : bool)
    (fs : list (bytes * fattr * ty)) (g : ty) (l : list val) (w : val) (d : jv) : Prop :=
  exists ms rest got, d = JObj ms /\ flat_members f32_of f64_of dec any_f32 fs g (map (fun _ => None) fs) ms rest got /\
    all_fields fs got l /\ buf_as fo g w (UMap rest).

(** MessagePack: the same of the entries of a map; [ok] says what the flattened field may
    make of the entries it takes. *)
Definition flat_from (fo : float_ops) (fs : list (bytes * fattr * ty)) (g : ty) (ok : val -> Prop) (l : list val) (bs : bytes) : Prop :=
  exists n h b rest got cs, bs = h ++ b /\ map_hdr n h /\
    flat_map_enc (map name_of fs) (map (fun f => adm fo (snd f)) fs) g (map (fun _ => None) fs) rest n b got /\
    all_fields fs got l /\ denotes (VMap rest) (inl (UMap cs)) /\ ok (UMap cs).
(** The encodings of [l] and [w]. *)
Definition flat_takes (fo : float_ops) (fs : list (bytes * fattr * ty)) (g : ty) (l : list val) (w : val) (bs : bytes) : Prop :=
  flat_from fo fs g (fun c => no_number_keys c /\ buf_as fo g w c) l bs.
(** Where [l] and [w] may come from: the same, but nothing is said of what the flattened
    field makes of entries with numbers as keys. *)
Definition flat_got (fo : float_ops) (fs : list (bytes * fattr * ty)) (g : ty) (l : list val) (w : val) (bs : bytes) : Prop :=
  flat_from fo fs g (fun c => no_number_keys c -> buf_as fo g w c) l bs.

(** Specification: what adjacently tagged enums are read from (C71). *)
From Verif Require Import Prelude SerdeSer FloatOps MpSpec Types MpTypeSpec JsonSpec JsonTypeSpec JsonAnySpec BufferSpec AdjacentSpec.

(** A map in which the content comes before the tag; [ok] says what the variant may make of
    the value that the content denotes to a self-describing reader. *)
Inductive content_first (tag content : bytes) (vs : list (bytes * vkind * ty)) (i : nat) (ok : vkind * ty -> val -> Prop) : bytes -> Prop :=
| CF_map n k t n1 n2 n3 h o1 kc m c b o2 kt a o3 : nth_error vs i = Some (n, k, t) -> map_hdr (n1 + (1 + (n2 + (1 + n3)))) h ->
    others [tag; content] n1 o1 -> ident_enc [tag; content] 1 kc -> mp_fmt m b -> denotes m (inl c) ->
    others [tag; content] n2 o2 -> ident_enc [tag; content] 0 kt -> ident_enc (map name_of vs) i a ->
    others [tag; content] n3 o3 -> ok (k, t) c ->
    content_first tag content vs i ok (h ++ o1 ++ kc ++ b ++ o2 ++ kt ++ a ++ o3).

(** The encodings of variant [i] with the value [v]; a content before the tag is what C75
    makes of it. *)
Definition adjacent_takes (fo : float_ops) (tag content : bytes) (vs : list (bytes * vkind * ty)) (i : nat) (v : val) (bs : bytes) : Prop :=
  adjacent_enc fo tag content vs i v bs \/ content_first tag content vs i (fun f c => no_number_keys c /\ variant_as fo f v c) bs.
(** Where variant [i] with the value [v] may come from: the same, but nothing is said of what
    a variant makes of a content before the tag that has numbers as keys. *)
Definition adjacent_got (fo : float_ops) (tag content : bytes) (vs : list (bytes * vkind * ty)) (i : nat) (v : val) (bs : bytes) : Prop :=
  adjacent_enc fo tag content vs i v bs \/ content_first tag content vs i (fun f c => no_number_keys c -> variant_as fo f v c) bs.

(** The same for JSON documents, in which no key is a number. *)
Inductive content_first_doc (fo : float_ops) (any_f32 : bool) (float_of : bytes -> option Z) (tag content : bytes) (vs : list (bytes * vkind * ty)) (i : nat) (v : val) : jv -> Prop :=
| CD_object n k t o1 kc d c o2 kt a o3 : nth_error vs i = Some (n, k, t) -> Forall (other_member [tag; content]) (o1 ++ o2 ++ o3) ->
    literal kc content -> any_as any_f32 float_of c d -> literal kt tag -> literal a n -> variant_as fo (k, t) v c ->
    content_first_doc fo any_f32 float_of tag content vs i v (JObj (o1 ++ (kc, d) :: o2 ++ (kt, JStr a) :: o3)).

(** Specification: the encodings of a value of an adjacently tagged enum
    (C71).  Independent of the deserializer and serializers. *)
From Verif Require Import Prelude Utf8Spec SerdeSer SerdeDe MpSpec FloatOps Types MpTypeSpec JsonSpec JsonTypeSpec.

(** [n] entries that are neither the tag nor the content. *)
Inductive others (names : list bytes) : Z -> bytes -> Prop :=
| OT_nil : others names 0 []
| OT_cons n m k b rest : unknown_enc names k -> mp_fmt m b -> others names n rest -> others names (1 + n) (k ++ b ++ rest).

(** The content of a variant: nil for a unit variant, a map for a struct variant, and
    whatever encodes the value for the others. *)
Definition content_enc (fo : float_ops) (k : vkind) (t : ty) (v : val) (b : bytes) : Prop :=
  match k with
  | KUnit => v = UUnit /\ b = [0xc0]
  | KStruct => adm fo t v b /\ exists n h d, b = h ++ d /\ map_hdr n h
  | _ => adm fo t v b
  end.
(** Variants that may come without content. *)
Definition no_content (k : vkind) (t : ty) (v : val) : Prop :=
  match k with
  | KUnit => v = UUnit
  | KNewtype => v = UNone /\ exists t', t = TOption t'
  | _ => False
  end.

(** Variant [i] with the value [v]: an array of the tag and the content, or a map in which
    the tag comes before the content; other entries of the map are ignored. *)
Inductive adjacent_enc (fo : float_ops) (tag content : bytes) (vs : list (bytes * vkind * ty)) (i : nat) (v : val) : bytes -> Prop :=
| AE_array n k t h a b : nth_error vs i = Some (n, k, t) -> arr_hdr 2 h ->
    ident_enc (map name_of vs) i a -> content_enc fo k t v b -> adjacent_enc fo tag content vs i v (h ++ a ++ b)
| AE_map n k t n1 n2 n3 h o1 kt a o2 kc b o3 : nth_error vs i = Some (n, k, t) -> map_hdr (n1 + (1 + (n2 + (1 + n3)))) h ->
    others [tag; content] n1 o1 -> ident_enc [tag; content] 0 kt -> ident_enc (map name_of vs) i a ->
    others [tag; content] n2 o2 -> ident_enc [tag; content] 1 kc -> content_enc fo k t v b ->
    others [tag; content] n3 o3 ->
    adjacent_enc fo tag content vs i v (h ++ o1 ++ kt ++ a ++ o2 ++ kc ++ b ++ o3)
| AE_alone n k t n1 n2 h o1 kt a o2 : nth_error vs i = Some (n, k, t) -> map_hdr (n1 + (1 + n2)) h ->
    others [tag; content] n1 o1 -> ident_enc [tag; content] 0 kt -> ident_enc (map name_of vs) i a ->
    others [tag; content] n2 o2 -> no_content k t v -> adjacent_enc fo tag content vs i v (h ++ o1 ++ kt ++ a ++ o2).

(** What is wrong with the map of an adjacently tagged enum, up to the place where it shows:
    neither tag nor content; a tag that is no variant; no content where one is needed; an
    array or a map as the content of a unit variant, an array as that of a struct variant;
    the tag or the content twice; the content alone. *)
Inductive adjacent_fault (fo : float_ops) (tag content : bytes) (vs : list (bytes * vkind * ty)) : bytes -> Prop :=
| AF_empty n h o : map_hdr n h -> others [tag; content] n o -> adjacent_fault fo tag content vs (h ++ o)
| AF_variant n1 n h o1 kt a : map_hdr n h -> n1 < n -> others [tag; content] n1 o1 -> ident_enc [tag; content] 0 kt ->
    unknown_enc (map name_of vs) a -> adjacent_fault fo tag content vs (h ++ o1 ++ kt ++ a)
| AF_alone i n k t n1 n2 h o1 kt a o2 : nth_error vs i = Some (n, k, t) -> map_hdr (n1 + (1 + n2)) h ->
    others [tag; content] n1 o1 -> ident_enc [tag; content] 0 kt -> ident_enc (map name_of vs) i a ->
    others [tag; content] n2 o2 -> (forall v, ~ no_content k t v) -> adjacent_fault fo tag content vs (h ++ o1 ++ kt ++ a ++ o2)
| AF_kind i n k t n0 n1 n2 h o1 kt a o2 kc c x : nth_error vs i = Some (n, k, t) -> map_hdr n0 h -> n1 + 1 + n2 < n0 ->
    others [tag; content] n1 o1 -> ident_enc [tag; content] 0 kt -> ident_enc (map name_of vs) i a ->
    others [tag; content] n2 o2 -> ident_enc [tag; content] 1 kc ->
    k = KUnit /\ (arr_hdr x c \/ map_hdr x c) \/ k = KStruct /\ arr_hdr x c ->
    adjacent_fault fo tag content vs (h ++ o1 ++ kt ++ a ++ o2 ++ kc ++ c)
| AF_tag_again i n k t n0 n1 n2 h o1 kt a o2 kt' : nth_error vs i = Some (n, k, t) -> map_hdr n0 h -> n1 + 1 + n2 < n0 ->
    others [tag; content] n1 o1 -> ident_enc [tag; content] 0 kt -> ident_enc (map name_of vs) i a ->
    others [tag; content] n2 o2 -> ident_enc [tag; content] 0 kt' -> adjacent_fault fo tag content vs (h ++ o1 ++ kt ++ a ++ o2 ++ kt')
| AF_again i v n k t n0 n1 n2 n3 h o1 kt a o2 kc b o3 j ka : nth_error vs i = Some (n, k, t) -> map_hdr n0 h -> n1 + 1 + n2 + 1 + n3 < n0 ->
    others [tag; content] n1 o1 -> ident_enc [tag; content] 0 kt -> ident_enc (map name_of vs) i a ->
    others [tag; content] n2 o2 -> ident_enc [tag; content] 1 kc -> content_enc fo k t v b ->
    others [tag; content] n3 o3 -> ident_enc [tag; content] j ka ->
    adjacent_fault fo tag content vs (h ++ o1 ++ kt ++ a ++ o2 ++ kc ++ b ++ o3 ++ ka)
| AF_content_alone n1 n2 h o1 kc m w b o2 : map_hdr (n1 + (1 + n2)) h -> others [tag; content] n1 o1 -> ident_enc [tag; content] 1 kc ->
    mp_fmt m b -> denotes m (inl w) -> others [tag; content] n2 o2 -> adjacent_fault fo tag content vs (h ++ o1 ++ kc ++ b ++ o2)
| AF_content_again n0 n1 n2 h o1 kc m w b o2 kc' : map_hdr n0 h -> n1 + 1 + n2 < n0 -> others [tag; content] n1 o1 -> ident_enc [tag; content] 1 kc ->
    mp_fmt m b -> denotes m (inl w) -> others [tag; content] n2 o2 -> ident_enc [tag; content] 1 kc' ->
    adjacent_fault fo tag content vs (h ++ o1 ++ kc ++ b ++ o2 ++ kc').

(** The same for JSON documents; [reads t v d] says that [d] is a representation of [v]. *)
Section JsonDoc.
Context (reads : ty -> val -> jv -> Prop).
Definition other_member (names : list bytes) (m : bytes * jv) : Prop := exists s, literal (fst m) s /\ ~ In s names /\ skippable (snd m).
Definition content_doc (k : vkind) (t : ty) (v : val) (d : jv) : Prop :=
  match k with
  | KUnit => v = UUnit /\ d = JNull
  | KStruct => reads t v d /\ exists ms, d = JObj ms
  | _ => reads t v d
  end.
Inductive adjacent_doc (tag content : bytes) (vs : list (bytes * vkind * ty)) (i : nat) (v : val) : jv -> Prop :=
| AD_array n k t a d : nth_error vs i = Some (n, k, t) -> literal a n -> content_doc k t v d ->
    adjacent_doc tag content vs i v (JArr [JStr a; d])
| AD_object n k t o1 kt a o2 kc d o3 : nth_error vs i = Some (n, k, t) -> Forall (other_member [tag; content]) (o1 ++ o2 ++ o3) ->
    literal kt tag -> literal a n -> literal kc content -> content_doc k t v d ->
    adjacent_doc tag content vs i v (JObj (o1 ++ (kt, JStr a) :: o2 ++ (kc, d) :: o3))
| AD_alone n k t o1 kt a o2 : nth_error vs i = Some (n, k, t) -> Forall (other_member [tag; content]) (o1 ++ o2) ->
    literal kt tag -> literal a n -> no_content k t v ->
    adjacent_doc tag content vs i v (JObj (o1 ++ (kt, JStr a) :: o2)).
End JsonDoc.

(** Specification: the MessagePack maps a struct with a flattened field is read from, and
    those that are refused (C72).  From [MpDe] only the enumeration of the errors is used. *)
From Coq Require Import Permutation.
From Verif Require Import Prelude Utf8Spec SerdeSer FloatOps MpSpec MpDe Types MpTypeSpec MpFaultSpec MpAnyFaultSpec.

(** A key that is none of the other fields: a name, or any number an identifier may be. *)
Definition other_key (names : list bytes) (m : mpv) (k : bytes) : Prop :=
  (exists s, m = VStr s /\ valid_utf8 s /\ ~ In s names /\ str_enc s k) \/
  (exists z, m = VInt z /\ ident_int z k).
(** A flattened struct takes the entries named as its fields, a flattened map takes all. *)
Definition taken (g : ty) (m : mpv) : Prop :=
  match g, m with
  | TStruct gs, VStr s => In s (map name_of gs)
  | TMap _ _, _ => True
  | _, _ => False
  end.

(** The entries of a struct come in any order, those of a map are kept in theirs. *)
Definition same_pairs (g : ty) (a b : list (mpv * mpv)) : Prop :=
  match g with TStruct _ => Permutation a b | _ => a = b end.

(** The entries of the map, in any order: the other fields, by name; the entries [rest] of
    the flattened field; entries that are not taken.  [got]: the fields seen before, [got']:
    at the end. *)
Section Entries.
Context (names : list bytes) (ps : list (val -> bytes -> Prop)) (g : ty).
Inductive flat_map_enc : list (option val) -> list (mpv * mpv) -> Z -> bytes -> list (option val) -> Prop :=
| FE_nil got : flat_map_enc got [] 0 [] got
| FE_field got rest n i p v s k b bs got' :
    nth_error got i = Some None -> nth_error ps i = Some p -> nth_error names i = Some s -> str_enc s k -> p v b ->
    flat_map_enc (set_nth got i (Some v)) rest n bs got' ->
    flat_map_enc got rest (1 + n) (k ++ b ++ bs) got'
| FE_flat got rest n key m w k b bs got' :
    other_key names key k -> taken g key -> mp_fmt m b -> denotes m (inl w) ->
    flat_map_enc got rest n bs got' ->
    flat_map_enc got ((key, m) :: rest) (1 + n) (k ++ b ++ bs) got'
| FE_skip got rest n key m w k b bs got' :
    other_key names key k -> ~ taken g key -> mp_fmt m b -> denotes m (inl w) ->
    flat_map_enc got rest n bs got' ->
    flat_map_enc got rest (1 + n) (k ++ b ++ bs) got'.
End Entries.

Section Enc.
Context (fo : float_ops) (fs : list (bytes * fattr * ty)) (g : ty).
Local Notation flat := (flat_map_enc (map name_of fs) (map (fun f => adm fo (snd f)) fs) g (map (fun _ => None) fs)).
(** [l] the other fields, [w] the flattened one: the entries taken are the ones a map or a
    struct with fields by name is documented to be written as. *)
Definition flat_enc (st : style) (l : list val) (w : val) (bs : bytes) : Prop :=
  exists n h b rest got rest', bs = h ++ b /\ map_hdr n h /\ flat rest n b got /\ all_fields fs got l /\
    mp_doc st (trace g w) = Some (VMap rest') /\ same_pairs g rest rest'.

(** [flat_fault bs e]: the first fault is at the end of [bs]; whatever comes after, the error is [e]. *)
Inductive flat_fault : bytes -> mp_de_error -> Prop :=
| FF_kind c : is_byte c -> family_of c <> FMap -> flat_fault [c] ExpectedMap
| FF_key n h m rest bs got k e : map_hdr n h -> m < n -> flat rest m bs got -> key_fault k e -> flat_fault (h ++ bs ++ k) e
| FF_again n h m rest bs got i v s k : map_hdr n h -> m < n -> flat rest m bs got ->
    nth_error got i = Some (Some v) -> nth_error (map name_of fs) i = Some s -> str_enc s k ->
    flat_fault (h ++ bs ++ k) DeserializeError
| FF_value n h m rest bs got i f k b e : map_hdr n h -> m < n -> flat rest m bs got ->
    nth_error fs i = Some f -> nth_error got i = Some None -> str_enc (name_of f) k -> mp_fault fo (snd f) b e ->
    flat_fault (h ++ bs ++ k ++ b) e
| FF_other n h m rest bs got key k b e : map_hdr n h -> m < n -> flat rest m bs got ->
    other_key (map name_of fs) key k -> any_fault b e -> flat_fault (h ++ bs ++ k ++ b) e
| FF_missing n h rest bs got i f : map_hdr n h -> flat rest n bs got ->
    nth_error fs i = Some f -> nth_error got i = Some None -> attr_of f = FPlain -> (forall t, snd f <> TOption t) ->
    flat_fault (h ++ bs) DeserializeError
| FF_flat_missing n h rest bs got gs f : map_hdr n h -> flat rest n bs got ->
    g = TStruct gs -> In f gs -> (forall m, ~ In (VStr (name_of f), m) rest) -> attr_of f = FPlain -> (forall t, snd f <> TOption t) ->
    flat_fault (h ++ bs) DeserializeError
| FF_flat_again n h rest bs got gs f a b c m m' : map_hdr n h -> flat rest n bs got ->
    g = TStruct gs -> In f gs -> rest = a ++ (VStr (name_of f), m) :: b ++ (VStr (name_of f), m') :: c ->
    flat_fault (h ++ bs) DeserializeError.
End Enc.

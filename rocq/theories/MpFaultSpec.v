(** Specification: which error each kind of fault in a MessagePack input should give
    (C57).  From [MpDe] only the enumeration of the errors is used. *)
From Verif Require Import Prelude Utf8Spec SerdeSer SerdeDe MpSpec FloatOps Types MpTypeSpec MpDe.

(** The format table of the MessagePack specification, by first byte. *)
Inductive family := FNil | FReserved | FBool | FInt | FFloat | FStr | FBin | FArr | FMap | FExt.
Definition family_of (c : Z) : family :=
  if c <=? 0x7f then FInt else if c <=? 0x8f then FMap else if c <=? 0x9f then FArr else if c <=? 0xbf then FStr
  else if c =? 0xc0 then FNil else if c =? 0xc1 then FReserved else if c <=? 0xc3 then FBool else if c <=? 0xc6 then FBin
  else if c <=? 0xc9 then FExt else if c <=? 0xcb then FFloat else if c <=? 0xd3 then FInt else if c <=? 0xd8 then FExt
  else if c <=? 0xdb then FStr else if c <=? 0xdd then FArr else if c <=? 0xdf then FMap else FInt.

(** The family of a value, to check the table against the grammar of [MpSpec]. *)
Definition family_of_value (m : mpv) : family :=
  match m with
  | VNil => FNil | VBool _ => FBool | VInt _ => FInt | VF32 _ | VF64 _ => FFloat | VStr _ => FStr | VBin _ => FBin
  | VArr _ => FArr | VMap _ => FMap | VExt _ _ => FExt
  end.

(** Identifiers are strings or unsigned numbers of at most 32 bits. *)
Definition ident_start (c : Z) : bool :=
  match family_of c with FStr => true | FInt => (c <=? 0x7f) || (c =? 0xcc) || (c =? 0xcd) || (c =? 0xce) | _ => false end.

(** [refuses t c = Some e]: nothing that begins with [c] is a [t]; [e] says so. *)
Fixpoint refuses (t : ty) (c : Z) : option mp_de_error :=
  match t with
  | TBool => match family_of c with FBool => None | _ => Some InvalidType end
  | TInt _ => match family_of c with FInt => None | _ => Some ExpectedInteger end
  | TF32 | TF64 => match family_of c with FInt | FFloat | FNil => None | _ => Some ExpectedNumber end
  | TChar | TStr => match family_of c with FStr => None | _ => Some ExpectedString end
  | TBytes => match family_of c with FBin => None | _ => Some ExpectedBin end
  | TUnit | TUnitStruct => match family_of c with FNil => None | _ => Some ExpectedNil end
  | TOption t => match family_of c with FNil => None | _ => refuses t c end
  | TNewtype t => refuses t c
  | TSeq _ | TTuple _ | TTupleStruct _ => match family_of c with FArr => None | _ => Some ExpectedArray end
  | TMap _ _ => match family_of c with FMap => None | _ => Some ExpectedMap end
  | TStruct _ => match family_of c with FArr | FMap => None | _ => Some ExpectedStruct end
  | TEnum _ => if (c =? 0x81) || ident_start c then None else Some ExpectedIdentifier
  end.

(** [mp_fault t bs e]: reading a [t], the first fault is at the end of [bs]; whatever
    comes after [bs], the error is [e].  [DeserializeError] stands for the errors of
    serde's own code (wrong length of a tuple, duplicate or missing field, unknown
    variant). *)
(** A faulty key or variant name: neither a string nor a number, or not UTF-8. *)
Inductive key_fault : bytes -> mp_de_error -> Prop :=
| K_kind c : is_byte c -> ident_start c = false -> key_fault [c] ExpectedIdentifier
| K_utf8 s bs : all_bytes s -> ~ valid_utf8 s -> str_enc s bs -> key_fault bs InvalidUnicodeCodePoint.

(** A message that is skipped has but one fault: the reserved code. *)
Inductive skip_fault : bytes -> Prop :=
| S_here : skip_fault [0xc1]
| S_arr n h l bs b : arr_hdr n h -> zlen l < n -> mp_fmt_list l bs -> skip_fault b -> skip_fault (h ++ bs ++ b)
| S_key n h l bs b : map_hdr n h -> zlen l < n -> mp_fmt_pairs l bs -> skip_fault b -> skip_fault (h ++ bs ++ b)
| S_value n h l bs m a b : map_hdr n h -> zlen l < n -> mp_fmt_pairs l bs -> mp_fmt m a -> skip_fault b -> skip_fault (h ++ bs ++ a ++ b).

Section Fault.
Context (fo : float_ops).
Local Notation adm := (adm fo).
Local Notation each ts l := (zip (fun (p : val -> bytes -> Prop) v => p v) (map adm ts) l).
Local Notation eachf fs l := (zip (fun (p : val -> bytes -> Prop) v => p v) (map (fun f => adm (snd f)) fs) l).

Inductive mp_fault : ty -> bytes -> mp_de_error -> Prop :=
(* the kind, the range, the text *)
| X_kind t c e : is_byte c -> refuses t c = Some e -> mp_fault t [c] e
| X_range k z bs : int_fmt z bs -> ~ in_ikind k z -> mp_fault (TInt k) bs InvalidInteger
| X_utf8 t s bs : t = TChar \/ t = TStr -> all_bytes s -> ~ valid_utf8 s -> str_enc s bs -> mp_fault t bs InvalidUnicodeCodePoint
| X_char s bs : valid_utf8 s -> (forall c, is_scalar c -> s <> utf8_char c) -> str_enc s bs -> mp_fault TChar bs InvalidLength
| X_some t c bs e : c <> 0xc0 -> mp_fault t (c :: bs) e -> mp_fault (TOption t) (c :: bs) e
| X_newtype t bs e : mp_fault t bs e -> mp_fault (TNewtype t) bs e
(* sequences and tuples: an element; too few; too many *)
| X_seq t n h l bs b e : arr_hdr n h -> zlen l < n -> seq_enc (map (adm t) l) bs -> mp_fault t b e ->
    mp_fault (TSeq t) (h ++ bs ++ b) e
| X_elem T ts1 t ts2 n h l bs b e : T = TTuple \/ T = TTupleStruct ->
    arr_hdr n h -> zlen ts1 < n -> length l = length ts1 -> seq_enc (each ts1 l) bs -> mp_fault t b e ->
    mp_fault (T (ts1 ++ t :: ts2)) (h ++ bs ++ b) e
| X_few T ts1 t ts2 h l bs : T = TTuple \/ T = TTupleStruct ->
    arr_hdr (zlen ts1) h -> length l = length ts1 -> seq_enc (each ts1 l) bs ->
    mp_fault (T (ts1 ++ t :: ts2)) (h ++ bs) DeserializeError
| X_many T ts n h l bs : T = TTuple \/ T = TTupleStruct ->
    arr_hdr n h -> zlen ts < n -> length l = length ts -> seq_enc (each ts l) bs ->
    mp_fault (T ts) (h ++ bs) TrailingElements
(* maps: a key; a value *)
| X_key k v n h l bs b e : map_hdr n h -> zlen l < n ->
    seq_enc (map (fun x b => exists p q, b = p ++ q /\ adm k (fst x) p /\ adm v (snd x) q) l) bs -> mp_fault k b e ->
    mp_fault (TMap k v) (h ++ bs ++ b) e
| X_value k v n h l bs u a b e : map_hdr n h -> zlen l < n ->
    seq_enc (map (fun x b => exists p q, b = p ++ q /\ adm k (fst x) p /\ adm v (snd x) q) l) bs -> adm k u a -> mp_fault v b e ->
    mp_fault (TMap k v) (h ++ bs ++ a ++ b) e
(* structs as arrays *)
| X_field fs1 f fs2 n h l bs b e : arr_hdr n h -> zlen fs1 < n -> length l = length fs1 -> seq_enc (eachf fs1 l) bs ->
    mp_fault (snd f) b e -> mp_fault (TStruct (fs1 ++ f :: fs2)) (h ++ bs ++ b) e
| X_fields_few fs1 ds f fs2 h l bs : arr_hdr (zlen fs1) h -> length l = length fs1 -> seq_enc (eachf fs1 l) bs ->
    Forall (fun f => attr_of f <> FPlain) ds -> attr_of f = FPlain ->
    mp_fault (TStruct (fs1 ++ ds ++ f :: fs2)) (h ++ bs) DeserializeError
| X_fields_many fs n h l bs : arr_hdr n h -> zlen fs < n -> length l = length fs -> seq_enc (eachf fs l) bs ->
    mp_fault (TStruct fs) (h ++ bs) TrailingElements
(* structs as maps: the key; the value; the same field twice; a field missing *)
| X_field_key fs n h m bs got k e : map_hdr n h -> m < n ->
    entries (map name_of fs) (map (fun f => adm (snd f)) fs) (map (fun _ => None) fs) m bs got ->
    key_fault k e -> mp_fault (TStruct fs) (h ++ bs ++ k) e
| X_field_skip fs n h m bs got k b : map_hdr n h -> m < n ->
    entries (map name_of fs) (map (fun f => adm (snd f)) fs) (map (fun _ => None) fs) m bs got ->
    unknown_enc (map name_of fs) k -> skip_fault b -> mp_fault (TStruct fs) (h ++ bs ++ k ++ b) ReservedCode
| X_field_value fs n h m bs got i f k b e : map_hdr n h -> m < n ->
    entries (map name_of fs) (map (fun f => adm (snd f)) fs) (map (fun _ => None) fs) m bs got ->
    nth_error fs i = Some f -> nth_error got i = Some None -> ident_enc (map name_of fs) i k -> mp_fault (snd f) b e ->
    mp_fault (TStruct fs) (h ++ bs ++ k ++ b) e
| X_field_again fs n h m bs got i v k : map_hdr n h -> m < n ->
    entries (map name_of fs) (map (fun f => adm (snd f)) fs) (map (fun _ => None) fs) m bs got ->
    nth_error got i = Some (Some v) -> ident_enc (map name_of fs) i k ->
    mp_fault (TStruct fs) (h ++ bs ++ k) DeserializeError
| X_field_missing fs n h bs got i f : map_hdr n h ->
    entries (map name_of fs) (map (fun f => adm (snd f)) fs) (map (fun _ => None) fs) n bs got ->
    nth_error fs i = Some f -> nth_error got i = Some None -> attr_of f = FPlain -> (forall t, snd f <> TOption t) ->
    mp_fault (TStruct fs) (h ++ bs) DeserializeError
(* enums: the identifier; an unknown variant; data where there is none and the
   other way round; the content *)
| X_variant vs c k e : c <> 0x81 -> key_fault (c :: k) e -> mp_fault (TEnum vs) (c :: k) e
| X_variant_data vs k e : key_fault k e -> mp_fault (TEnum vs) (0x81 :: k) e
| X_unknown vs k : unknown_enc (map name_of vs) k -> mp_fault (TEnum vs) k DeserializeError
| X_unknown_data vs k : unknown_enc (map name_of vs) k -> mp_fault (TEnum vs) (0x81 :: k) DeserializeError
| X_no_data vs i f k : nth_error vs i = Some f -> attr_of f <> KUnit -> ident_enc (map name_of vs) i k ->
    mp_fault (TEnum vs) k InvalidType
| X_data vs i f k : nth_error vs i = Some f -> attr_of f = KUnit -> ident_enc (map name_of vs) i k ->
    mp_fault (TEnum vs) (0x81 :: k) InvalidType
| X_content vs i f k b e : nth_error vs i = Some f -> attr_of f <> KUnit -> ident_enc (map name_of vs) i k -> mp_fault (snd f) b e ->
    mp_fault (TEnum vs) (0x81 :: k ++ b) e.
End Fault.

(** Specification: the faults of structs that refuse unknown fields, in MessagePack
    (C77).  From [MpDe] only the enumeration of the errors is used. *)
From Verif Require Import Prelude SerdeSer FloatOps MpSpec MpErrMap Types MpTypeSpec MpFaultSpec DenySpec MpDe.

Inductive deny_fault (fo : float_ops) : list (bytes * fattr * ty) -> bytes -> mp_de_error -> Prop :=
(* the kind *)
| D_kind fs c : is_byte c -> refuses (TStruct fs) c = Some ExpectedStruct -> deny_fault fo fs [c] ExpectedStruct
(* arrays: an element; too few; too many *)
| D_field fs1 f fs2 n h l bs b e : arr_hdr n h -> zlen fs1 < n -> length l = length fs1 ->
    seq_enc (zip (fun (p : val -> bytes -> Prop) v => p v) (map (fun f => adm fo (snd f)) fs1) l) bs ->
    mp_fault fo (snd f) b e -> deny_fault fo (fs1 ++ f :: fs2) (h ++ bs ++ b) e
| D_few fs1 ds f fs2 h l bs : arr_hdr (zlen fs1) h -> length l = length fs1 ->
    seq_enc (zip (fun (p : val -> bytes -> Prop) v => p v) (map (fun f => adm fo (snd f)) fs1) l) bs ->
    Forall (fun f => attr_of f <> FPlain) ds -> attr_of f = FPlain -> deny_fault fo (fs1 ++ ds ++ f :: fs2) (h ++ bs) DeserializeError
| D_many fs n h l bs : arr_hdr n h -> zlen fs < n -> length l = length fs ->
    seq_enc (zip (fun (p : val -> bytes -> Prop) v => p v) (map (fun f => adm fo (snd f)) fs) l) bs -> deny_fault fo fs (h ++ bs) TrailingElements
(* maps: what cannot be a key; an unknown key; the value; the same field twice; a field missing *)
| D_key fs n h m bs got k e : map_hdr n h -> m < n ->
    known_entries (map name_of fs) (map (fun f => adm fo (snd f)) fs) (map (fun _ => None) fs) m bs got ->
    key_fault k e -> deny_fault fo fs (h ++ bs ++ k) e
| D_unknown fs bs : deny_unknown fo fs bs -> deny_fault fo fs bs DeserializeError
| D_value fs n h m bs got i f k b e : map_hdr n h -> m < n ->
    known_entries (map name_of fs) (map (fun f => adm fo (snd f)) fs) (map (fun _ => None) fs) m bs got ->
    nth_error fs i = Some f -> nth_error got i = Some None -> ident_enc (map name_of fs) i k -> mp_fault fo (snd f) b e ->
    deny_fault fo fs (h ++ bs ++ k ++ b) e
| D_again fs n h m bs got i v k : map_hdr n h -> m < n ->
    known_entries (map name_of fs) (map (fun f => adm fo (snd f)) fs) (map (fun _ => None) fs) m bs got ->
    nth_error got i = Some (Some v) -> ident_enc (map name_of fs) i k -> deny_fault fo fs (h ++ bs ++ k) DeserializeError
| D_missing fs n h bs got i f : map_hdr n h ->
    known_entries (map name_of fs) (map (fun f => adm fo (snd f)) fs) (map (fun _ => None) fs) n bs got ->
    nth_error fs i = Some f -> nth_error got i = Some None -> attr_of f = FPlain -> (forall t, snd f <> TOption t) ->
    deny_fault fo fs (h ++ bs) DeserializeError.

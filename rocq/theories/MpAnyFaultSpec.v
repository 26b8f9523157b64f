(** What is wrong with an input [deserialize_any] cannot finish decoding (C59).
    Independent of the deserializer; only the type of errors is shared with it. *)
From Verif Require Import Prelude Utf8Spec SerdeDe MpSpec MpDe Types MpTypeSpec MpFaultSpec.

(** [any_fault bs e]: reading the input [bs ++ ...] as a message of whatever format the
    first byte announces, [bs] ends with the first part no value is made of, and [e] is
    its name.  Nothing is said about what follows: the input may well end there. *)
Inductive any_fault : bytes -> mp_de_error -> Prop :=
(* the code the format never uses *)
| Y_reserved : any_fault [0xc1] ReservedCode
(* an extension: its first byte suffices *)
| Y_ext c : is_byte c -> family_of c = FExt -> any_fault [c] UnsupportedExt
(* a whole string, but not UTF-8 *)
| Y_utf8 s bs : all_bytes s -> ~ valid_utf8 s -> str_enc s bs -> any_fault bs InvalidUnicodeCodePoint
(* an array of [n]: [l] read, the next at fault *)
| Y_elem n h l vs bs b e : arr_hdr n h -> zlen l < n -> mp_fmt_list l bs -> denotes_list l (inl vs) -> any_fault b e ->
    any_fault (h ++ bs ++ b) e
(* a map of [n]: [l] read, the next key at fault *)
| Y_key n h l vs bs b e : map_hdr n h -> zlen l < n -> mp_fmt_pairs l bs -> denotes_pairs l (inl vs) -> any_fault b e ->
    any_fault (h ++ bs ++ b) e
(* the next key read too, its value at fault *)
| Y_value n h l vs bs m v a b e : map_hdr n h -> zlen l < n -> mp_fmt_pairs l bs -> denotes_pairs l (inl vs) ->
    mp_fmt m a -> denotes m (inl v) -> any_fault b e -> any_fault (h ++ bs ++ a ++ b) e.

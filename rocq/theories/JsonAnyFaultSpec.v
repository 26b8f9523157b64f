(** Specification: which error each kind of fault in a JSON input should give when the
    input is read by a self-describing type (C59).  From [JsonDe] only the enumeration of
    the errors is used. *)
From Verif Require Import Prelude Utf8Spec SerdeSer MpSpec Base64Spec JsonSpec JsonTypeSpec JsonAnySpec JsonFaultSpec Types MpTypeSpec JsonDe.

Section AnyFault.
Context (any_f32 : bool) (float_of : bytes -> option Z).

(** Any value is read from [l] and [k] is left. *)
Definition holds (l k : bytes) : Prop :=
  exists w d b v, l = w ++ b ++ k /\ any_ws w /\ loose_text d b /\ any_as any_f32 float_of v d /\ cannot_extend d k.
Definition holds_member (l k : bytes) : Prop :=
  exists raw s m r, l = 34 :: raw ++ 34 :: m /\ literal raw s /\ begins m 58 r /\ holds r k.

Inductive any_fault : bytes -> js_de_error -> Prop :=
| Y_end l : any_ws l -> any_fault l JUnexpectedEof
| Y_kind l c r : begins l c r -> ~ value_start c -> any_fault l JUnexpectedChar
| Y_null l r e : begins l 110 r -> word_fault ull r e -> any_fault l e
| Y_true l r e : begins l 116 r -> word_fault rue r e -> any_fault l e
| Y_false l r e : begins l 102 r -> word_fault alse r e -> any_fault l e
| Y_str l r e : begins l 34 r -> text_fault r e -> any_fault l e
(* the longest run of number characters stands for no number *)
| Y_num l c r tok k : begins l c r -> is_digit c \/ c = 45 -> c :: r = tok ++ k -> number_run tok -> cannot_extend (JNum tok) k ->
    (forall v, ~ number_as any_f32 float_of v tok) -> any_fault l JInvalidNumber
| Y_arr_gap l r n first k e : begins l 91 r -> walk 93 true (repeat holds n) r first k -> array_gap first k e -> any_fault l e
| Y_arr l r n first k x e : begins l 91 r -> walk 93 true (repeat holds n) r first k -> item 93 first k x -> any_fault x e ->
    any_fault l e
| Y_obj_gap l r n first k e : begins l 123 r -> walk 125 true (repeat holds_member n) r first k -> object_gap first k e -> any_fault l e
| Y_obj_key l r n first k c q : begins l 123 r -> walk 125 true (repeat holds_member n) r first k -> item 125 first k (c :: q) ->
    c <> 34 -> any_fault l JKeyMustBeAString
| Y_obj_text l r n first k q e : begins l 123 r -> walk 125 true (repeat holds_member n) r first k -> item 125 first k (34 :: q) ->
    text_fault q e -> any_fault l e
| Y_obj_colon l r n first k raw s m e : begins l 123 r -> walk 125 true (repeat holds_member n) r first k ->
    item 125 first k (34 :: raw ++ 34 :: m) -> literal raw s -> colon_fault m e -> any_fault l e
| Y_obj_value l r n first k raw s m x e : begins l 123 r -> walk 125 true (repeat holds_member n) r first k ->
    item 125 first k (34 :: raw ++ 34 :: m) -> literal raw s -> begins m 58 x -> any_fault x e -> any_fault l e.

(** A whole document: a fault in the value, or something after it. *)
Definition any_document_fault (l : bytes) (e : js_de_error) : Prop :=
  any_fault l e \/ (e = JTrailingCharacters /\ exists k, holds l k /\ ~ any_ws k).
End AnyFault.

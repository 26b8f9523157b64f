(** Specification: which JSON objects are refused as adjacently tagged enums, and with which
    error (C71).  From [JsonDe] only the enumerations of the errors and of the decoders are used. *)
From Verif Require Import Prelude Utf8Spec SerdeSer MpSpec Base64Spec JsonSpec JsonTypeSpec JsonAnySpec JsonFaultSpec JsonAnyFaultSpec Types MpTypeSpec FloatOps AdjacentSpec JsonDe.

Section Fault.
Context (f32_of f64_of : bytes -> option Z) (dec : byte_decoder) (any_f32 : bool).
Local Notation takes := (takes f32_of f64_of dec).
Local Notation js_fault := (js_fault f32_of f64_of dec).
Local Notation any_of := (if any_f32 then f32_of else f64_of).
Local Notation holds := (holds any_f32 any_of).
Local Notation any_fault := (any_fault any_f32 any_of).

(** Members with other keys than [names]; the first starts the object if [first]. *)
Inductive others_in (names : list bytes) : bool -> bytes -> bool -> bytes -> Prop :=
| OI_none first l : others_in names first l first l
| OI_more first l raw s m r y first' k : item 125 first l (34 :: raw ++ 34 :: m) -> literal raw s -> ~ In s names ->
    begins m 58 r -> skips r y -> others_in names false y first' k -> others_in names first l first' k.
(** After such members: the key [n], with [m] behind it; the closing brace; a fault. *)
Definition key_next (names : list bytes) (n : bytes) (first : bool) (l m : bytes) : Prop :=
  exists first' k raw, others_in names first l first' k /\ item 125 first' k (34 :: raw ++ 34 :: m) /\ literal raw n.
Definition no_key_next (names : list bytes) (first : bool) (l : bytes) : Prop :=
  exists first' k r, others_in names first l first' k /\ begins k 125 r.
Inductive key_next_fault (names : list bytes) (first : bool) (l : bytes) : js_de_error -> Prop :=
| KF_gap first' k e : others_in names first l first' k -> object_gap first' k e -> key_next_fault names first l e
| KF_key first' k c q : others_in names first l first' k -> item 125 first' k (c :: q) -> c <> 34 -> key_next_fault names first l JKeyMustBeAString
| KF_text first' k q e : others_in names first l first' k -> item 125 first' k (34 :: q) -> text_fault q e -> key_next_fault names first l e
| KF_colon first' k raw s m e : others_in names first l first' k -> item 125 first' k (34 :: raw ++ 34 :: m) -> literal raw s -> ~ In s names ->
    colon_fault m e -> key_next_fault names first l e
| KF_skip first' k raw s m x e : others_in names first l first' k -> item 125 first' k (34 :: raw ++ 34 :: m) -> literal raw s -> ~ In s names ->
    begins m 58 x -> skip_fault x e -> key_next_fault names first l e.

(** The content of a variant: unit variants need a null, struct variants an object. *)
Definition content_takes (k : vkind) (t : ty) (v : val) (l r : bytes) : Prop :=
  match k with
  | KUnit => v = UUnit /\ begins l 110 (ull ++ r)
  | KStruct => takes t v l r /\ exists q, begins l 123 q
  | _ => takes t v l r
  end.
Inductive content_fault (k : vkind) (t : ty) : bytes -> js_de_error -> Prop :=
| CX_end l : any_ws l -> k = KUnit \/ k = KStruct -> content_fault k t l JUnexpectedEof
| CX_start l c r : begins l c r -> ~ value_start c -> k = KUnit \/ k = KStruct -> content_fault k t l JUnexpectedChar
| CX_array l r : begins l 91 r -> k = KUnit \/ k = KStruct -> content_fault k t l JDeserializeError
| CX_text l raw s r : begins l 34 (raw ++ 34 :: r) -> literal raw s -> k = KUnit \/ k = KStruct -> content_fault k t l JDeserializeError
| CX_object l r : begins l 123 r -> k = KUnit -> content_fault k t l JDeserializeError
| CX_null l r : begins l 110 (ull ++ r) -> k = KStruct -> content_fault k t l JDeserializeError
| CX_struct l r e : begins l 123 r -> k = KStruct -> js_fault t l e -> content_fault k t l e
| CX_value l e : k = KNewtype \/ k = KTuple -> js_fault t l e -> content_fault k t l e.

Context (tag content : bytes) (vs : list (bytes * vkind * ty)).
Local Notation names := [tag; content].
Local Notation tags := (TEnum (map (fun f : bytes * vkind * ty => (name_of f, KUnit, TUnit)) vs)).

(** A member that counts is read and its value fails, or leaves [y]. *)
Definition tag_next (first : bool) (l : bytes) (i : nat) (y : bytes) : Prop :=
  exists m x, key_next names tag first l m /\ begins m 58 x /\ takes tags (UVar i UUnit) x y.
Inductive tag_next_fault (first : bool) (l : bytes) (e : js_de_error) : Prop :=
| TN_colon m : key_next names tag first l m -> colon_fault m e -> tag_next_fault first l e
| TN_value m x : key_next names tag first l m -> begins m 58 x -> js_fault tags x e -> tag_next_fault first l e.
Definition content_next (k : vkind) (t : ty) (l y : bytes) : Prop :=
  exists m x v, key_next names content false l m /\ begins m 58 x /\ content_takes k t v x y.
Definition buffer_next (l y : bytes) : Prop :=
  exists m x, key_next names content true l m /\ begins m 58 x /\ holds x y.

Inductive adjacent_js_fault (l : bytes) : js_de_error -> Prop :=
| AJ_end : any_ws l -> adjacent_js_fault l JUnexpectedEof
| AJ_kind c r : begins l c r -> c <> 123 -> c <> 91 -> adjacent_js_fault l JExpectedStruct
(* neither tag nor content *)
| AJ_first r e : begins l 123 r -> key_next_fault names true r e -> adjacent_js_fault l e
| AJ_none r : begins l 123 r -> no_key_next names true r -> adjacent_js_fault l JDeserializeError
(* the tag first *)
| AJ_tag r e : begins l 123 r -> tag_next_fault true r e -> adjacent_js_fault l e
| AJ_after r i y e : begins l 123 r -> tag_next true r i y -> key_next_fault names false y e -> adjacent_js_fault l e
| AJ_alone r i n k t y : begins l 123 r -> nth_error vs i = Some (n, k, t) -> tag_next true r i y -> no_key_next names false y ->
    (forall v, ~ no_content k t v) -> adjacent_js_fault l JDeserializeError
| AJ_tag_again r i y m : begins l 123 r -> tag_next true r i y -> key_next names tag false y m -> adjacent_js_fault l JDeserializeError
| AJ_content_colon r i y m e : begins l 123 r -> tag_next true r i y -> key_next names content false y m -> colon_fault m e ->
    adjacent_js_fault l e
| AJ_content r i n k t y m x e : begins l 123 r -> nth_error vs i = Some (n, k, t) -> tag_next true r i y -> key_next names content false y m ->
    begins m 58 x -> content_fault k t x e -> adjacent_js_fault l e
| AJ_last r i n k t y z e : begins l 123 r -> nth_error vs i = Some (n, k, t) -> tag_next true r i y -> content_next k t y z ->
    key_next_fault names false z e -> adjacent_js_fault l e
| AJ_again r i n k t y z m a : begins l 123 r -> nth_error vs i = Some (n, k, t) -> tag_next true r i y -> content_next k t y z ->
    In a names -> key_next names a false z m -> adjacent_js_fault l JDeserializeError
(* the content first *)
| AJ_buffer_colon r m e : begins l 123 r -> key_next names content true r m -> colon_fault m e -> adjacent_js_fault l e
| AJ_buffer r m x e : begins l 123 r -> key_next names content true r m -> begins m 58 x -> any_fault x e -> adjacent_js_fault l e
| AJ_buffer_after r y e : begins l 123 r -> buffer_next r y -> key_next_fault names false y e -> adjacent_js_fault l e
| AJ_buffer_alone r y : begins l 123 r -> buffer_next r y -> no_key_next names false y -> adjacent_js_fault l JDeserializeError
| AJ_buffer_again r y m : begins l 123 r -> buffer_next r y -> key_next names content false y m -> adjacent_js_fault l JDeserializeError
| AJ_buffer_tag r y e : begins l 123 r -> buffer_next r y -> tag_next_fault false y e -> adjacent_js_fault l e.
End Fault.

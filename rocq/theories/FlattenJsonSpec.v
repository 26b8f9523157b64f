(** Specification: the JSON objects a struct with a flattened field is read from, and those
    that are refused (C72).  From [JsonDe] only the enumerations of the errors and of the
    decoders are used. *)
From Coq Require Import Permutation.
From Verif Require Import Prelude Utf8Spec SerdeSer MpSpec Base64Spec JsonSpec JsonTypeSpec JsonAnySpec JsonFaultSpec JsonAnyFaultSpec Types MpTypeSpec FloatOps JsonDe.

(** A flattened struct takes the members named as its fields, a flattened map takes all. *)
Definition takes_name (g : ty) (s : bytes) : Prop :=
  match g with TStruct gs => In s (map name_of gs) | TMap _ _ => True | _ => False end.
(** The members of a struct come in any order, the entries of a map are kept in theirs. *)
Definition same_entries (g : ty) (a b : list (val * val)) : Prop :=
  match g with TStruct _ => Permutation a b | _ => a = b end.
(** A field that has to be there. *)
Definition needed (f : bytes * fattr * ty) : Prop := attr_of f = FPlain /\ forall t, snd f <> TOption t.

Section Flat.
Context (f32_of f64_of : bytes -> option Z) (dec : byte_decoder) (any_f32 : bool) (fs : list (bytes * fattr * ty)) (g : ty).
Local Notation any_of := (if any_f32 then f32_of else f64_of).
Local Notation reads := (reads_as any_ws f32_of f64_of (byte_literal dec)).
Local Notation takes := (takes f32_of f64_of dec).
Local Notation js_fault := (js_fault f32_of f64_of dec).
Local Notation holds := (holds any_f32 any_of).
Local Notation any_fault := (any_fault any_f32 any_of).
Local Notation names := (map name_of fs).

(** The members in any order: the other fields; those the flattened field takes, as the
    self-describing entries [rest]; those it does not take.  [got]: the fields seen before,
    [got']: at the end. *)
Inductive flat_members : list (option val) -> list (bytes * jv) -> list (val * val) -> list (option val) -> Prop :=
| FD_nil got : flat_members got [] [] got
| FD_field got i f v raw d ms rest got' : nth_error got i = Some None -> nth_error fs i = Some f -> literal raw (name_of f) ->
    reads (snd f) v d -> flat_members (set_nth got i (Some v)) ms rest got' -> flat_members got ((raw, d) :: ms) rest got'
| FD_flat got s u raw d ms rest got' : literal raw s -> ~ In s names -> takes_name g s -> any_as any_f32 any_of u d ->
    flat_members got ms rest got' -> flat_members got ((raw, d) :: ms) ((UStr s, u) :: rest) got'
| FD_skip got s u raw d ms rest got' : literal raw s -> ~ In s names -> ~ takes_name g s -> any_as any_f32 any_of u d ->
    flat_members got ms rest got' -> flat_members got ((raw, d) :: ms) rest got'.
(** [l] the other fields, [w] the flattened one, which is documented to be written as the
    members [jg]: what was taken stands for the same. *)
Definition flat_doc (doc : val -> option jv) (l : list val) (w : val) (d : jv) : Prop :=
  exists ms rest got jg rest', d = JObj ms /\ flat_members (map (fun _ => None) fs) ms rest got /\ all_fields fs got l /\
    doc w = Some (JObj jg) /\ value_as any_f32 any_of (UMap rest') (JObj jg) /\ same_entries g rest rest'.

(** ** Faults *)
(** Some members, [keys] the names of those that are no fields, and what is left after them. *)
Inductive takes_flat : list (option val) -> bool -> bytes -> list bytes -> list (option val) -> bool -> bytes -> Prop :=
| XF_nil got first l : takes_flat got first l [] got first l
| XF_field got first l i f v raw m x y keys got' first' k :
    item 125 first l (34 :: raw ++ 34 :: m) -> nth_error got i = Some None -> nth_error fs i = Some f -> literal raw (name_of f) ->
    begins m 58 x -> takes (snd f) v x y -> takes_flat (set_nth got i (Some v)) false y keys got' first' k ->
    takes_flat got first l keys got' first' k
| XF_other got first l raw s m x y keys got' first' k :
    item 125 first l (34 :: raw ++ 34 :: m) -> literal raw s -> ~ In s names ->
    begins m 58 x -> holds x y -> takes_flat got false y keys got' first' k ->
    takes_flat got first l (s :: keys) got' first' k.
Local Notation so_far r := (takes_flat (map (fun _ => None) fs) true r).

Inductive flat_js_fault (l : bytes) : js_de_error -> Prop :=
| FJ_end : any_ws l -> flat_js_fault l JUnexpectedEof
| FJ_kind c r : begins l c r -> c <> 123 -> flat_js_fault l JExpectedObject
| FJ_gap r keys got first k e : begins l 123 r -> so_far r keys got first k -> object_gap first k e -> flat_js_fault l e
| FJ_key r keys got first k c q : begins l 123 r -> so_far r keys got first k -> item 125 first k (c :: q) -> c <> 34 ->
    flat_js_fault l JKeyMustBeAString
| FJ_text r keys got first k q e : begins l 123 r -> so_far r keys got first k -> item 125 first k (34 :: q) -> text_fault q e ->
    flat_js_fault l e
(* the members that are fields *)
| FJ_again r keys got first k i f v raw m : begins l 123 r -> so_far r keys got first k -> item 125 first k (34 :: raw ++ 34 :: m) ->
    nth_error fs i = Some f -> literal raw (name_of f) -> nth_error got i = Some (Some v) -> flat_js_fault l JDeserializeError
| FJ_colon r keys got first k i f raw m e : begins l 123 r -> so_far r keys got first k -> item 125 first k (34 :: raw ++ 34 :: m) ->
    nth_error fs i = Some f -> literal raw (name_of f) -> nth_error got i = Some None -> colon_fault m e -> flat_js_fault l e
| FJ_value r keys got first k i f raw m x e : begins l 123 r -> so_far r keys got first k -> item 125 first k (34 :: raw ++ 34 :: m) ->
    nth_error fs i = Some f -> literal raw (name_of f) -> nth_error got i = Some None -> begins m 58 x -> js_fault (snd f) x e -> flat_js_fault l e
(* the others *)
| FJ_other_colon r keys got first k raw s m e : begins l 123 r -> so_far r keys got first k -> item 125 first k (34 :: raw ++ 34 :: m) ->
    literal raw s -> ~ In s names -> colon_fault m e -> flat_js_fault l e
| FJ_other r keys got first k raw s m x e : begins l 123 r -> so_far r keys got first k -> item 125 first k (34 :: raw ++ 34 :: m) ->
    literal raw s -> ~ In s names -> begins m 58 x -> any_fault x e -> flat_js_fault l e
(* at the closing brace *)
| FJ_missing r keys got first k q i f : begins l 123 r -> so_far r keys got first k -> begins k 125 q ->
    nth_error fs i = Some f -> nth_error got i = Some None -> needed f -> flat_js_fault l JDeserializeError
| FJ_flat_missing r keys got first k q gs f : begins l 123 r -> so_far r keys got first k -> begins k 125 q ->
    g = TStruct gs -> In f gs -> ~ In (name_of f) keys -> needed f -> flat_js_fault l JDeserializeError
| FJ_flat_again r keys got first k q gs f a b c : begins l 123 r -> so_far r keys got first k -> begins k 125 q ->
    g = TStruct gs -> In f gs -> keys = a ++ name_of f :: b ++ name_of f :: c -> flat_js_fault l JDeserializeError.
End Flat.

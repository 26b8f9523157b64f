(** Specification: which error each kind of fault in a JSON input should give (C58).
    From [JsonDe] only the enumerations of the errors and of the decoders are used.

    [js_fault t l e]: reading a [t] from the input [l] (all of it, to the very end)
    meets its first fault, and [e] is the error for that fault. *)
From Verif Require Import Prelude Utf8Spec SerdeSer SerdeDe MpSpec Base64Spec JsonSpec JsonTypeSpec Types MpTypeSpec JsonDe.

(** The first character that is not whitespace, and what follows it. *)
Definition begins (l : bytes) (c : Z) (r : bytes) : Prop := exists w, l = w ++ c :: r /\ any_ws w /\ ~ is_ws c.

(** ** Words, strings and numbers *)
(** What follows the first letter of [null], [true] or [false], where [rest] should be. *)
Inductive word_fault (rest : bytes) : bytes -> js_de_error -> Prop :=
| W_short r : (length r < length rest)%nat -> word_fault rest r JUnexpectedEof
| W_other a r : length a = length rest -> a <> rest -> word_fault rest (a ++ r) JExpectedToken.
Definition ull : bytes := [117; 108; 108].
Definition rue : bytes := [114; 117; 101].
Definition alse : bytes := [97; 108; 115; 101].

Definition fault_error (f : str_fault) : js_de_error :=
  match f with
  | Unterminated => JUnexpectedEof
  | ControlChar => JStringControlChar
  | BadEscape => JInvalidEscapeSequence
  | BadCodePoint => JInvalidUnicodeCodePoint
  end.
(** After an opening quote. *)
Inductive text_fault : bytes -> js_de_error -> Prop :=
| TF_text l f : faulty l f -> text_fault l (fault_error f)
| TF_utf8 raw s r : str_body false raw s -> ~ valid_utf8 s -> text_fault (raw ++ 34 :: r) JInvalidUnicodeCodePoint.
(** After the opening quote of a string that is skipped: escapes are not looked at. *)
Inductive span_fault : bytes -> js_de_error -> Prop :=
| SF_end raw : quoted_span raw -> span_fault raw JUnexpectedEof
| SF_escape raw : quoted_span raw -> span_fault (raw ++ [92]) JUnexpectedEof
| SF_control raw c r : quoted_span raw -> c < 32 -> span_fault (raw ++ c :: r) JStringControlChar
| SF_escaped raw c r : quoted_span raw -> c < 32 -> span_fault (raw ++ 92 :: c :: r) JStringControlChar.

Definition no_digit_follows (k : bytes) : Prop := match k with c :: _ => ~ is_digit c | [] => True end.
(** Nothing follows a zero in an integer. *)
Definition int_ends (tok k : bytes) : Prop := tok = [48] \/ tok = [45; 48] \/ no_digit_follows k.
Inductive int_fault (k : ikind) : bytes -> js_de_error -> Prop :=
| IF_end l : any_ws l -> int_fault k l JUnexpectedEof
| IF_kind l c r : begins l c r -> ~ is_digit c -> c <> 45 -> int_fault k l JInvalidType
| IF_unsigned l r : imin k = 0 -> begins l 45 r -> int_fault k l JInvalidNumber
| IF_minus_end l : imin k < 0 -> begins l 45 [] -> int_fault k l JUnexpectedEof
| IF_minus_kind l c r : imin k < 0 -> begins l 45 (c :: r) -> ~ is_digit c -> int_fault k l JInvalidType
| IF_range w (neg : bool) ds r : any_ws w -> int_part ds -> no_digit_follows r -> (neg = true -> imin k < 0) ->
    ~ in_ikind k (if neg then - dec_val ds else dec_val ds) ->
    int_fault k (w ++ (if neg then [45] else []) ++ ds ++ r) JInvalidNumber.
Inductive bool_fault : bytes -> js_de_error -> Prop :=
| BF_end l : any_ws l -> bool_fault l JUnexpectedEof
| BF_true l r e : begins l 116 r -> word_fault rue r e -> bool_fault l e
| BF_false l r e : begins l 102 r -> word_fault alse r e -> bool_fault l e
| BF_kind l c r : begins l c r -> c <> 116 -> c <> 102 -> bool_fault l JUnexpectedChar.
Inductive null_fault : bytes -> js_de_error -> Prop :=
| NF_end l : any_ws l -> null_fault l JUnexpectedEof
| NF_null l r e : begins l 110 r -> word_fault ull r e -> null_fault l e
| NF_kind l c r : begins l c r -> c <> 110 -> null_fault l JExpectedNull.
(** The longest run of number characters ([tok], maybe empty) is not a float. *)
Inductive float_fault (float_of : bytes -> option Z) : bytes -> js_de_error -> Prop :=
| FF_end l : any_ws l -> float_fault float_of l JUnexpectedEof
| FF_null l r e : begins l 110 r -> word_fault ull r e -> float_fault float_of l e
| FF_number w tok r : any_ws w -> tok = [] \/ number_run tok -> cannot_extend (JNum tok) r -> float_of tok = None ->
    (forall c r', tok ++ r = c :: r' -> ~ is_ws c /\ c <> 110) -> tok ++ r <> [] -> float_fault float_of (w ++ tok ++ r) JInvalidNumber.

(** ** Byte strings *)
(** After the opening quote, by decoder. *)
Inductive hex_fault : bytes -> js_de_error -> Prop :=
| HF_end h bs : hex_bytes h bs -> hex_fault h JUnexpectedEof
| HF_last h bs c : hex_bytes h bs -> c <> 34 -> hex_fault (h ++ [c]) JUnexpectedEof
| HF_first h bs a b r : hex_bytes h bs -> (forall x, ~ hex_digit a x) -> a <> 34 -> hex_fault (h ++ a :: b :: r) JUnexpectedChar
| HF_second h bs a x b r : hex_bytes h bs -> hex_digit a x -> (forall y, ~ hex_digit b y) -> hex_fault (h ++ a :: b :: r) JUnexpectedChar.
Inductive base64_fault : bytes -> js_de_error -> Prop :=
| B6_end ds n : Forall (fun v => 0 <= v < 64) ds -> base64_fault (map b64_char ds ++ repeat 61 n) JUnexpectedEof
| B6_char ds c r : Forall (fun v => 0 <= v < 64) ds -> (forall v, 0 <= v < 64 -> c <> b64_char v) -> c <> 34 -> c <> 61 ->
    base64_fault (map b64_char ds ++ c :: r) JUnexpectedChar
| B6_pad ds n c r : Forall (fun v => 0 <= v < 64) ds -> c <> 34 -> c <> 61 ->
    base64_fault (map b64_char ds ++ repeat 61 (S n) ++ c :: r) JUnexpectedChar.
Definition string_fault (dec : byte_decoder) (l : bytes) (e : js_de_error) : Prop :=
  match dec with
  | NopeDecoder => exists f, faulty l f /\ e = fault_error f
  | HexDecoder => hex_fault l e
  | Base64Decoder => base64_fault l e
  end.
(** After the opening bracket of an array of bytes. *)
Definition takes_u8 (z : Z) (l k : bytes) : Prop :=
  exists w tok, l = w ++ tok ++ k /\ any_ws w /\ int_lit U8 z tok /\ int_ends tok k.
Inductive takes_bytes : list Z -> bytes -> bytes -> Prop :=
| TB_nil l : takes_bytes [] l l
| TB_cons z zs l m r k : takes_u8 z l m -> begins m 44 r -> takes_bytes zs r k -> takes_bytes (z :: zs) l k.
Inductive array_fault : bytes -> js_de_error -> Prop :=
| AF_num zs l k e : takes_bytes zs l k -> (zs = [] -> forall r, ~ begins l 93 r) -> int_fault U8 k e -> array_fault l e
| AF_end zs z l k m : takes_bytes zs l k -> takes_u8 z k m -> any_ws m -> array_fault l JUnexpectedEof
| AF_gap zs z l k m c r : takes_bytes zs l k -> takes_u8 z k m -> begins m c r -> c <> 44 -> c <> 93 -> array_fault l JUnexpectedChar.

(** ** Between the items of an array or object *)
(** [close]: the closing bracket.  [first]: no item before. *)
Inductive gap_fault (close : Z) (leading trailing missing : js_de_error) : bool -> bytes -> js_de_error -> Prop :=
| G_end first l : any_ws l -> gap_fault close leading trailing missing first l JUnexpectedEof
| G_leading l r : begins l 44 r -> gap_fault close leading trailing missing true l leading
| G_missing l c r : begins l c r -> c <> close -> c <> 44 -> gap_fault close leading trailing missing false l missing
| G_comma_end l r : begins l 44 r -> any_ws r -> gap_fault close leading trailing missing false l JUnexpectedEof
| G_trailing l r r' : begins l 44 r -> begins r close r' -> gap_fault close leading trailing missing false l trailing.
Definition array_gap := gap_fault 93 JLeadingArrayComma JTrailingArrayComma JExpectedArrayCommaOrEnd.
Definition object_gap := gap_fault 125 JLeadingObjectComma JTrailingObjectComma JExpectedObjectCommaOrEnd.
(** Another item starts at [x]. *)
Definition item (close : Z) (first : bool) (l x : bytes) : Prop :=
  exists c r, x = c :: r /\ c <> close /\
    (if first then begins l c r /\ c <> 44 else exists m, begins l 44 m /\ begins m c r).
(** Some items, and what is left after them. *)
Inductive walk (close : Z) : bool -> list (bytes -> bytes -> Prop) -> bytes -> bool -> bytes -> Prop :=
| Wa_nil first l : walk close first [] l first l
| Wa_cons first (p : bytes -> bytes -> Prop) ps l x y first' k : item close first l x -> p x y ->
    walk close false ps y first' k -> walk close first (p :: ps) l first' k.
Inductive colon_fault : bytes -> js_de_error -> Prop :=
| CF_end l : any_ws l -> colon_fault l JUnexpectedEof
| CF_colon l c r : begins l c r -> c <> 58 -> colon_fault l JExpectedColon.

(** ** Skipped values *)
Definition skips (l k : bytes) : Prop :=
  exists w d b, l = w ++ b ++ k /\ any_ws w /\ loose_text d b /\ skippable d /\ cannot_extend d k.
Definition skips_member (l k : bytes) : Prop :=
  exists raw s m r, l = 34 :: raw ++ 34 :: m /\ literal raw s /\ begins m 58 r /\ skips r k.
Definition value_start (c : Z) : Prop :=
  c = 110 \/ c = 116 \/ c = 102 \/ c = 34 \/ is_digit c \/ c = 45 \/ c = 91 \/ c = 123.
Inductive skip_fault : bytes -> js_de_error -> Prop :=
| S_end l : any_ws l -> skip_fault l JUnexpectedEof
| S_kind l c r : begins l c r -> ~ value_start c -> skip_fault l JUnexpectedChar
| S_null l r e : begins l 110 r -> word_fault ull r e -> skip_fault l e
| S_true l r e : begins l 116 r -> word_fault rue r e -> skip_fault l e
| S_false l r e : begins l 102 r -> word_fault alse r e -> skip_fault l e
| S_str l r e : begins l 34 r -> span_fault r e -> skip_fault l e
| S_arr_gap l r n first k e : begins l 91 r -> walk 93 true (repeat skips n) r first k -> array_gap first k e -> skip_fault l e
| S_arr l r n first k x e : begins l 91 r -> walk 93 true (repeat skips n) r first k -> item 93 first k x -> skip_fault x e ->
    skip_fault l e
| S_obj_gap l r n first k e : begins l 123 r -> walk 125 true (repeat skips_member n) r first k -> object_gap first k e -> skip_fault l e
| S_obj_key l r n first k c q : begins l 123 r -> walk 125 true (repeat skips_member n) r first k -> item 125 first k (c :: q) ->
    c <> 34 -> skip_fault l JKeyMustBeAString
| S_obj_text l r n first k q e : begins l 123 r -> walk 125 true (repeat skips_member n) r first k -> item 125 first k (34 :: q) ->
    text_fault q e -> skip_fault l e
| S_obj_colon l r n first k raw s m e : begins l 123 r -> walk 125 true (repeat skips_member n) r first k ->
    item 125 first k (34 :: raw ++ 34 :: m) -> literal raw s -> colon_fault m e -> skip_fault l e
| S_obj_value l r n first k raw s m x e : begins l 123 r -> walk 125 true (repeat skips_member n) r first k ->
    item 125 first k (34 :: raw ++ 34 :: m) -> literal raw s -> begins m 58 x -> skip_fault x e -> skip_fault l e.
(** A whole document that is skipped. *)
Definition skip_document_fault (l : bytes) (e : js_de_error) : Prop :=
  skip_fault l e \/ (e = JTrailingCharacters /\ exists k, skips l k /\ ~ any_ws k).

(** ** Keys, after the opening quote *)
Definition text_key (t : ty) : Prop := match t with TBool | TInt _ => False | _ => True end.
(** Types that cannot be keys. *)
Definition no_key (t : ty) : Prop :=
  match t with TBool | TInt _ | TChar | TStr | TBytes | TEnum _ => False | _ => True end.
Inductive key_fault : ty -> bytes -> js_de_error -> Prop :=
| K_text t l e : text_key t -> text_fault l e -> key_fault t l e
| K_type t raw s r : no_key t -> literal raw s -> key_fault t (raw ++ 34 :: r) JDeserializeError
| K_char raw s r : literal raw s -> (forall c, is_scalar c -> s <> utf8_char c) -> key_fault TChar (raw ++ 34 :: r) JInvalidLength
| K_unknown vs raw s r : literal raw s -> ~ In s (map name_of vs) -> key_fault (TEnum vs) (raw ++ 34 :: r) JDeserializeError
| K_data vs raw i f r : nth_error vs i = Some f -> attr_of f <> KUnit -> literal raw (name_of f) ->
    key_fault (TEnum vs) (raw ++ 34 :: r) JInvalidType
| K_int k l e : int_fault k l e -> key_fault (TInt k) l e
| K_int_end k w z tok : any_ws w -> int_lit k z tok -> key_fault (TInt k) (w ++ tok) JUnexpectedEof
| K_int_more k w z tok c r : any_ws w -> int_lit k z tok -> int_ends tok (c :: r) -> c <> 34 ->
    key_fault (TInt k) (w ++ tok ++ c :: r) JInvalidNumber
| K_bool l e : bool_fault l e -> key_fault TBool l e
| K_bool_end w (b : bool) : any_ws w -> key_fault TBool (w ++ (if b then 116 :: rue else 102 :: alse)) JUnexpectedEof
| K_bool_more w (b : bool) c r : any_ws w -> c <> 34 -> key_fault TBool (w ++ (if b then 116 :: rue else 102 :: alse) ++ c :: r) JInvalidType.

Section Fault.
Context (f32_of f64_of : bytes -> option Z) (dec : byte_decoder).
Definition byte_literal (raw s : bytes) : Prop :=
  match dec with NopeDecoder => bytes_as_string raw s | HexDecoder => hex_bytes raw s | Base64Decoder => bytes_as_base64 raw s end.
Local Notation reads := (reads_as any_ws f32_of f64_of byte_literal).

(** A value is read from [l] and [k] is left.  Numbers end where the reader stops. *)
Fixpoint leaf (t : ty) : ty := match t with TOption t => leaf t | TNewtype t => leaf t | t => t end.
Definition ends_here (t : ty) (d : jv) (k : bytes) : Prop :=
  match d with
  | JNum tok => match leaf t with TInt _ => int_ends tok k | _ => cannot_extend d k end
  | _ => True
  end.
Definition takes (t : ty) (v : val) (l k : bytes) : Prop :=
  exists w d b, l = w ++ b ++ k /\ any_ws w /\ loose_text d b /\ reads t v d /\ ends_here t d k.
Definition takes_entry (kt vt : ty) (e : val * val) (l k : bytes) : Prop :=
  exists raw m r, l = 34 :: raw ++ 34 :: m /\ key_as any_ws kt (fst e) raw /\ begins m 58 r /\ takes vt (snd e) r k.
(** Members of a struct; [got]: the fields seen before, [got']: after. *)
Inductive takes_fields (fs : list (bytes * fattr * ty)) :
  list (option val) -> bool -> bytes -> list (option val) -> bool -> bytes -> Prop :=
| TM_nil got first l : takes_fields fs got first l got first l
| TM_field got first l i f v raw m r y got' first' k :
    item 125 first l (34 :: raw ++ 34 :: m) -> nth_error got i = Some None -> nth_error fs i = Some f -> literal raw (name_of f) ->
    begins m 58 r -> takes (snd f) v r y -> takes_fields fs (set_nth got i (Some v)) false y got' first' k ->
    takes_fields fs got first l got' first' k
| TM_unknown got first l raw s m r y got' first' k :
    item 125 first l (34 :: raw ++ 34 :: m) -> literal raw s -> ~ In s (map name_of fs) ->
    begins m 58 r -> skips r y -> takes_fields fs got false y got' first' k ->
    takes_fields fs got first l got' first' k.

Local Notation each ts l := (zip (fun (p : val -> bytes -> bytes -> Prop) v => p v) (map takes ts) l).
Local Notation eachf fs l := (zip (fun (p : val -> bytes -> bytes -> Prop) v => p v) (map (fun f => takes (snd f)) fs) l).
Local Notation nothing fs := (map (fun _ => None) fs).

Inductive js_fault : ty -> bytes -> js_de_error -> Prop :=
| X_bool l e : bool_fault l e -> js_fault TBool l e
| X_int k l e : int_fault k l e -> js_fault (TInt k) l e
| X_f32 l e : float_fault f32_of l e -> js_fault TF32 l e
| X_f64 l e : float_fault f64_of l e -> js_fault TF64 l e
| X_unit t l e : t = TUnit \/ t = TUnitStruct -> null_fault l e -> js_fault t l e
(* strings *)
| X_text_end t l : t = TChar \/ t = TStr -> any_ws l -> js_fault t l JUnexpectedEof
| X_text_kind t l c r : t = TChar \/ t = TStr -> begins l c r -> c <> 34 -> js_fault t l JExpectedString
| X_text t l r e : t = TChar \/ t = TStr -> begins l 34 r -> text_fault r e -> js_fault t l e
| X_char l raw s r : begins l 34 (raw ++ 34 :: r) -> literal raw s -> (forall c, is_scalar c -> s <> utf8_char c) ->
    js_fault TChar l JInvalidLength
(* byte strings *)
| X_bytes_end l : any_ws l -> js_fault TBytes l JUnexpectedEof
| X_bytes_kind l c r : begins l c r -> c <> 34 -> c <> 91 -> js_fault TBytes l JUnexpectedChar
| X_bytes_string l r e : begins l 34 r -> string_fault dec r e -> js_fault TBytes l e
| X_bytes_array l r e : begins l 91 r -> array_fault r e -> js_fault TBytes l e
(* options and newtypes *)
| X_option_end t l : any_ws l -> js_fault (TOption t) l JUnexpectedEof
| X_option_null t l r e : begins l 110 r -> word_fault ull r e -> js_fault (TOption t) l e
| X_option t l c r e : begins l c r -> c <> 110 -> js_fault t (c :: r) e -> js_fault (TOption t) l e
| X_newtype t l e : js_fault t l e -> js_fault (TNewtype t) l e
(* sequences: after some elements, the separator or the next element is at fault *)
| X_seq_end t l : any_ws l -> js_fault (TSeq t) l JUnexpectedEof
| X_seq_kind t l c r : begins l c r -> c <> 91 -> js_fault (TSeq t) l JExpectedArray
| X_seq_gap t l r vs first k e : begins l 91 r -> walk 93 true (map (takes t) vs) r first k -> array_gap first k e -> js_fault (TSeq t) l e
| X_seq_elem t l r vs first k x e : begins l 91 r -> walk 93 true (map (takes t) vs) r first k -> item 93 first k x -> js_fault t x e ->
    js_fault (TSeq t) l e
(* tuples: also too short or too long *)
| X_tuple_end T ts l : T = TTuple \/ T = TTupleStruct -> any_ws l -> js_fault (T ts) l JUnexpectedEof
| X_tuple_kind T ts l c r : T = TTuple \/ T = TTupleStruct -> begins l c r -> c <> 91 -> js_fault (T ts) l JExpectedArray
| X_tuple_gap T ts1 t ts2 l r vs first k e : T = TTuple \/ T = TTupleStruct -> begins l 91 r -> length vs = length ts1 ->
    walk 93 true (each ts1 vs) r first k -> array_gap first k e -> js_fault (T (ts1 ++ t :: ts2)) l e
| X_tuple_elem T ts1 t ts2 l r vs first k x e : T = TTuple \/ T = TTupleStruct -> begins l 91 r -> length vs = length ts1 ->
    walk 93 true (each ts1 vs) r first k -> item 93 first k x -> js_fault t x e -> js_fault (T (ts1 ++ t :: ts2)) l e
| X_tuple_few T ts1 t ts2 l r vs first k k' : T = TTuple \/ T = TTupleStruct -> begins l 91 r -> length vs = length ts1 ->
    walk 93 true (each ts1 vs) r first k -> begins k 93 k' -> js_fault (T (ts1 ++ t :: ts2)) l JDeserializeError
| X_tuple_open T ts l r vs first k : T = TTuple \/ T = TTupleStruct -> begins l 91 r -> length vs = length ts ->
    walk 93 true (each ts vs) r first k -> any_ws k -> js_fault (T ts) l JUnexpectedEof
| X_tuple_many T ts l r vs first k c k' : T = TTuple \/ T = TTupleStruct -> begins l 91 r -> length vs = length ts ->
    walk 93 true (each ts vs) r first k -> begins k c k' -> c <> 93 -> js_fault (T ts) l JExpectedArrayEnd
(* maps: the separator; a key; its colon; its value *)
| X_map_end kt vt l : any_ws l -> js_fault (TMap kt vt) l JUnexpectedEof
| X_map_kind kt vt l c r : begins l c r -> c <> 123 -> js_fault (TMap kt vt) l JExpectedObject
| X_map_gap kt vt l r es first k e : begins l 123 r -> walk 125 true (map (takes_entry kt vt) es) r first k -> object_gap first k e ->
    js_fault (TMap kt vt) l e
| X_map_key kt vt l r es first k c q : begins l 123 r -> walk 125 true (map (takes_entry kt vt) es) r first k ->
    item 125 first k (c :: q) -> c <> 34 -> js_fault (TMap kt vt) l JKeyMustBeAString
| X_map_text kt vt l r es first k q e : begins l 123 r -> walk 125 true (map (takes_entry kt vt) es) r first k ->
    item 125 first k (34 :: q) -> key_fault kt q e -> js_fault (TMap kt vt) l e
| X_map_colon kt vt l r es first k raw u m e : begins l 123 r -> walk 125 true (map (takes_entry kt vt) es) r first k ->
    item 125 first k (34 :: raw ++ 34 :: m) -> key_as any_ws kt u raw -> colon_fault m e -> js_fault (TMap kt vt) l e
| X_map_value kt vt l r es first k raw u m x e : begins l 123 r -> walk 125 true (map (takes_entry kt vt) es) r first k ->
    item 125 first k (34 :: raw ++ 34 :: m) -> key_as any_ws kt u raw -> begins m 58 x -> js_fault vt x e -> js_fault (TMap kt vt) l e
(* structs *)
| X_struct_end fs l : any_ws l -> js_fault (TStruct fs) l JUnexpectedEof
| X_struct_kind fs l c r : begins l c r -> c <> 123 -> c <> 91 -> js_fault (TStruct fs) l JExpectedStruct
(* as arrays *)
| X_fields_gap fs1 f fs2 l r vs first k e : begins l 91 r -> length vs = length fs1 ->
    walk 93 true (eachf fs1 vs) r first k -> array_gap first k e -> js_fault (TStruct (fs1 ++ f :: fs2)) l e
| X_fields_elem fs1 f fs2 l r vs first k x e : begins l 91 r -> length vs = length fs1 ->
    walk 93 true (eachf fs1 vs) r first k -> item 93 first k x -> js_fault (snd f) x e -> js_fault (TStruct (fs1 ++ f :: fs2)) l e
| X_fields_few fs1 ds f fs2 l r vs first k k' : begins l 91 r -> length vs = length fs1 ->
    walk 93 true (eachf fs1 vs) r first k -> begins k 93 k' -> Forall (fun f => attr_of f <> FPlain) ds -> attr_of f = FPlain ->
    js_fault (TStruct (fs1 ++ ds ++ f :: fs2)) l JDeserializeError
| X_fields_open fs l r vs first k : begins l 91 r -> length vs = length fs ->
    walk 93 true (eachf fs vs) r first k -> any_ws k -> js_fault (TStruct fs) l JUnexpectedEof
| X_fields_many fs l r vs first k c k' : begins l 91 r -> length vs = length fs ->
    walk 93 true (eachf fs vs) r first k -> begins k c k' -> c <> 93 -> js_fault (TStruct fs) l JExpectedArrayEnd
(* as objects: the separator; the key; a field again; the colon; the value; a field missing *)
| X_field_gap fs l r got first k e : begins l 123 r -> takes_fields fs (nothing fs) true r got first k -> object_gap first k e ->
    js_fault (TStruct fs) l e
| X_field_key fs l r got first k c q : begins l 123 r -> takes_fields fs (nothing fs) true r got first k ->
    item 125 first k (c :: q) -> c <> 34 -> js_fault (TStruct fs) l JKeyMustBeAString
| X_field_text fs l r got first k q e : begins l 123 r -> takes_fields fs (nothing fs) true r got first k ->
    item 125 first k (34 :: q) -> text_fault q e -> js_fault (TStruct fs) l e
| X_field_again fs l r got first k raw m i f v : begins l 123 r -> takes_fields fs (nothing fs) true r got first k ->
    item 125 first k (34 :: raw ++ 34 :: m) -> nth_error fs i = Some f -> literal raw (name_of f) -> nth_error got i = Some (Some v) ->
    js_fault (TStruct fs) l JDeserializeError
| X_field_colon fs l r got first k raw s m e : begins l 123 r -> takes_fields fs (nothing fs) true r got first k ->
    item 125 first k (34 :: raw ++ 34 :: m) -> literal raw s ->
    (forall i f v, nth_error fs i = Some f -> name_of f = s -> nth_error got i <> Some (Some v)) ->
    colon_fault m e -> js_fault (TStruct fs) l e
| X_field_value fs l r got first k raw m i f x e : begins l 123 r -> takes_fields fs (nothing fs) true r got first k ->
    item 125 first k (34 :: raw ++ 34 :: m) -> nth_error fs i = Some f -> literal raw (name_of f) -> nth_error got i = Some None ->
    begins m 58 x -> js_fault (snd f) x e -> js_fault (TStruct fs) l e
| X_field_skip fs l r got first k raw s m x e : begins l 123 r -> takes_fields fs (nothing fs) true r got first k ->
    item 125 first k (34 :: raw ++ 34 :: m) -> literal raw s -> ~ In s (map name_of fs) ->
    begins m 58 x -> skip_fault x e -> js_fault (TStruct fs) l e
| X_field_missing fs l r got first k k' i f : begins l 123 r -> takes_fields fs (nothing fs) true r got first k ->
    begins k 125 k' -> nth_error fs i = Some f -> nth_error got i = Some None -> attr_of f = FPlain -> (forall t, snd f <> TOption t) ->
    js_fault (TStruct fs) l JDeserializeError
(* enums: a name alone *)
| X_enum_end vs l : any_ws l -> js_fault (TEnum vs) l JUnexpectedEof
| X_enum_kind vs l c r : begins l c r -> c <> 34 -> c <> 123 -> js_fault (TEnum vs) l JExpectedEnumValue
| X_name_text vs l r e : begins l 34 r -> text_fault r e -> js_fault (TEnum vs) l e
| X_name_unknown vs l raw s r : begins l 34 (raw ++ 34 :: r) -> literal raw s -> ~ In s (map name_of vs) ->
    js_fault (TEnum vs) l JDeserializeError
| X_name_data vs l raw i f r : begins l 34 (raw ++ 34 :: r) -> nth_error vs i = Some f -> literal raw (name_of f) -> attr_of f <> KUnit ->
    js_fault (TEnum vs) l JInvalidType
(* an object: the name; the colon; the content; the closing brace *)
| X_variant_end vs l r : begins l 123 r -> any_ws r -> js_fault (TEnum vs) l JUnexpectedEof
| X_variant_kind vs l r c q : begins l 123 r -> begins r c q -> c <> 34 -> js_fault (TEnum vs) l JExpectedString
| X_variant_text vs l r q e : begins l 123 r -> begins r 34 q -> text_fault q e -> js_fault (TEnum vs) l e
| X_variant_unknown vs l r raw s m : begins l 123 r -> begins r 34 (raw ++ 34 :: m) -> literal raw s -> ~ In s (map name_of vs) ->
    js_fault (TEnum vs) l JDeserializeError
| X_variant_colon vs l r raw m i f e : begins l 123 r -> begins r 34 (raw ++ 34 :: m) -> nth_error vs i = Some f ->
    literal raw (name_of f) -> colon_fault m e -> js_fault (TEnum vs) l e
| X_variant_unit vs l r raw m i f x : begins l 123 r -> begins r 34 (raw ++ 34 :: m) -> nth_error vs i = Some f ->
    literal raw (name_of f) -> begins m 58 x -> attr_of f = KUnit -> js_fault (TEnum vs) l JInvalidType
| X_variant_content vs l r raw m i f x e : begins l 123 r -> begins r 34 (raw ++ 34 :: m) -> nth_error vs i = Some f ->
    literal raw (name_of f) -> begins m 58 x -> attr_of f <> KUnit -> js_fault (snd f) x e -> js_fault (TEnum vs) l e
| X_variant_open vs l r raw m i f x v y : begins l 123 r -> begins r 34 (raw ++ 34 :: m) -> nth_error vs i = Some f ->
    literal raw (name_of f) -> begins m 58 x -> attr_of f <> KUnit -> takes (snd f) v x y -> any_ws y -> js_fault (TEnum vs) l JUnexpectedEof
| X_variant_more vs l r raw m i f x v y c z : begins l 123 r -> begins r 34 (raw ++ 34 :: m) -> nth_error vs i = Some f ->
    literal raw (name_of f) -> begins m 58 x -> attr_of f <> KUnit -> takes (snd f) v x y -> begins y c z -> c <> 125 ->
    js_fault (TEnum vs) l JExpectedEnumObjectEnd.

(** A whole document: a fault in the value, or something after it. *)
Definition document_fault (t : ty) (l : bytes) (e : js_de_error) : Prop :=
  js_fault t l e \/ (e = JTrailingCharacters /\ exists v k, takes t v l k /\ ~ any_ws k).
End Fault.

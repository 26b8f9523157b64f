(** Specification of JSON texts (RFC 8259) and of the documents the JSON serializer
    is documented to produce (/repo/ser-write-json/README.md and src/lib.rs).
    Independent of the model. *)
From Verif Require Import Prelude Utf8Spec SerdeSer MpSpec Base64Spec.

(** ** JSON values.  A string is the UTF-8 encoding of its characters, a number is
    its text. *)
Inductive jv :=
| JNull
| JBool (b : bool)
| JNum (tok : bytes)
| JStr (s : bytes)
| JArr (l : list jv)
| JObj (l : list (bytes * jv)).

(** ** Strings *)
(** RFC 8259 section 7: two-character escapes and what they stand for. *)
Inductive esc_char : Z -> Z -> Prop :=
| E_quote : esc_char 34 34
| E_backslash : esc_char 92 92
| E_slash : esc_char 47 47
| E_b : esc_char 98 8
| E_f : esc_char 102 12
| E_n : esc_char 110 10
| E_r : esc_char 114 13
| E_t : esc_char 116 9.

(** A hexadecimal digit of either case. *)
Definition hex_digit (c v : Z) : Prop :=
  (48 <= c <= 57 /\ v = c - 48) \/ (65 <= c <= 70 /\ v = c - 55) \/ (97 <= c <= 102 /\ v = c - 87).
Definition hex4 (h : bytes) (n : Z) : Prop := exists c1 c2 c3 c4 v1 v2 v3 v4,
  h = [c1; c2; c3; c4] /\ hex_digit c1 v1 /\ hex_digit c2 v2 /\ hex_digit c3 v3 /\ hex_digit c4 v4 /\
  n = ((v1 * 16 + v2) * 16 + v3) * 16 + v4.

(** A byte that stands for itself inside a string. *)
Definition plain_byte (b : Z) : Prop := 32 <= b < 256 /\ b <> 34 /\ b <> 92.

(** The text between the quotes and the bytes it denotes.  [pairs] tells whether
    surrogate pairs are allowed. *)
Inductive str_body (pairs : bool) : bytes -> bytes -> Prop :=
| B_nil : str_body pairs [] []
| B_plain b t s : plain_byte b -> str_body pairs t s -> str_body pairs (b :: t) (b :: s)
| B_esc e x t s : esc_char e x -> str_body pairs t s -> str_body pairs (92 :: e :: t) (x :: s)
| B_u h n t s : hex4 h n -> is_scalar n -> str_body pairs t s ->
    str_body pairs (92 :: 117 :: h ++ t) (utf8_char n ++ s)
| B_pair h1 n1 h2 n2 t s : pairs = true ->
    hex4 h1 n1 -> 0xD800 <= n1 <= 0xDBFF -> hex4 h2 n2 -> 0xDC00 <= n2 <= 0xDFFF ->
    str_body pairs t s ->
    str_body pairs (92 :: 117 :: h1 ++ 92 :: 117 :: h2 ++ t)
      (utf8_char (0x10000 + (n1 - 0xD800) * 0x400 + (n2 - 0xDC00)) ++ s).

(** Why a text after an opening quote is not a string: the first fault in it. *)
Inductive str_fault := Unterminated | ControlChar | BadEscape | BadCodePoint.
Inductive fault_here : bytes -> str_fault -> Prop :=
| F_end : fault_here [] Unterminated
| F_control b r : b < 32 -> fault_here (b :: r) ControlChar
| F_end_escape : fault_here [92] Unterminated
| F_escape e r : (forall x, ~ esc_char e x) -> e <> 117 -> fault_here (92 :: e :: r) BadEscape
| F_end_u h : (length h < 4)%nat -> fault_here (92 :: 117 :: h) Unterminated
| F_hex h r : length h = 4%nat -> (forall n, ~ hex4 h n) -> fault_here (92 :: 117 :: h ++ r) BadEscape
| F_code h n r : hex4 h n -> ~ is_scalar n -> fault_here (92 :: 117 :: h ++ r) BadCodePoint.
Definition faulty (l : bytes) (f : str_fault) : Prop :=
  exists t s r, l = t ++ r /\ str_body false t s /\ fault_here r f.

(** What stands between two quotes at the least: no control character, no quote
    unless escaped; the escapes are not looked at. *)
Inductive quoted_span : bytes -> Prop :=
| Q_nil : quoted_span []
| Q_plain b t : plain_byte b -> quoted_span t -> quoted_span (b :: t)
| Q_esc e t : 32 <= e < 256 -> quoted_span t -> quoted_span (92 :: e :: t).

(** ** Numbers: RFC 8259 section 6. *)
Definition is_digit (c : Z) : Prop := 48 <= c <= 57.
Definition digits (l : bytes) : Prop := l <> [] /\ Forall is_digit l.
Definition int_part (l : bytes) : Prop := digits l /\ (l = [48] \/ exists d r, l = d :: r /\ d <> 48).
Definition frac_part (l : bytes) : Prop := l = [] \/ exists ds, l = 46 :: ds /\ digits ds.
Definition exp_part (l : bytes) : Prop :=
  l = [] \/ exists e sg ds, l = e :: sg ++ ds /\ (e = 101 \/ e = 69) /\
    (sg = [] \/ sg = [43] \/ sg = [45]) /\ digits ds.
Definition json_number (tok : bytes) : Prop := exists sg i f e,
  tok = sg ++ i ++ f ++ e /\ (sg = [] \/ sg = [45]) /\ int_part i /\ frac_part f /\ exp_part e.

(** The number written by a string of decimal digits. *)
Definition dec_val (l : bytes) : Z := fold_left (fun a c => a * 10 + (c - 48)) l 0.

(** ** Texts.  [ws] says which whitespace may stand between two tokens, [str] and
    [key] which literals a string and an object key may have, [num] which tokens are
    numbers. *)
Section Text.
Variables (ws : bytes -> Prop) (str key : bytes -> bytes -> Prop) (num : bytes -> Prop).

Inductive jtext : jv -> bytes -> Prop :=
| T_null : jtext JNull [110; 117; 108; 108]
| T_true : jtext (JBool true) [116; 114; 117; 101]
| T_false : jtext (JBool false) [102; 97; 108; 115; 101]
| T_num tok : num tok -> jtext (JNum tok) tok
| T_str s t : str s t -> jtext (JStr s) t
| T_arr0 w : ws w -> jtext (JArr []) (91 :: w ++ [93])
| T_arr l b : elements l b -> jtext (JArr l) (91 :: b ++ [93])
| T_obj0 w : ws w -> jtext (JObj []) (123 :: w ++ [125])
| T_obj l b : members l b -> jtext (JObj l) (123 :: b ++ [125])
(** One or more values separated by commas. *)
with elements : list jv -> bytes -> Prop :=
| L_one v b w1 w2 : ws w1 -> jtext v b -> ws w2 -> elements [v] (w1 ++ b ++ w2)
| L_more v b l r w1 w2 : ws w1 -> jtext v b -> ws w2 -> elements l r ->
    elements (v :: l) (w1 ++ b ++ w2 ++ 44 :: r)
(** One or more [key : value] separated by commas. *)
with members : list (bytes * jv) -> bytes -> Prop :=
| O_one k kt v b w1 w2 w3 w4 : ws w1 -> key k kt -> ws w2 -> ws w3 -> jtext v b -> ws w4 ->
    members [(k, v)] (w1 ++ kt ++ w2 ++ 58 :: w3 ++ b ++ w4)
| O_more k kt v b l r w1 w2 w3 w4 : ws w1 -> key k kt -> ws w2 -> ws w3 -> jtext v b -> ws w4 ->
    members l r ->
    members ((k, v) :: l) (w1 ++ kt ++ w2 ++ 58 :: w3 ++ b ++ w4 ++ 44 :: r).
End Text.

Definition json_string (pairs : bool) (s : bytes) (text : bytes) : Prop :=
  exists t, text = 34 :: t ++ [34] /\ valid_utf8 t /\ str_body pairs t s.
Definition json (ws : bytes -> Prop) (pairs : bool) : jv -> bytes -> Prop :=
  jtext ws (json_string pairs) (json_string pairs) json_number.

(** RFC 8259 section 2. *)
Definition is_ws (b : Z) : Prop := b = 32 \/ b = 9 \/ b = 10 \/ b = 13.
Definition any_ws (w : bytes) : Prop := Forall is_ws w.
Definition no_ws (w : bytes) : Prop := w = [].

(** A value without and with insignificant whitespace (none around it). *)
Definition json_compact : jv -> bytes -> Prop := json no_ws true.
Definition json_text : jv -> bytes -> Prop := json any_ws true.

(** ** The documented form of a value *)
(** Canonical decimal text of an integer. *)
Fixpoint dec_digits (fuel : nat) (z : Z) : bytes :=
  match fuel with
  | O => []
  | S n => if z <? 10 then [48 + z] else dec_digits n (z / 10) ++ [48 + z mod 10]
  end.
Definition dec_nat (z : Z) : bytes := dec_digits (S (Z.to_nat (Z.log2 z))) z.
Definition dec_text (z : Z) : bytes := if z <? 0 then 45 :: dec_nat (- z) else dec_nat z.

(** Two upper-case hexadecimal digits per byte. *)
Definition hex_upper (v : Z) : Z := if v <? 10 then 48 + v else 55 + v.
Definition hex_text (bs : bytes) : bytes := flat_map (fun b => [hex_upper (b / 16); hex_upper (b mod 16)]) bs.

(** Two hexadecimal digits of either case per byte. *)
Inductive hex_bytes : bytes -> bytes -> Prop :=
| H_nil : hex_bytes [] []
| H_byte a b x y h bs : hex_digit a x -> hex_digit b y -> hex_bytes h bs -> hex_bytes (a :: b :: h) (x * 16 + y :: bs).

(** What byte strings become: an array of numbers, a hex or a Base64 string. *)
Definition bytes_array (bs : bytes) : option jv := Some (JArr (map (fun b => JNum (dec_text b)) bs)).
Definition bytes_hex (bs : bytes) : option jv := Some (JStr (hex_text bs)).
Definition bytes_base64 (bs : bytes) : option jv := Some (JStr (b64_text bs)).

Section Doc.
(** How byte strings and floats are represented ([None]: no finite number). *)
Variable bytes_doc : bytes -> option jv.
Variables f32_doc f64_doc : Z -> option bytes.

Definition float_jv (o : option bytes) : jv := match o with Some t => JNum t | None => JNull end.

(** The text of an object key: only strings, characters, integers, booleans and
    unit variants can be keys; newtypes are transparent. *)
Fixpoint key_doc (v : sval) : option bytes :=
  match v with
  | SBool b => Some (if b then [116; 114; 117; 101] else [102; 97; 108; 115; 101])
  | SInt _ z => Some (dec_text z)
  | SChar c => Some (utf8_char c)
  | SStr s => Some s
  | SUnitVariant _ n => Some n
  | SNewtypeStruct v => key_doc v
  | SCollect p _ => fmt_text p
  | _ => None
  end.

Definition omap2 {A B C} (f : A -> B -> C) (a : option A) (b : option B) : option C :=
  match a, b with Some a, Some b => Some (f a b) | _, _ => None end.

Definition doc_list (f : sval -> option jv) : list sval -> option (list jv) :=
  fix go l := match l with [] => Some [] | x :: l => omap2 cons (f x) (go l) end.
(** Keys and values alternate, starting with a key. *)
Definition doc_entries (f : sval -> option jv) : list (bool * sval) -> option (list (bytes * jv)) :=
  fix go l :=
    match l with
    | [] => Some []
    | (true, k) :: (false, v) :: l => omap2 cons (omap2 pair (key_doc k) (f v)) (go l)
    | _ => None
    end.
(** Skipped fields do not appear. *)
Definition doc_fields (f : sval -> option jv) : list (bytes * option sval) -> option (list (bytes * jv)) :=
  fix go l :=
    match l with
    | [] => Some []
    | (k, Some v) :: l => omap2 cons (option_map (pair k) (f v)) (go l)
    | (_, None) :: l => go l
    end.

Fixpoint js_doc (v : sval) : option jv :=
  match v with
  | SBool b => Some (JBool b)
  | SInt _ z => Some (JNum (dec_text z))
  | SI128 => None
  | SF32 b => Some (float_jv (f32_doc b))
  | SF64 b => Some (float_jv (f64_doc b))
  | SChar c => Some (JStr (utf8_char c))
  | SStr s => Some (JStr s)
  | SBytes s => bytes_doc s
  | SNone | SUnit | SUnitStruct => Some JNull
  | SSome v => js_doc v
  | SUnitVariant _ n => Some (JStr n)
  | SNewtypeStruct v => js_doc v
  | SNewtypeVariant _ n v => option_map (fun j => JObj [(n, j)]) (js_doc v)
  | SSeq _ l | STuple _ l | STupleStruct _ l => option_map JArr (doc_list js_doc l)
  | STupleVariant _ n _ l => option_map (fun l => JObj [(n, JArr l)]) (doc_list js_doc l)
  | SMap _ l => option_map JObj (doc_entries js_doc l)
  | SStruct _ fs => option_map JObj (doc_fields js_doc fs)
  | SStructVariant _ n _ fs => option_map (fun l => JObj [(n, JObj l)]) (doc_fields js_doc fs)
  | SCollect p _ => option_map JStr (fmt_text p)
  | SCustom => None
  end.
End Doc.

(** ** Well-formed call trees: what Rust's types guarantee. *)
Fixpoint strings_ok (v : sval) : Prop :=
  match v with
  | SInt k z => in_ikind k z
  | SF32 b => 0 <= b < 2 ^ 32
  | SF64 b => 0 <= b < 2 ^ 64
  | SChar c => is_scalar c
  | SStr s => valid_utf8 s
  | SBytes s => all_bytes s
  | SSome v => strings_ok v
  | SUnitVariant _ n => valid_utf8 n
  | SNewtypeStruct v => strings_ok v
  | SNewtypeVariant _ n v => valid_utf8 n /\ strings_ok v
  | SSeq _ l | STuple _ l | STupleStruct _ l => all_list strings_ok l
  | STupleVariant _ n _ l => valid_utf8 n /\ all_list strings_ok l
  | SMap _ l => all_list (fun o => strings_ok (snd o)) l
  | SStruct _ fs =>
      all_list (fun f => valid_utf8 (fst f) /\ match snd f with Some x => strings_ok x | None => True end) fs
  | SStructVariant _ n _ fs => valid_utf8 n /\
      all_list (fun f => valid_utf8 (fst f) /\ match snd f with Some x => strings_ok x | None => True end) fs
  | SCollect p _ => fmt_all valid_utf8 p
  | _ => True
  end.

(** Maps are driven as serde's protocol demands: key, value, key, value, ... *)
Fixpoint alternates {A} (l : list (bool * A)) : Prop :=
  match l with
  | [] => True
  | (true, _) :: (false, _) :: l => alternates l
  | _ => False
  end.
Fixpoint maps_ok (v : sval) : Prop :=
  match v with
  | SSome v | SNewtypeStruct v | SNewtypeVariant _ _ v => maps_ok v
  | SSeq _ l | STuple _ l | STupleStruct _ l | STupleVariant _ _ _ l => all_list maps_ok l
  | SMap _ l => alternates l /\ all_list (fun o => maps_ok (snd o)) l
  | SStruct _ fs | SStructVariant _ _ _ fs =>
      all_list (fun f => match snd f with Some x => maps_ok x | None => True end) fs
  | _ => True
  end.

(** ** Floats: a bit pattern is finite when its exponent is not all ones. *)
Definition finite32 (b : Z) : Prop := b / 2 ^ 23 mod 256 <> 255.
Definition finite64 (b : Z) : Prop := b / 2 ^ 52 mod 2048 <> 2047.

(** [pr] prints finite floats as JSON numbers and other floats have no number. *)
Definition prints (width : Z) (finite : Z -> Prop) (pr : Z -> option bytes) : Prop :=
  forall b, 0 <= b < 2 ^ width ->
    match pr b with Some t => finite b /\ json_number t | None => ~ finite b end.

(** The number a printer gives for a finite float, none for the others. *)
Definition f32_num (pr : Z -> bytes) (b : Z) : option bytes :=
  if b / 2 ^ 23 mod 256 =? 255 then None else Some (pr b).
Definition f64_num (pr : Z -> bytes) (b : Z) : option bytes :=
  if b / 2 ^ 52 mod 2048 =? 2047 then None else Some (pr b).

(** Values that cannot be object keys. *)
Fixpoint invalid_key (v : sval) : Prop :=
  match v with
  | SF32 _ | SF64 _ | SBytes _ | SNone | SSome _ | SUnit | SUnitStruct | SNewtypeVariant _ _ _
  | SSeq _ _ | STuple _ _ | STupleStruct _ _ | STupleVariant _ _ _ _
  | SMap _ _ | SStruct _ _ | SStructVariant _ _ _ _ => True
  | SNewtypeStruct v => invalid_key v
  | _ => False
  end.

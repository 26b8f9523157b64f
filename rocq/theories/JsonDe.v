(** Model of /repo/ser-write-json/src/de.rs: the in-place JSON deserializer.

    Lengths and positions are [nat]: a slice has at most [isize::MAX] bytes and the
    cursor stays inside it (proved), so adding small constants never overflows; the
    only length arithmetic that can overflow is in [base64::decode], which is given
    the target [ar]. *)
From Verif Require Import Prelude Utf8 Utf8Spec SerdeDe Base64.
From Verif Require Export Arch.

(** A borrowed [&'de [u8]]: its position in the original buffer, and its bytes. *)
Record jsl := { js_off : nat; js_data : bytes }.

(** [struct Deserializer] (de.rs:113-117).  The original buffer is
    [j_front ++ j_input]: [j_front] is the part given up by [split_input], no longer
    reachable through [self.input].  [j_log] is a ghost field: the slices handed to
    visitors so far ([true]: as a [&str]), most recent first. *)
Record jde := { j_front : bytes; j_input : bytes; j_index : nat; j_log : list (bool * jsl) }.

(** [enum Error] (de.rs:125-186); the text of [DeserializeError] is dropped. *)
Inductive js_de_error :=
| JUnexpectedEof | JInvalidEscapeSequence | JStringControlChar | JExpectedColon
| JExpectedArrayCommaOrEnd | JExpectedArrayEnd | JLeadingArrayComma | JTrailingArrayComma
| JExpectedObjectCommaOrEnd | JExpectedObjectEnd | JLeadingObjectComma | JTrailingObjectComma
| JExpectedToken | JExpectedNull | JExpectedString | JExpectedArray | JExpectedObject
| JExpectedStruct | JExpectedEnumValue | JExpectedEnumObjectEnd | JInvalidNumber | JInvalidType
| JInvalidUnicodeCodePoint | JKeyMustBeAString | JTrailingCharacters | JUnexpectedChar
| JInvalidLength | JDeserializeError.

(** [f32::from_str] / [f64::from_str]: core is not part of /repo; any function is
    allowed here, theorems state what they need. *)
Record float_parser := { f32_from_str : bytes -> option Z; f64_from_str : bytes -> option Z }.

(** The three [StringByteDecoder]s (de.rs:262-270). *)
Inductive byte_decoder := NopeDecoder | HexDecoder | Base64Decoder.

(** [f32::NAN], [f64::NAN]. *)
Definition jf32_NAN : Z := 0x7fc00000.
Definition jf64_NAN : Z := 0x7ff8000000000000.

(** [slice.iter().position(p)]. *)
Fixpoint position (p : Z -> bool) (l : bytes) : option nat :=
  match l with
  | [] => None
  | b :: l => if p b then Some O else option_map S (position p l)
  end.

(** The pattern [SP|T_|N_|R_]. *)
Definition is_space (b : Z) : bool := (b =? 32) || (b =? 9) || (b =? 10) || (b =? 13).
(** The pattern [b'0'..=b'9']. *)
Definition ascii_digit (b : Z) : bool := (48 <=? b) && (b <=? 57).
(** The pattern [b'0'..=b'9'|b'+'|b'-'|b'.'|b'e'|b'E']. *)
Definition number_char (b : Z) : bool :=
  ascii_digit b || (b =? 43) || (b =? 45) || (b =? 46) || (b =? 101) || (b =? 69).

(** [UNESCAPE] (de.rs:296-299), from [b'b'] to [b't']; 0 where not permitted. *)
Definition UNESCAPE : bytes := [8; 0; 0; 0; 12; 0; 0; 0; 0; 0; 0; 0; 10; 0; 0; 0; 13; 0; 9].

(** [parse_hex_nib] (de.rs:301-310). *)
Definition parse_hex_nib (ch : Z) : option Z :=
  if ascii_digit ch then Some (ch - 48)
  else let c := Z.lor ch 0x20 in
       if (97 <=? c) && (c <=? 102) then Some (c - 97 + 10) else None.

(** [parse_uuuu] (de.rs:312-317): [None] when a nibble is not hexadecimal. *)
Definition parse_uuuu (h : bytes) : option Z :=
  match h with
  | [a; b; c; d] =>
    match parse_hex_nib c, parse_hex_nib d, parse_hex_nib a, parse_hex_nib b with
    | Some c, Some d, Some a, Some b => Some ((a * 16 + b) * 256 + (c * 16 + d))
    | _, _, _, _ => None
    end
  | _ => None
  end.

(** [char::from_u32(code)] succeeds on scalar values only. *)
Definition char_from_u32 (code : Z) : option Z := if is_scalarb code then Some code else None.

(** [T::checked_mul], [checked_add], [checked_sub] with [ok_or(InvalidNumber)]
    (de.rs:332-370): the exact result if the type [k] can hold it. *)
Definition checked (k : ikind) (z : Z) : result Z js_de_error :=
  if in_ikindb k z then Ok z else Err JInvalidNumber.

(** The loops of [parse_positive_number] (de.rs:470-485, [neg] = false) and
    [parse_negative_number] (de.rs:488-503, [neg] = true): the number and how many
    digits were read. *)
Fixpoint number_loop (neg : bool) (k : ikind) (number : Z) (pos : nat) (l : bytes) : result (Z * nat) js_de_error :=
  match l with
  | ch :: l =>
    if ascii_digit ch then
      match checked k (number * 10) with
      | Ok m =>
        match checked k (if neg then m - (ch - 48) else m + (ch - 48)) with
        | Ok n => number_loop neg k n (S pos) l
        | Err e => Err e
        end
      | Err e => Err e
      end
    else Ok (number, pos)
  | [] => Ok (number, pos)
  end.

(** [u64::from_str] and [i64::from_str] (core): an optional sign, at least one digit,
    in range.  [-] is a digit error for unsigned types. *)
Fixpoint all_digits (acc : Z) (l : bytes) : option Z :=
  match l with
  | [] => Some acc
  | c :: l => if ascii_digit c then all_digits (acc * 10 + (c - 48)) l else None
  end.
Definition digits_from_str (l : bytes) : option Z :=
  match l with [] => None | _ => all_digits 0 l end.
Definition int_from_str (k : ikind) (l : bytes) : option Z :=
  let v := match l with
           | 43 :: l => digits_from_str l
           | 45 :: l' => match k with
                         | U8 | U16 | U32 | U64 => None
                         | _ => option_map Z.opp (digits_from_str l')
                         end
           | l => digits_from_str l
           end in
  match v with Some z => try_from k z | None => None end.

(** [enum AnyNumber] (de.rs:379-383). *)
Inductive any_number := PosInt (z : Z) | NegInt (z : Z) | AnyFloat (bits : Z).

Section JsonDe.
(** [any_f32]: the feature [de-any-f32]. *)
Context (ar : arch) (fl : float_parser) (any_f32 : bool) (dec : byte_decoder).
Local Notation M := (DM jde js_de_error).

Definition jset (input : bytes) (index : nat) (s : jde) : jde :=
  {| j_front := j_front s; j_input := input; j_index := index; j_log := j_log s |}.

(** de.rs:389-391. *)
Definition j_from_mut_slice (input : bytes) : jde :=
  {| j_front := []; j_input := input; j_index := 0; j_log := [] |}.

(** de.rs:404-406. *)
Definition j_remaining_len (s : jde) : nat := (length (j_input s) - j_index s)%nat.

(** de.rs:410-413. *)
Definition j_peek : M byte := fun s =>
  match nth_error (j_input s) (j_index s) with
  | Some b => Done s (Ok b)
  | None => Done s (Err JUnexpectedEof)
  end.

(** de.rs:417-419. *)
Definition j_eat_some (len : nat) : M unit := fun s =>
  Done (jset (j_input s) (j_index s + len) s) (Ok tt).

(** de.rs:424-433: [&self.input[index..]] panics when the cursor is beyond the end. *)
Definition eat_whitespace : M byte := fun s =>
  if (j_index s <=? length (j_input s))%nat then
    match position (fun b => negb (is_space b)) (skipn (j_index s) (j_input s)) with
    | Some pos =>
      match nth_error (j_input s) (j_index s + pos) with
      | Some b => Done (jset (j_input s) (j_index s + pos) s) (Ok b)
      | None => Panic
      end
    | None => Done s (Err JUnexpectedEof)
    end
  else Panic.

(** de.rs:393-398. *)
Definition j_end : M unit := fun s =>
  match eat_whitespace s with
  | Done s (Ok _) => Done s (Err JTrailingCharacters)
  | Done s (Err _) => Done s (Ok tt)
  | Panic => Panic
  | OutOfFuel => OutOfFuel
  end.

(** de.rs:436-438. *)
Definition input_mut : M bytes := fun s =>
  if (j_index s <=? length (j_input s))%nat then Done s (Ok (skipn (j_index s) (j_input s)))
  else Done s (Err JUnexpectedEof).

(** de.rs:450-467; the [unwrap]s panic. *)
Definition j_split_input (len skip : nat) : M jsl := fun s =>
  let nstart := (j_index s + len + skip)%nat in
  if (nstart <=? length (j_input s))%nat then
    Done {| j_front := j_front s ++ firstn nstart (j_input s);
            j_input := skipn nstart (j_input s); j_index := 0; j_log := j_log s |}
         (Ok {| js_off := length (j_front s) + j_index s; js_data := slice (j_input s) (j_index s) len |})
  else Panic.

(** de.rs:470-503. *)
Definition parse_number (neg : bool) (k : ikind) (number : Z) : M Z :=
  l <-- input_mut ;;
  match number_loop neg k number 0 l with
  | Ok (n, pos) => _ <-- j_eat_some pos ;; dret n
  | Err e => dfail e
  end.

(** de.rs:507-525. *)
Definition parse_unsigned (k : ikind) : M Z :=
  peek <-- eat_whitespace ;;
  if peek =? 45 then dfail JInvalidNumber
  else if peek =? 48 then _ <-- j_eat_some 1 ;; dret 0
  else if ascii_digit peek then _ <-- j_eat_some 1 ;; parse_number false k (peek - 48)
  else dfail JInvalidType.

(** de.rs:529-561. *)
Definition parse_signed (k : ikind) : M Z :=
  peek <-- eat_whitespace ;;
  pn <-- (if peek =? 45 then _ <-- j_eat_some 1 ;; p <-- j_peek ;; dret (p, true)
          else dret (peek, false)) ;;
  let '(peek, is_neg) := pn in
  if peek =? 48 then _ <-- j_eat_some 1 ;; dret 0
  else if ascii_digit peek then
    _ <-- j_eat_some 1 ;;
    (if (is_neg : bool) then parse_number true k (- (peek - 48)) else parse_number false k (peek - 48))
  else dfail JInvalidType.

(** The integer methods use one or the other according to the type (de.rs:940-986). *)
Definition parse_int (k : ikind) : M Z :=
  match k with
  | U8 | U16 | U32 | U64 => parse_unsigned k
  | I8 | I16 | I32 | I64 => parse_signed k
  end.

(** de.rs:566-580. *)
Definition parse_token_content (token : bytes) : M unit := fun s =>
  if (j_index s + length token <=? length (j_input s))%nat then
    if list_eq_dec Z.eq_dec (slice (j_input s) (j_index s) (length token)) token
    then j_eat_some (length token) s
    else Done s (Err JExpectedToken)
  else Done s (Err JUnexpectedEof).

(** The longest prefix of number characters: [match_float] (de.rs:618-625) and the
    same scan in de.rs:589-601. *)
Definition number_prefix (l : bytes) : bytes :=
  match position (fun b => negb (number_char b)) l with
  | Some len => firstn len l
  | None => l
  end.
Definition match_float : M bytes := fun s =>
  if (j_index s <=? length (j_input s))%nat
  then Done s (Ok (number_prefix (skipn (j_index s) (j_input s))))
  else Panic.

(** [AnyFloat::from_str] (de.rs:374-377). *)
Definition any_from_str (l : bytes) : option Z :=
  if any_f32 then f32_from_str fl l else f64_from_str fl l.

(** de.rs:585-615. *)
Definition parse_float_or_int (peek : Z) : M any_number :=
  let is_negative := peek =? 45 in
  input <-- match_float ;;
  let is_float := existsb (fun b => (b =? 46) || (b =? 101) || (b =? 69)) input in
  let num :=
    if is_float then option_map AnyFloat (any_from_str input)
    else if is_negative then option_map NegInt (int_from_str I64 input)
    else option_map PosInt (int_from_str U64 input) in
  match num with
  | Some n => _ <-- j_eat_some (length input) ;; dret n
  | None => dfail JInvalidNumber
  end.

(** [b"null"], [b"true"], [b"false"] after their first letter. *)
Definition tok_ull : bytes := [117; 108; 108].
Definition tok_rue : bytes := [114; 117; 101].
Definition tok_alse : bytes := [97; 108; 115; 101].

(** de.rs:628-643. *)
Definition parse_float (from_str : bytes -> option Z) : M (option Z) :=
  c <-- eat_whitespace ;;
  if c =? 110 then
    _ <-- j_eat_some 1 ;; _ <-- parse_token_content tok_ull ;; dret None
  else
    input <-- match_float ;;
    match from_str input with
    | Some v => _ <-- j_eat_some (length input) ;; dret (Some v)
    | None => dfail JInvalidNumber
    end.

(** de.rs:646-653. *)
Definition parse_key_colon : M unit :=
  c <-- eat_whitespace ;;
  if c =? 58 then j_eat_some 1 else dfail JExpectedColon.

(** The loop of [eat_str_content] (de.rs:661-688); [fuel]: [start] grows.
    [input[start..end].iter().rev().position(|&b| b != RS).unwrap_or(end - start)]
    counts the backslashes just before [end]. *)
Definition trailing_backslashes (l : bytes) : nat :=
  match position (fun b => negb (b =? 92)) (rev l) with Some n => n | None => length l end.
Fixpoint eat_str_loop (fuel : nat) (start : nat) : M unit := fun s =>
  match fuel with
  | O => OutOfFuel
  | S fuel =>
    if (start <=? length (j_input s))%nat then
      match position (fun b => (b =? 34) || (b <=? 0x1F)) (skipn start (j_input s)) with
      | Some found =>
        let end_ := (start + found)%nat in
        match nth_error (j_input s) end_ with
        | Some c =>
          if c =? 34 then
            if Nat.even (trailing_backslashes (slice (j_input s) start found))
            then Done (jset (j_input s) (end_ + 1) s) (Ok tt)
            else eat_str_loop fuel (end_ + 1) s
          else Done s (Err JStringControlChar)
        | None => Panic
        end
      | None => Done s (Err JUnexpectedEof)
      end
    else Done s (Err JUnexpectedEof)
  end.
(** de.rs:659-689. *)
Definition eat_str_content : M unit := fun s =>
  eat_str_loop (S (length (j_input s))) (j_index s) s.

(** The loop of [parse_str_bytes_content] (de.rs:706-763) in the source's variables;
    [fuel]: [start] grows.  Failing breaks leave [self.index] alone and the bytes
    already moved in place. *)
Fixpoint parse_str_loop (fuel : nat) (index dest start : nat) : M jsl := fun s =>
  match fuel with
  | O => OutOfFuel
  | S fuel =>
    let input := j_input s in
    if (start <=? length input)%nat then
      match position (fun b => (b =? 92) || (b =? 34) || (b <=? 0x1F)) (skipn start input) with
      | Some found =>
        let end_ := (start + found)%nat in
        if (index <? dest)%nat then Panic                     (* index - dest *)
        else
        let gap := (index - dest)%nat in
        (* copy_within(index..end, dest) *)
        if negb (gap =? 0)%nat && ((end_ <? index)%nat || (length input <? dest + (end_ - index))%nat) then Panic
        else
        let input := if (gap =? 0)%nat then input
                     else splice input dest (slice input index (end_ - index)) in
        let s := jset input (j_index s) s in
        match nth_error input end_ with
        | None => Panic
        | Some c =>
          if c =? 34 then
            if (end_ <? gap + j_index s)%nat then Panic       (* end - gap - self.index *)
            else j_split_input (end_ - gap - j_index s) (gap + 1) s
          else if c =? 92 then
            if (end_ <? index)%nat then Panic                 (* end - index *)
            else
            let dest := (dest + (end_ - index))%nat in
            let index := (end_ + 1)%nat in
            match nth_error input index with
            | None => Done s (Err JUnexpectedEof)
            | Some c =>
              if (c =? 34) || (c =? 92) || (c =? 47) then
                parse_str_loop fuel index dest (index + 1) s
              else if (98 <=? c) && (c <=? 116) then
                let unescaped := nth (Z.to_nat (c - 98)) UNESCAPE 0 in
                if unescaped =? 0 then Done s (Err JInvalidEscapeSequence)
                else if (dest <? length input)%nat then
                  parse_str_loop fuel (index + 1) (dest + 1) (index + 1)
                    (jset (splice input dest [unescaped]) (j_index s) s)
                else Panic
              else if c =? 117 then
                if (index + 5 <=? length input)%nat then
                  match parse_uuuu (slice input (index + 1) 4) with
                  | None => Done s (Err JInvalidEscapeSequence)
                  | Some code =>
                    match char_from_u32 code with
                    | None => Done s (Err JInvalidUnicodeCodePoint)
                    | Some ch =>
                      let enc := encode_utf8 ch in
                      if (dest + length enc <=? length input)%nat then
                        parse_str_loop fuel (index + 5) (dest + length enc) (index + 5)
                          (jset (splice input dest enc) (j_index s) s)
                      else Panic
                    end
                  end
                else Done s (Err JUnexpectedEof)
              else Done s (Err JInvalidEscapeSequence)
            end
          else Done s (Err JStringControlChar)
        end
      | None => Done s (Err JUnexpectedEof)
      end
    else Done s (Err JUnexpectedEof)
  end.
(** de.rs:702-764. *)
Definition parse_str_bytes_content : M jsl := fun s =>
  parse_str_loop (S (length (j_input s))) (j_index s) (j_index s) (j_index s) s.

(** de.rs:693-696. *)
Definition parse_str_content : M jsl :=
  x <-- parse_str_bytes_content ;;
  if from_utf8_ok (js_data x) then dret x else dfail JInvalidUnicodeCodePoint.

(** The loop of [parse_hex_bytes_content] (de.rs:776-797) over [n] more pairs of
    cells, [len] of them done; the cells are shared between reads and writes.
    Pairs and targets are always inside the slice ([chunks_exact], [iter]). *)
Fixpoint hex_loop (n : nat) (cells : bytes) (len : nat) : bytes * result nat js_de_error :=
  match n with
  | S n' =>
    let a := nth (2 * len) cells 0 in
    let b := nth (2 * len + 1) cells 0 in
    match parse_hex_nib a with
    | Some x =>
      match parse_hex_nib b with
      | Some y => hex_loop n' (splice cells len [x * 16 + y]) (S len)
      | None => (cells, Err JUnexpectedChar)
      end
    | None => if a =? 34 then (cells, Ok len) else (cells, Err JUnexpectedChar)
    end
  | O =>
    (* src.remainder() *)
    if Nat.odd (length cells) then
      if nth (length cells - 1) cells 0 =? 34 then (cells, Ok len) else (cells, Err JUnexpectedEof)
    else (cells, Err JUnexpectedEof)
  end.
(** Replace the unparsed part of the input (same length). *)
Definition put_rest (cells : bytes) : M unit := fun s =>
  Done (jset (firstn (j_index s) (j_input s) ++ cells) (j_index s) s) (Ok tt).
(** de.rs:770-800. *)
Definition parse_hex_bytes_content : M jsl :=
  cells <-- input_mut ;;
  let '(cells, r) := hex_loop (length cells / 2) cells 0 in
  _ <-- put_rest cells ;;
  match r with
  | Ok len => j_split_input len (len + 1)
  | Err e => dfail e
  end.

(** [self.split_input(dlen, elen + 1 - dlen)]: should the subtraction underflow,
    a release build wraps and [split_input]'s checked additions panic. *)
Definition split_base64 (dlen elen : nat) : M jsl :=
  if (dlen <=? elen + 1)%nat then j_split_input dlen (elen + 1 - dlen) else dpanic.
(** de.rs:805-827. *)
Definition parse_base64_bytes_content : M jsl :=
  input <-- input_mut ;;
  match b64_decode ar input with
  | B64Panic => dpanic
  | B64 input dlen elen =>
    let dlen := Z.to_nat dlen in
    let elen := Z.to_nat elen in
    _ <-- put_rest input ;;
    match nth_error input elen with
    | Some c =>
      if c =? 34 then split_base64 dlen elen
      else if c =? 61 then
        match position (fun b => negb (b =? 61)) (skipn (elen + 1) input) with
        | Some pos =>
          let elen := (elen + 1 + pos)%nat in
          match nth_error input elen with
          | Some c => if c =? 34 then split_base64 dlen elen else dfail JUnexpectedChar
          | None => dpanic
          end
        | None => dfail JUnexpectedEof
        end
      else dfail JUnexpectedChar
    | None => dfail JUnexpectedEof
    end
  end.

(** [self.input[index] = byte] in debug builds, an unchecked raw write in release
    builds: out of range is a panic in the model. *)
Definition write_byte (index : nat) (b : Z) : M unit := fun s =>
  if (index <? length (j_input s))%nat
  then Done (jset (splice (j_input s) index [b]) (j_index s) s) (Ok tt) else Panic.
(** The loop of [parse_array_bytes_content] (de.rs:848-868); it returns [index]. *)
Fixpoint array_loop (fuel : nat) (index : nat) : M nat :=
  match fuel with
  | O => fun _ => OutOfFuel
  | S fuel =>
    byte <-- parse_unsigned U8 ;;
    _ <-- write_byte index byte ;;
    let index := S index in
    c <-- eat_whitespace ;;
    if c =? 44 then _ <-- j_eat_some 1 ;; array_loop fuel index
    else if c =? 93 then dret index
    else dfail JUnexpectedChar
  end.
(** de.rs:829-873; the subtraction [self.index + 1 - index] panics on underflow. *)
Definition parse_array_bytes_content : M jsl :=
  c <-- eat_whitespace ;;
  if c =? 93 then j_split_input 0 1
  else fun s =>
    let start := j_index s in
    (index <-- array_loop (S (length (j_input s))) start ;;
     fun s =>
       if (j_index s + 1 <? index)%nat then Panic
       else let offs := (j_index s + 1 - index)%nat in
            j_split_input (index - start) offs (jset (j_input s) start s)) s.

(** [P::decode_string_to_bytes] (de.rs:875-894). *)
Definition decode_string_to_bytes : M jsl :=
  match dec with
  | NopeDecoder => parse_str_bytes_content
  | HexDecoder => parse_hex_bytes_content
  | Base64Decoder => parse_base64_bytes_content
  end.

(** ** The [serde::Deserializer] methods *)
Section Methods.
Context {U : Type}.
Local Notation deser := (deser U js_de_error).
Local Notation visitor := (visitor U js_de_error).
Local Notation sprog := (sprog U js_de_error).
Local Notation mprog := (mprog U js_de_error).
Local Notation eprog := (eprog U js_de_error).
Local Notation vprog := (vprog U js_de_error).

(** Running nested programs (the model's recursion through serde).  [jr_de true]
    runs against [MapKey], [jr_de false] against [&mut Deserializer]; the flag of
    [jr_seq]/[jr_map] is [CommaSeparated::first]; that of [jr_enum] tells
    [UnitVariantAccess] from [VariantAccess]. *)
Record jrunner := {
  jr_de : bool -> deser -> M U;
  jr_seq : sprog -> bool -> M U;
  jr_map : mprog -> bool -> M U;
  jr_enum : bool -> eprog -> M U
}.
Context (R : jrunner).

(** Ghost: remember that [x] was handed to a visitor. *)
Definition j_handed (is_str : bool) (x : jsl) : M unit := fun s =>
  Done {| j_front := j_front s; j_input := j_input s; j_index := j_index s;
          j_log := (is_str, x) :: j_log s |} (Ok tt).

(** de.rs:921-938. *)
Definition j_deserialize_bool (v : visitor) : M U :=
  c <-- eat_whitespace ;;
  if c =? 116 then _ <-- j_eat_some 1 ;; _ <-- parse_token_content tok_rue ;; dlift (visit_bool v true)
  else if c =? 102 then _ <-- j_eat_some 1 ;; _ <-- parse_token_content tok_alse ;; dlift (visit_bool v false)
  else dfail JUnexpectedChar.

(** de.rs:940-986. *)
Definition j_deserialize_int (k : ikind) (v : visitor) : M U :=
  z <-- parse_int k ;; dlift (visit_int v k z).

(** de.rs:988-998. *)
Definition j_deserialize_f32 (v : visitor) : M U :=
  o <-- parse_float (f32_from_str fl) ;;
  dlift (visit_f32 v (match o with Some b => b | None => jf32_NAN end)).
Definition j_deserialize_f64 (v : visitor) : M U :=
  o <-- parse_float (f64_from_str fl) ;;
  dlift (visit_f64 v (match o with Some b => b | None => jf64_NAN end)).

(** de.rs:1000-1012. *)
Definition j_deserialize_char (v : visitor) : M U :=
  c <-- eat_whitespace ;;
  if c =? 34 then
    _ <-- j_eat_some 1 ;; s <-- parse_str_content ;;
    match char_from_str (js_data s) with
    | Some c => dlift (visit_char v c)
    | None => dfail JInvalidLength
    end
  else dfail JExpectedString.

(** de.rs:1014-1030. *)
Definition j_deserialize_str (v : visitor) : M U :=
  c <-- eat_whitespace ;;
  if c =? 34 then
    _ <-- j_eat_some 1 ;; s <-- parse_str_content ;;
    _ <-- j_handed true s ;; dlift (visit_str v (js_data s))
  else dfail JExpectedString.

(** de.rs:1032-1054. *)
Definition j_deserialize_bytes (v : visitor) : M U :=
  c <-- eat_whitespace ;;
  s <-- (if c =? 34 then _ <-- j_eat_some 1 ;; decode_string_to_bytes
         else if c =? 91 then _ <-- j_eat_some 1 ;; parse_array_bytes_content
         else dfail JUnexpectedChar) ;;
  _ <-- j_handed false s ;; dlift (visit_bytes v (js_data s)).

(** de.rs:1056-1067. *)
Definition j_deserialize_option (v : visitor) : M U :=
  c <-- eat_whitespace ;;
  if c =? 110 then _ <-- j_eat_some 1 ;; _ <-- parse_token_content tok_ull ;; dlift (visit_none v)
  else jr_de R false (visit_some v).

(** de.rs:1069-1090. *)
Definition j_deserialize_unit (v : visitor) : M U :=
  c <-- eat_whitespace ;;
  if c =? 110 then _ <-- j_eat_some 1 ;; _ <-- parse_token_content tok_ull ;; dlift (visit_unit v)
  else dfail JExpectedNull.

(** de.rs:1095-1103. *)
Definition j_deserialize_newtype_struct (v : visitor) : M U := jr_de R false (visit_newtype v).

(** de.rs:1105-1119. *)
Definition j_deserialize_seq (v : visitor) : M U :=
  c <-- eat_whitespace ;;
  if c =? 91 then
    _ <-- j_eat_some 1 ;;
    value <-- jr_seq R (visit_seq v) true ;;
    c <-- eat_whitespace ;;
    if c =? 93 then _ <-- j_eat_some 1 ;; dret value else dfail JExpectedArrayEnd
  else dfail JExpectedArray.

(** de.rs:1138-1152. *)
Definition j_deserialize_map (v : visitor) : M U :=
  c <-- eat_whitespace ;;
  if c =? 123 then
    _ <-- j_eat_some 1 ;;
    value <-- jr_map R (visit_map v) true ;;
    c <-- eat_whitespace ;;
    if c =? 125 then _ <-- j_eat_some 1 ;; dret value else dfail JExpectedObjectEnd
  else dfail JExpectedObject.

(** de.rs:1154-1167. *)
Definition j_deserialize_struct (v : visitor) : M U :=
  c <-- eat_whitespace ;;
  if c =? 123 then j_deserialize_map v
  else if c =? 91 then j_deserialize_seq v
  else dfail JExpectedStruct.

(** de.rs:1169-1192. *)
Definition j_deserialize_enum (v : visitor) : M U :=
  c <-- eat_whitespace ;;
  if c =? 34 then jr_enum R true (visit_enum v)
  else if c =? 123 then
    _ <-- j_eat_some 1 ;;
    value <-- jr_enum R false (visit_enum v) ;;
    c <-- eat_whitespace ;;
    if c =? 125 then _ <-- j_eat_some 1 ;; dret value else dfail JExpectedEnumObjectEnd
  else dfail JExpectedEnumValue.

(** de.rs:1200-1222. *)
Definition j_deserialize_ignored_any (v : visitor) : M U :=
  c <-- eat_whitespace ;;
  if c =? 110 then j_deserialize_unit v
  else if (c =? 116) || (c =? 102) then j_deserialize_bool v
  else if c =? 34 then _ <-- j_eat_some 1 ;; _ <-- eat_str_content ;; dlift (visit_unit v)
  else if ascii_digit c || (c =? 45) then
    input <-- match_float ;; _ <-- j_eat_some (length input) ;; dlift (visit_unit v)
  else if c =? 91 then j_deserialize_seq v
  else if c =? 123 then j_deserialize_map v
  else dfail JUnexpectedChar.

(** de.rs:901-919. *)
Definition j_deserialize_any (v : visitor) : M U :=
  c <-- eat_whitespace ;;
  if c =? 110 then j_deserialize_unit v
  else if (c =? 116) || (c =? 102) then j_deserialize_bool v
  else if c =? 34 then j_deserialize_str v
  else if ascii_digit c || (c =? 45) then
    n <-- parse_float_or_int c ;;
    dlift (match n with
           | PosInt n => visit_int v U64 n
           | NegInt n => visit_int v I64 n
           | AnyFloat f => if any_f32 then visit_f32 v f else visit_f64 v f
           end)
  else if c =? 91 then j_deserialize_seq v
  else if c =? 123 then j_deserialize_map v
  else dfail JUnexpectedChar.

(** [impl Deserializer for &mut Deserializer] (de.rs:896-1223); [deserialize_i128]
    and [deserialize_u128] are serde's defaults, which return [Error::custom]. *)
Definition js_method (m : dmethod) (v : visitor) : M U :=
  match m with
  | DAny => j_deserialize_any v
  | DBool => j_deserialize_bool v
  | DInt k => j_deserialize_int k v
  | DI128 => dfail JDeserializeError
  | DF32 => j_deserialize_f32 v
  | DF64 => j_deserialize_f64 v
  | DChar => j_deserialize_char v
  | DStr | DString | DIdentifier => j_deserialize_str v
  | DBytes | DByteBuf => j_deserialize_bytes v
  | DOption => j_deserialize_option v
  | DUnit | DUnitStruct => j_deserialize_unit v
  | DNewtypeStruct => j_deserialize_newtype_struct v
  | DSeq | DTuple | DTupleStruct => j_deserialize_seq v
  | DMap => j_deserialize_map v
  | DStruct => j_deserialize_struct v
  | DEnum => j_deserialize_enum v
  | DIgnoredAny => j_deserialize_ignored_any v
  end.

(** [parse_unsigned_numkey] and [parse_signed_numkey] (de.rs:1319-1347). *)
Definition parse_numkey (k : ikind) : M Z :=
  _ <-- j_eat_some 1 ;;
  n <-- parse_int k ;;
  c <-- j_peek ;;
  if c =? 34 then _ <-- j_eat_some 1 ;; dret n else dfail JInvalidNumber.

(** de.rs:1418-1430. *)
Definition key_bool (v : visitor) : M U :=
  _ <-- j_eat_some 1 ;;
  b <-- j_deserialize_bool v ;;
  c <-- j_peek ;;
  if c =? 34 then _ <-- j_eat_some 1 ;; dret b else dfail JInvalidType.

(** [impl Deserializer for MapKey] (de.rs:1351-1451); everything forwarded to
    [deserialize_any] reads a string. *)
Definition key_method (m : dmethod) (v : visitor) : M U :=
  match m with
  | DChar => j_deserialize_char v
  | DInt k => n <-- parse_numkey k ;; dlift (visit_int v k n)
  | DBool => key_bool v
  | DEnum => jr_enum R true (visit_enum v)
  | _ => j_deserialize_str v
  end.

(** [impl VariantAccess] for [UnitVariantAccess] (de.rs:1472-1497, [unit] = true)
    and for [VariantAccess] (de.rs:1519-1544, [unit] = false). *)
Definition j_run_variant (unit : bool) (p : vprog) : M U :=
  match p with
  | VRet r => dlift r
  | VUnit k => dlift (k (if unit then Ok tt else Err JInvalidType))
  | VNewtype seed post => dpost post (if unit then dfail JInvalidType else jr_de R false seed)
  | VTuple v post => dpost post (if unit then dfail JInvalidType else j_deserialize_seq v)
  | VStruct v post => dpost post (if unit then dfail JInvalidType else j_deserialize_struct v)
  end.

Definition jres_some (r : result U js_de_error) : result (option U) js_de_error :=
  match r with Ok u => Ok (Some u) | Err e => Err e end.

(** One step of running a program; both deserializers are human readable (serde's
    default, not overridden). *)
Definition j_step_de (key : bool) (p : deser) : M U :=
  match p with
  | DRet r => dlift r
  | DHuman k => jr_de R key (k true)
  | DReq m v post => dpost post (if key then key_method m v else js_method m v)
  end.

(** What [next_element_seed] and [next_key_seed] do before calling the seed
    (de.rs:1246-1263 and 1273-1294), for the closing character [close] and the errors
    of each.  [Some (peek, first)]: go on with the character at the cursor. *)
Definition next_item (close : Z) (leading trailing expected : js_de_error) (first : bool) : M (option (Z * bool)) :=
  c <-- eat_whitespace ;;
  if c =? close then dret None
  else if c =? 44 then
    if first then dfail leading
    else _ <-- j_eat_some 1 ;;
         c <-- eat_whitespace ;;
         if c =? close then dfail trailing else dret (Some (c, first))
  else if first then dret (Some (c, false))
  else dfail expected.

(** [impl SeqAccess for CommaSeparated] (de.rs:1239-1265).  The flag [first] is
    cleared exactly when an element follows without a comma. *)
Definition j_step_seq (p : sprog) (first : bool) : M U :=
  match p with
  | SRet r => dlift r
  | SNext seed k =>
    dtry (next_item 93 JLeadingArrayComma JTrailingArrayComma JExpectedArrayCommaOrEnd first) (fun r =>
      match r with
      | Ok None => jr_seq R (k (Ok None)) first
      | Ok (Some (_, first)) => dtry (jr_de R false seed) (fun r => jr_seq R (k (jres_some r)) first)
      | Err e => jr_seq R (k (Err e)) first
      end)
  | SHint k => jr_seq R (k None) first
  end.
(** [impl MapAccess for CommaSeparated] (de.rs:1267-1311). *)
Definition j_step_map (p : mprog) (first : bool) : M U :=
  match p with
  | MRet r => dlift r
  | MKey seed k =>
    dtry (next_item 125 JLeadingObjectComma JTrailingObjectComma JExpectedObjectCommaOrEnd first) (fun r =>
      match r with
      | Ok None => jr_map R (k (Ok None)) first
      | Ok (Some (peek, first)) =>
        if peek =? 34 then dtry (jr_de R true seed) (fun r => jr_map R (k (jres_some r)) first)
        else jr_map R (k (Err JKeyMustBeAString)) first
      | Err e => jr_map R (k (Err e)) first
      end)
  | MVal seed k =>
    dtry (_ <-- parse_key_colon ;; jr_de R false seed) (fun r => jr_map R (k r) first)
  | MHint k => jr_map R (k None) first
  end.
(** [variant_seed] (de.rs:1463-1469 and 1509-1516). *)
Definition j_step_enum (unit : bool) (p : eprog) : M U :=
  match p with
  | ERet r => dlift r
  | EVariant seed kerr kok =>
    dtry (u <-- jr_de R false seed ;;
          _ <-- (if unit then dret tt else parse_key_colon) ;; dret u) (fun r =>
      match r with
      | Ok u => j_run_variant unit (kok u)
      | Err e => dlift (kerr e)
      end)
  end.
End Methods.

(** Run a program with a step budget. *)
Fixpoint js_run {U} (fuel : nat) : @jrunner U :=
  match fuel with
  | O => {| jr_de := fun _ _ _ => OutOfFuel; jr_seq := fun _ _ _ => OutOfFuel;
            jr_map := fun _ _ _ => OutOfFuel; jr_enum := fun _ _ _ => OutOfFuel |}
  | S f => let R := js_run f in
           {| jr_de := j_step_de R; jr_seq := j_step_seq R; jr_map := j_step_map R;
              jr_enum := j_step_enum R |}
  end.

(** [from_mut_slice_with_decoder] (de.rs:37-46); [from_mut_slice],
    [from_mut_slice_hex_bytes] and [from_mut_slice_base64_bytes] (de.rs:60-100) are
    its instances for the three decoders. *)
Definition js_from_mut_slice {U} (fuel : nat) (p : deser U js_de_error) (input : bytes)
  : outcome jde U js_de_error :=
  (value <-- jr_de (js_run fuel) false p ;; _ <-- j_end ;; dret value) (j_from_mut_slice input).
End JsonDe.

(** Model of /repo/ser-write-json/src/ser.rs: the JSON serializer. *)
From Verif Require Import Prelude Utf8 Writer SerdeSer SerMonad Base64.

(** [enum Error<E>] (ser.rs:37-54); the message of [SerializeError] is dropped;
    [JPanic] is a Rust panic (or a read of uninitialized memory). *)
Inductive js_ser_error (E : Type) :=
| JWriter (e : E)
| JInvalidKeyType | JUtf8Encode | JFormatError
| JSerializeError
| JPanic.
Arguments JWriter {E} e.
Arguments JInvalidKeyType {E}.
Arguments JUtf8Encode {E}.
Arguments JFormatError {E}.
Arguments JSerializeError {E}.
Arguments JPanic {E}.

(** The four [ByteEncoder]s (ser.rs:110-117). *)
Inductive byte_encoder := ArrayByteEncoder | HexStrByteEncoder | Base64ByteEncoder | PassThroughByteEncoder.

(** [ryu_js::Buffer::format_finite] for both float types.  The crate ryu-js is not
    part of /repo: any function is allowed here, theorems state what they need. *)
Record float_printer := { format_f32 : Z -> bytes; format_f64 : Z -> bytes }.

(** [f32::is_finite] / [f64::is_finite] on bit patterns: [self.abs() < INFINITY]. *)
Definition is_finite_f32 (bits : Z) : bool := bits mod 2 ^ 31 <? 0x7f800000.
Definition is_finite_f64 (bits : Z) : bool := bits mod 2 ^ 63 <? 0x7ff0000000000000.

(** [hex_4bit] (ser.rs:297-303) and [hex] (ser.rs:307-309). *)
Definition hex_4bit (c : Z) : Z := if c <=? 9 then 0x30 + c else 0x41 + (c - 10).
Definition hex (c : Z) : bytes := [hex_4bit (Z.shiftr c 4); hex_4bit (Z.land c 0x0F)].

(** A [MaybeUninit] buffer of digits: [None] is an uninitialized byte. *)
Definition scratch := list (option Z).

(** [buf[i].write(b)]: [None] is the panic of an index out of range. *)
Definition scratch_write (buf : scratch) (i : nat) (b : Z) : option scratch :=
  if (i <? length buf)%nat then Some (splice buf i [Some b]) else None.

(** [&*(&buf[i..] as *const _ as *const [u8])]: [None] is an out of range slice or
    a read of an uninitialized byte. *)
Fixpoint assume_init (buf : scratch) : option bytes :=
  match buf with
  | [] => Some []
  | Some b :: buf => option_map (cons b) (assume_init buf)
  | None :: _ => None
  end.
Definition scratch_from (buf : scratch) (i : nat) : option bytes :=
  if (i <=? length buf)%nat then assume_init (skipn i buf) else None.

(** The loop of [serialize_unsigned!] (ser.rs:319-328), from index [i] downwards;
    [i -= 1] at 0 panics. *)
Fixpoint unsigned_loop (buf : scratch) (i : nat) (v : Z) : option (scratch * nat) :=
  match scratch_write buf i (v mod 10 + 48) with
  | None => None
  | Some buf =>
    let v := v / 10 in
    if v =? 0 then Some (buf, i)
    else match i with O => None | S i => unsigned_loop buf i v end
  end.

(** [serialize_unsigned!] (ser.rs:311-334): the digits written. *)
Definition unsigned_digits (N : nat) (v : Z) : option bytes :=
  match unsigned_loop (repeat None N) (N - 1) v with
  | Some (buf, i) => scratch_from buf i
  | None => None
  end.

(** The loop of [serialize_signed!] (ser.rs:351-360). *)
Fixpoint signed_loop (buf : scratch) (i : nat) (v : Z) : option (scratch * nat) :=
  match scratch_write buf i (v mod 10 + 48) with
  | None => None
  | Some buf =>
    let v := v / 10 in
    match i with
    | O => None
    | S i => if v =? 0 then Some (buf, i) else signed_loop buf i v
    end
  end.

(** [serialize_signed!] (ser.rs:336-373) for the type whose extreme values are
    [min] and [max]. *)
Definition signed_digits (N : nat) (min max v : Z) : option bytes :=
  let '(signed, v) :=
    if v =? min then (true, max + 1)
    else if v <? 0 then (true, - v)
    else (false, v) in
  match signed_loop (repeat None N) (N - 1) v with
  | None => None
  | Some (buf, i) =>
    if (signed : bool) then
      match scratch_write buf i 45 with Some buf => scratch_from buf i | None => None end
    else scratch_from buf (i + 1)
  end.

(** ser.rs:1028-1043. *)
Definition BB : Z := 98.   Definition TT : Z := 116.  Definition NN : Z := 110.
Definition FF : Z := 102.  Definition RR : Z := 114.  Definition QU : Z := 34.
Definition BS : Z := 92.   Definition UU : Z := 117.
Definition ESCAPE : list Z :=
  [UU; UU; UU; UU; UU; UU; UU; UU; BB; TT; NN; UU; FF; RR; UU; UU;
   UU; UU; UU; UU; UU; UU; UU; UU; UU; UU; UU; UU; UU; UU; UU; UU].

(** [str::is_char_boundary]. *)
Definition is_char_boundary (s : bytes) (i : nat) : bool :=
  if (i =? 0)%nat then true
  else if (length s <=? i)%nat then (i =? length s)%nat
  else let b := nth i s 0 in (b <? 128) || (192 <=? b).

(** [&s[a..b]] on a [str]; [None] is the panic. *)
Definition str_slice (s : bytes) (a b : nat) : option bytes :=
  if (a <=? b)%nat && is_char_boundary s a && is_char_boundary s b then Some (slice s a (b - a)) else None.

Section Ser.
Context {W E : Type} (SW : SerWrite W E) (fp : float_printer) (enc : byte_encoder).

(** A serializer method: takes [&mut self] (whose only field is the writer). *)
Local Notation M := (SM W (js_ser_error E)).
Local Notation ret := sret.
Local Notation fail := sfail.
Local Open Scope ser_scope.

(** [self.output.write(..)?] with [From<E> for Error<E>] (ser.rs:95-99). *)
Definition js_write (bs : bytes) : M unit := slift JWriter (fun w => sw_write SW w bs).
Definition js_write_byte (b : Z) : M unit := slift JWriter (fun w => sw_write_byte SW w b).
Definition js_write_str (s : bytes) : M unit := slift JWriter (fun w => sw_write_str SW w s).

(** A panic inside a method. *)
Definition js_unwrap {A} (o : option A) : M A := match o with Some a => ret a | None => fail JPanic end.

(** [serialize_bytes_as_hex_str] (ser.rs:287-293). *)
Fixpoint serialize_bytes_as_hex_str (v : bytes) : M unit :=
  match v with
  | [] => ret tt
  | b :: v => js_write (hex b) ;; serialize_bytes_as_hex_str v
  end.

(** The loop of [format_escaped_str_contents] (ser.rs:997-1019) over the bytes [rest]
    from index [i] on, and what follows it (ser.rs:1021-1025). *)
Fixpoint escape_loop (value rest : bytes) (i start : nat) : M unit :=
  match rest with
  | [] =>
    if (start =? length value)%nat then ret tt
    else s <- js_unwrap (str_slice value start (length value)) ;; js_write_str s
  | byte :: rest =>
    match (if byte <=? 0x1F then Some (nth (Z.to_nat byte) ESCAPE 0)
           else if (byte =? QU) || (byte =? BS) then Some byte
           else None) with
    | None => escape_loop value rest (S i) start
    | Some escape =>
      (if (start <? i)%nat then s <- js_unwrap (str_slice value start i) ;; js_write_str s else ret tt) ;;
      (if escape =? UU then js_write [92; 117; 48; 48] ;; js_write (hex byte)
       else js_write [92; escape]) ;;
      escape_loop value rest (S i) (S i)
    end
  end.

(** [format_escaped_str_contents] (ser.rs:989-1026). *)
Definition format_escaped_str_contents (value : bytes) : M unit := escape_loop value value 0 0.

(** ser.rs:397-435. *)
Definition js_bool (v : bool) : M unit :=
  js_write (if v then [116; 114; 117; 101] else [102; 97; 108; 115; 101]).
Definition js_i32 (v : Z) : M unit := s <- js_unwrap (signed_digits 11 (imin I32) (imax I32) v) ;; js_write s.
Definition js_i64 (v : Z) : M unit := s <- js_unwrap (signed_digits 20 (imin I64) (imax I64) v) ;; js_write s.
Definition js_u32 (v : Z) : M unit := s <- js_unwrap (unsigned_digits 10 v) ;; js_write s.
Definition js_u64 (v : Z) : M unit := s <- js_unwrap (unsigned_digits 20 v) ;; js_write s.
Definition js_int (k : ikind) (v : Z) : M unit :=
  match k with
  | I8 | I16 | I32 => js_i32 v
  | I64 => js_i64 v
  | U8 | U16 | U32 => js_u32 v
  | U64 => js_u64 v
  end.

(** [serialize_none] (ser.rs:469-471): [null]. *)
Definition js_none : M unit := js_write [110; 117; 108; 108].

(** [serialize_f32] / [serialize_f64] (ser.rs:437-451) with [serialize_ryu!] (ser.rs:375-381). *)
Definition js_f32 (v : Z) : M unit := if is_finite_f32 v then js_write_str (format_f32 fp v) else js_none.
Definition js_f64 (v : Z) : M unit := if is_finite_f64 v then js_write_str (format_f64 fp v) else js_none.

(** [serialize_str] (ser.rs:459-463) and [serialize_char] (ser.rs:453-457). *)
Definition js_str (v : bytes) : M unit :=
  js_write_byte 34 ;; format_escaped_str_contents v ;; js_write_byte 34.
Definition js_char (c : Z) : M unit := js_str (encode_utf8 c).

(** [SeqMapSerializer::serialize_element] / [serialize_field] of the sequence kinds
    (ser.rs:819-829, 842-852, 865-875, 889-899); the state is [first]. *)
Definition js_element (first : bool) (value : M unit) : M bool :=
  (if first then ret tt else js_write_byte 44) ;; value ;; ret false.

(** The [for] loop of [ArrayByteEncoder] (ser.rs:125-127). *)
Fixpoint js_byte_items (first : bool) (v : bytes) : M bool :=
  match v with
  | [] => ret first
  | b :: v => first <- js_element first (js_u32 b) ;; js_byte_items first v
  end.

(** [base64::encode(ser.writer(), v)?]: the padding count is dropped. *)
Definition js_base64 (v : bytes) : M unit := fun w =>
  let '(w', r) := b64_encode SW v w in
  (w', match r with Ok _ => Ok tt | Err e => Err (JWriter e) end).

(** [serialize_bytes] (ser.rs:465-467) with the four encoders (ser.rs:119-158). *)
Definition js_bytes (v : bytes) : M unit :=
  match enc with
  | ArrayByteEncoder => js_write_byte 91 ;; js_byte_items true v ;; js_write_byte 93
  | HexStrByteEncoder => js_write_byte 34 ;; serialize_bytes_as_hex_str v ;; js_write_byte 34
  | Base64ByteEncoder => js_write_byte 34 ;; js_base64 v ;; js_write_byte 34
  | PassThroughByteEncoder => js_write v
  end.

(** [StringCollector] as [fmt::Write] (ser.rs:805-809).  The state also records that
    a panic has happened: everything after it is cut off. *)
Definition string_collector_write (st : W * bool) (s : bytes) : (W * bool) * bool :=
  let '(w, panicked) := st in
  if (panicked : bool) then (st, false)
  else
    let '(w', r) := format_escaped_str_contents s w in
    match r with
    | Ok _ => ((w', false), true)
    | Err JPanic => ((w', true), false)
    | Err _ => ((w', false), false)
    end.

(** [fmt::write(&mut col, format_args!("{}", value)).map_err(..)?] (ser.rs:587). *)
Definition js_fmt (p : fmtp) : M unit := fun w =>
  let '((w', panicked), ok) := run_fmt string_collector_write p (w, false) in
  (w', if (panicked : bool) then Err JPanic else if (ok : bool) then Ok tt else Err JFormatError).

(** [collect_str] (ser.rs:582-589). *)
Definition js_collect_str (p : fmtp) : M unit := js_write_byte 34 ;; js_fmt p ;; js_write_byte 34.

(** [KeySer::quote] (ser.rs:601-606). *)
Definition js_quote (m : M unit) : M unit := js_write_byte 34 ;; m ;; js_write_byte 34.

(** A Serialize impl driving a [KeySer] (ser.rs:609-778). *)
Fixpoint js_key (v : sval) : M unit :=
  match v with
  | SBool b => js_quote (js_bool b)
  | SInt k z => js_quote (js_int k z)
  | SI128 => fail JSerializeError          (* serde's default serialize_i128/u128 *)
  | SF32 _ | SF64 _ => fail JInvalidKeyType
  | SChar c => js_char c
  | SStr s => js_str s
  | SBytes _ => fail JInvalidKeyType
  | SNone | SSome _ | SUnit | SUnitStruct => fail JInvalidKeyType
  | SUnitVariant _ n => js_str n
  | SNewtypeStruct v => js_key v
  | SNewtypeVariant _ _ _ => fail JInvalidKeyType
  | SSeq _ _ | STuple _ _ | STupleStruct _ _ | STupleVariant _ _ _ _ => fail JInvalidKeyType
  | SMap _ _ | SStruct _ _ | SStructVariant _ _ _ _ => fail JInvalidKeyType
  | SCollect p _ => js_collect_str p
  | SCustom => fail JSerializeError
  end.

(** [SerializeMap for SeqMapSerializer] (ser.rs:915-932). *)
Definition js_map_key (first : bool) (key : M unit) : M bool :=
  (if first then ret tt else js_write_byte 44) ;; key ;; ret false.
Definition js_map_value (first : bool) (value : M unit) : M bool :=
  js_write [58] ;; value ;; ret first.

(** [serialize_field] of [SerializeStruct] and [SerializeStructVariant]
    (ser.rs:945-957, 970-982); [skip_field] is serde's default (no-op). *)
Definition js_field (first : bool) (key : bytes) (value : M unit) : M bool :=
  (if first then ret tt else js_write_byte 44) ;;
  js_str key ;; js_write [58] ;; value ;; ret false.

(** Drive [SeqMapSerializer] over the parts of a value: one call per part. *)
Definition js_items (ser : sval -> M unit) : list sval -> bool -> M bool :=
  fix items l first :=
    match l with
    | [] => ret first
    | x :: l => first <- js_element first (ser x) ;; items l first
    end.
Definition js_entries (ser : sval -> M unit) : list (bool * sval) -> bool -> M bool :=
  fix entries l first :=
    match l with
    | [] => ret first
    | (isk, x) :: l =>
      first <- (if isk then js_map_key first (js_key x) else js_map_value first (ser x)) ;;
      entries l first
    end.
Definition js_fields (ser : sval -> M unit) : list (bytes * option sval) -> bool -> M bool :=
  fix fields l first :=
    match l with
    | [] => ret first
    | (k, x) :: l =>
      first <- (match x with Some x => js_field first k (ser x) | None => ret first end) ;;
      fields l first
    end.

(** [serialize_seq] and the other openers (ser.rs:523-580): all return [first: true]. *)
Definition js_open (b : Z) : M bool := js_write_byte b ;; ret true.
Definition js_open_variant (name : bytes) (sep : bytes) : M bool :=
  js_write_byte 123 ;; js_str name ;; js_write sep ;; ret true.

(** A Serialize impl driving the serializer ([value.serialize(&mut serializer)],
    ser.rs:383-590 and the [end] methods of ser.rs:780-987). *)
Fixpoint js_ser (v : sval) : M unit :=
  match v with
  | SBool b => js_bool b
  | SInt k z => js_int k z
  | SI128 => fail JSerializeError          (* serde's default serialize_i128/u128 *)
  | SF32 b => js_f32 b
  | SF64 b => js_f64 b
  | SChar c => js_char c
  | SStr s => js_str s
  | SBytes s => js_bytes s
  | SNone => js_none
  | SSome v => js_ser v
  | SUnit => js_none
  | SUnitStruct => js_none
  | SUnitVariant _ n => js_str n
  | SNewtypeStruct v => js_ser v
  | SNewtypeVariant _ n v =>
    js_write_byte 123 ;; js_str n ;; js_write_byte 58 ;; js_ser v ;; js_write_byte 125
  | SSeq _ l => first <- js_open 91 ;; js_items js_ser l first ;; js_write_byte 93
  | STuple _ l => first <- js_open 91 ;; js_items js_ser l first ;; js_write_byte 93
  | STupleStruct _ l => first <- js_open 91 ;; js_items js_ser l first ;; js_write_byte 93
  | STupleVariant _ n _ l =>
    first <- js_open_variant n [58; 91] ;; js_items js_ser l first ;; js_write [93; 125]
  | SMap _ l => first <- js_open 123 ;; js_entries js_ser l first ;; js_write_byte 125
  | SStruct _ l => first <- js_open 123 ;; js_fields js_ser l first ;; js_write_byte 125
  | SStructVariant _ n _ l =>
    first <- js_open_variant n [58; 123] ;; js_fields js_ser l first ;; js_write [125; 125]
  | SCollect p _ => js_collect_str p
  | SCustom => fail JSerializeError
  end.

(** [to_writer_with_encoder] (ser.rs:204-212) and its four instances (ser.rs:217-259):
    the writer is moved into a fresh serializer. *)
Definition js_to_writer (w : W) (v : sval) : W * result unit (js_ser_error E) := js_ser v w.
End Ser.

(** [to_string], [to_string_hex_bytes], [to_string_base64_bytes] (ser.rs:162-192), with
    memory available: the bytes given to [String::from_utf8_unchecked]; and
    [to_string_pass_bytes] (ser.rs:195-202), which checks them. *)
Definition js_to_string (fp : float_printer) (enc : byte_encoder) (v : sval) : result bytes (js_ser_error ser_error) :=
  match js_to_writer VecWriter fp enc [] v with
  | (out, Ok _) =>
    match enc with
    | PassThroughByteEncoder => if from_utf8_ok out then Ok out else Err JUtf8Encode
    | _ => Ok out
    end
  | (_, Err e) => Err e
  end.

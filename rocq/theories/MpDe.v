(** Model of /repo/ser-write-msgpack/src/de.rs: the MessagePack deserializer. *)
From Verif Require Import Prelude Utf8 SerdeDe MpMagick.
From Verif Require Export FloatOps Arch.

(** A borrowed [&'de [u8]]: its position in the original input, and its bytes. *)
Record sl := { sl_off : Z; sl_data : bytes }.

(** [struct Deserializer] (de.rs:55-58).  [d_log] is a ghost field: the slices
    handed to visitors so far ([true]: as a [&str]), most recent first. *)
Record mpde := { d_input : sl; d_index : Z; d_log : list (bool * sl) }.

(** [enum Error] (de.rs:66-107); the text of [DeserializeError] is dropped. *)
Inductive mp_de_error :=
| UnexpectedEof | ReservedCode | UnsupportedExt | InvalidInteger | InvalidType
| InvalidUnicodeCodePoint | ExpectedInteger | ExpectedNumber | ExpectedString
| ExpectedBin | ExpectedNil | ExpectedArray | ExpectedMap | ExpectedStruct
| ExpectedIdentifier | TrailingElements | InvalidLength | DeserializeError.

Definition f32_NAN : Z := 0x7fc00000.
Definition f64_NAN : Z := 0x7ff8000000000000.

Section MpDe.
Context (ar : arch) (fo : float_ops).
Local Notation M := (DM mpde mp_de_error).

(** [usize] addition. *)
Definition uadd (a b : Z) : M Z :=
  if a + b <=? usize_max ar then dret (a + b)
  else if overflow_checks ar then dpanic
  else dret ((a + b) mod (usize_max ar + 1)).

(** [usize::try_from(x)?] with [From<TryFromIntError>] (de.rs:153-157). *)
Definition try_usize (x : Z) : M Z :=
  if x <=? usize_max ar then dret x else dfail InvalidInteger.

(** de.rs:186-188. *)
Definition de_from_slice (input : bytes) : mpde :=
  {| d_input := {| sl_off := 0; sl_data := input |}; d_index := 0; d_log := [] |}.

(** de.rs:194-198. *)
Definition de_end : M Z := fun s =>
  if d_index s <=? zlen (sl_data (d_input s)) then Done s (Ok (zlen (sl_data (d_input s)) - d_index s))
  else Done s (Err UnexpectedEof).

(** de.rs:204-206. *)
Definition remaining_len (s : mpde) : Z := Z.max 0 (zlen (sl_data (d_input s)) - d_index s).

(** de.rs:211-214. *)
Definition peek : M byte := fun s =>
  match nth_error (sl_data (d_input s)) (Z.to_nat (d_index s)) with
  | Some b => Done s (Ok b)
  | None => Done s (Err UnexpectedEof)
  end.

Definition set_index (i : Z) : M unit := fun s =>
  Done {| d_input := d_input s; d_index := i; d_log := d_log s |} (Ok tt).
Definition get_index : M Z := fun s => Done s (Ok (d_index s)).

(** de.rs:219-221. *)
Definition eat_some (len : Z) : M unit :=
  i <-- get_index ;; j <-- uadd i len ;; set_index j.

(** [self.input.get(self.index..)] as used in de.rs:227-229 and 239. *)
Definition input_ref : M sl := fun s =>
  if d_index s <=? zlen (sl_data (d_input s)) then
    Done s (Ok {| sl_off := sl_off (d_input s) + d_index s;
                  sl_data := skipn (Z.to_nat (d_index s)) (sl_data (d_input s)) |})
  else Done s (Err UnexpectedEof).

(** de.rs:238-246. *)
Definition split_input (len : Z) : M sl :=
  input <-- input_ref ;;
  if len <=? zlen (sl_data input) then fun s =>
    Done {| d_input := {| sl_off := sl_off input + len; sl_data := skipn (Z.to_nat len) (sl_data input) |};
            d_index := 0; d_log := d_log s |}
         (Ok {| sl_off := sl_off input; sl_data := firstn (Z.to_nat len) (sl_data input) |})
  else dfail UnexpectedEof.

(** de.rs:248-252. *)
Definition fetch : M byte :=
  c <-- peek ;; _ <-- eat_some 1 ;; dret c.

(** de.rs:254-261.  [get(a..b)] is [None] unless a <= b <= len; the [unwrap]
    panics unless exactly [n] bytes were found. *)
Definition fetch_array (n : Z) : M bytes :=
  i <-- get_index ;;
  j <-- uadd i n ;;
  fun s =>
    if (i <=? j) && (j <=? zlen (sl_data (d_input s))) then
      let res := slice (sl_data (d_input s)) (Z.to_nat i) (Z.to_nat (j - i)) in
      if zlen res =? n then (_ <-- eat_some n ;; dret res) s else Panic
    else Done s (Err UnexpectedEof).

(** de.rs:263-301. *)
Definition fetch_unsigned (n : Z) : M Z := b <-- fetch_array n ;; dret (be_val b).
Definition fetch_signed (n : Z) : M Z := b <-- fetch_array n ;; dret (to_signed (8 * n) (be_val b)).
Definition fetch_u8 := fetch_unsigned 1.
Definition fetch_u16 := fetch_unsigned 2.
Definition fetch_u32 := fetch_unsigned 4.
Definition fetch_u64 := fetch_unsigned 8.
Definition fetch_i8 := fetch_signed 1.
Definition fetch_i16 := fetch_signed 2.
Definition fetch_i32 := fetch_signed 4.
Definition fetch_i64 := fetch_signed 8.
Definition fetch_f32 := fetch_unsigned 4.
Definition fetch_f64 := fetch_unsigned 8.

(** The inclusive range patterns of the [match]es. *)
Definition between (lo hi c : Z) : bool := (lo <=? c) && (c <=? hi).

(** de.rs:303-312. *)
Definition parse_str : M sl :=
  c <-- fetch ;;
  len <-- (if between FIXSTR FIXSTR_MAX c then dret (Z.land c MAX_FIXSTR_SIZE)
           else if c =? STR_8 then fetch_u8
           else if c =? STR_16 then fetch_u16
           else if c =? STR_32 then (n <-- fetch_u32 ;; try_usize n)
           else dfail ExpectedString) ;;
  s <-- split_input len ;;
  if from_utf8_ok (sl_data s) then dret s else dfail InvalidUnicodeCodePoint.

(** de.rs:314-322. *)
Definition parse_bytes : M sl :=
  c <-- fetch ;;
  len <-- (if c =? BIN_8 then fetch_u8
           else if c =? BIN_16 then fetch_u16
           else if c =? BIN_32 then (n <-- fetch_u32 ;; try_usize n)
           else dfail ExpectedBin) ;;
  split_input len.

(** [try_into()?] into the integer type [k]. *)
Definition try_int (k : ikind) (z : Z) : M Z :=
  match try_from k z with Some v => dret v | None => dfail InvalidInteger end.

(** The pattern [MIN_POSFIXINT..=MAX_POSFIXINT|NEGFIXINT..=0xff]. *)
Definition is_fixint (c : Z) : bool := between 0 MAX_POSFIXINT c || between NEGFIXINT 0xff c.

(** de.rs:324-353. *)
Definition parse_integer (k : ikind) : M Z :=
  c <-- fetch ;;
  if is_fixint c then try_int k (to_signed 8 c)
  else if c =? UINT_8 then (n <-- fetch_u8 ;; try_int k n)
  else if c =? UINT_16 then (n <-- fetch_u16 ;; try_int k n)
  else if c =? UINT_32 then (n <-- fetch_u32 ;; try_int k n)
  else if c =? UINT_64 then (n <-- fetch_u64 ;; try_int k n)
  else if c =? INT_8 then (n <-- fetch_i8 ;; try_int k n)
  else if c =? INT_16 then (n <-- fetch_i16 ;; try_int k n)
  else if c =? INT_32 then (n <-- fetch_i32 ;; try_int k n)
  else if c =? INT_64 then (n <-- fetch_i64 ;; try_int k n)
  else dfail ExpectedInteger.

(** [enum MsgType] (de.rs:171-175). *)
Inductive msg_type := Single (n : Z) | Array (n : Z) | Map (n : Z).

(** The first [match] of [eat_message] (de.rs:361-396). *)
Definition eat_header : M msg_type :=
  c <-- fetch ;;
  if (c =? NIL) || (c =? FALSE) || (c =? TRUE) || is_fixint c then dret (Single 0)
  else if between FIXMAP FIXMAP_MAX c then dret (Map (Z.land c MAX_FIXMAP_SIZE))
  else if between FIXARRAY FIXARRAY_MAX c then dret (Array (Z.land c MAX_FIXARRAY_SIZE))
  else if between FIXSTR FIXSTR_MAX c then dret (Single (Z.land c MAX_FIXSTR_SIZE))
  else if c =? RESERVED then dfail ReservedCode
  else if (c =? BIN_8) || (c =? STR_8) then (n <-- fetch_u8 ;; dret (Single n))
  else if (c =? BIN_16) || (c =? STR_16) then (n <-- fetch_u16 ;; dret (Single n))
  else if (c =? BIN_32) || (c =? STR_32) then
    (n <-- fetch_u32 ;; n <-- try_usize n ;; dret (Single n))
  else if c =? EXT_8 then (n <-- fetch_u8 ;; n <-- uadd 1 n ;; dret (Single n))
  else if c =? EXT_16 then (n <-- fetch_u16 ;; n <-- uadd 1 n ;; dret (Single n))
  else if c =? EXT_32 then
    (n <-- fetch_u32 ;; n <-- try_usize n ;; n <-- uadd 1 n ;; dret (Single n))
  else if c =? FLOAT_32 then dret (Single 4)
  else if c =? FLOAT_64 then dret (Single 8)
  else if c =? UINT_8 then dret (Single 1)
  else if c =? UINT_16 then dret (Single 2)
  else if c =? UINT_32 then dret (Single 4)
  else if c =? UINT_64 then dret (Single 8)
  else if c =? INT_8 then dret (Single 1)
  else if c =? INT_16 then dret (Single 2)
  else if c =? INT_32 then dret (Single 4)
  else if c =? INT_64 then dret (Single 8)
  else if c =? FIXEXT_1 then dret (Single 2)
  else if c =? FIXEXT_2 then dret (Single 3)
  else if c =? FIXEXT_4 then dret (Single 5)
  else if c =? FIXEXT_8 then dret (Single 9)
  else if c =? FIXEXT_16 then dret (Single 17)
  else if c =? ARRAY_16 then (n <-- fetch_u16 ;; dret (Array n))
  else if c =? ARRAY_32 then (n <-- fetch_u32 ;; n <-- try_usize n ;; dret (Array n))
  else if c =? MAP_16 then (n <-- fetch_u16 ;; dret (Map n))
  else (* MAP_32, the only code left *)
    (n <-- fetch_u32 ;; n <-- try_usize n ;; dret (Map n)).

(** The [Single] arm (de.rs:398-404). *)
Definition eat_single (len : Z) : M unit :=
  i <-- get_index ;;
  index <-- uadd i len ;;
  fun s => if zlen (sl_data (d_input s)) <? index then Done s (Err UnexpectedEof)
           else set_index index s.

(** [eat_message] (de.rs:359-409) and its helpers [eat_seq_items] (de.rs:411-416,
    [times] = 1) and [eat_map_items] (de.rs:418-424, [times] = 2).  The [for]
    loops and the recursion share one step budget. *)
Fixpoint eat_message (fuel : nat) : M unit :=
  match fuel with
  | O => fun _ => OutOfFuel
  | S f =>
    t <-- eat_header ;;
    match t with
    | Single len => eat_single len
    | Array len => eat_items f false len
    | Map len => eat_items f true len
    end
  end
with eat_items (fuel : nat) (pairs : bool) (len : Z) : M unit :=
  if len <=? 0 then dret tt
  else match fuel with
  | O => fun _ => OutOfFuel
  | S f =>
    _ <-- eat_message f ;;
    _ <-- (if pairs then eat_message f else dret tt) ;;
    eat_items f pairs (len - 1)
  end.

(** ** The [serde::Deserializer] methods *)
Section Methods.
Context {U : Type}.
Local Notation deser := (deser U mp_de_error).
Local Notation visitor := (visitor U mp_de_error).
Local Notation sprog := (sprog U mp_de_error).
Local Notation mprog := (mprog U mp_de_error).
Local Notation eprog := (eprog U mp_de_error).
Local Notation vprog := (vprog U mp_de_error).

(** Running nested programs (the model's recursion through serde):
    [r_seq]/[r_map] also return the [count] left in the [CountingAccess]. *)
Record runner := {
  r_de : deser -> M U;
  r_seq : sprog -> Z -> M (U * Z);
  r_map : mprog -> Z -> M (U * Z);
  r_enum : bool -> eprog -> M U;
  r_eat : M unit
}.
Context (R : runner).

(** Ghost: remember that [x] was handed to a visitor. *)
Definition handed (is_str : bool) (x : sl) : M unit := fun s =>
  Done {| d_input := d_input s; d_index := d_index s; d_log := (is_str, x) :: d_log s |} (Ok tt).

(** de.rs:480-489. *)
Definition deserialize_bool (v : visitor) : M U :=
  c <-- fetch ;;
  if c =? TRUE then dlift (visit_bool v true)
  else if c =? FALSE then dlift (visit_bool v false)
  else dfail InvalidType.

(** de.rs:491-537. *)
Definition deserialize_int (k : ikind) (v : visitor) : M U :=
  z <-- parse_integer k ;; dlift (visit_int v k z).

(** The arms shared by de.rs:546-556 and 569-579: any integer, converted. *)
Definition fetch_num (c : Z) (conv : Z -> Z) : M Z :=
  if is_fixint c then dret (conv (to_signed 8 c))
  else if c =? UINT_8 then (n <-- fetch_u8 ;; dret (conv n))
  else if c =? UINT_16 then (n <-- fetch_u16 ;; dret (conv n))
  else if c =? UINT_32 then (n <-- fetch_u32 ;; dret (conv n))
  else if c =? UINT_64 then (n <-- fetch_u64 ;; dret (conv n))
  else if c =? INT_8 then (n <-- fetch_i8 ;; dret (conv n))
  else if c =? INT_16 then (n <-- fetch_i16 ;; dret (conv n))
  else if c =? INT_32 then (n <-- fetch_i32 ;; dret (conv n))
  else if c =? INT_64 then (n <-- fetch_i64 ;; dret (conv n))
  else dfail ExpectedNumber.

(** de.rs:539-560. *)
Definition deserialize_f32 (v : visitor) : M U :=
  c <-- fetch ;;
  f <-- (if c =? FLOAT_32 then fetch_f32
         else if c =? FLOAT_64 then (x <-- fetch_f64 ;; dret (f64_to_f32 fo x))
         else if c =? NIL then dret f32_NAN
         else fetch_num c (int_to_f32 fo)) ;;
  dlift (visit_f32 v f).

(** de.rs:562-583. *)
Definition deserialize_f64 (v : visitor) : M U :=
  c <-- fetch ;;
  f <-- (if c =? FLOAT_64 then fetch_f64
         else if c =? FLOAT_32 then (x <-- fetch_f32 ;; dret (f32_to_f64 fo x))
         else if c =? NIL then dret f64_NAN
         else fetch_num c (int_to_f64 fo)) ;;
  dlift (visit_f64 v f).

(** de.rs:585-591. *)
Definition deserialize_char (v : visitor) : M U :=
  s <-- parse_str ;;
  match char_from_str (sl_data s) with
  | Some c => dlift (visit_char v c)
  | None => dfail InvalidLength
  end.

(** de.rs:593-603. *)
Definition deserialize_str (v : visitor) : M U :=
  s <-- parse_str ;; _ <-- handed true s ;; dlift (visit_str v (sl_data s)).

(** de.rs:605-615. *)
Definition deserialize_bytes (v : visitor) : M U :=
  s <-- parse_bytes ;; _ <-- handed false s ;; dlift (visit_bytes v (sl_data s)).

(** de.rs:617-627. *)
Definition deserialize_option (v : visitor) : M U :=
  c <-- peek ;;
  if c =? NIL then (_ <-- eat_some 1 ;; dlift (visit_none v))
  else r_de R (visit_some v).

(** de.rs:629-646. *)
Definition deserialize_unit (v : visitor) : M U :=
  c <-- fetch ;; if c =? NIL then dlift (visit_unit v) else dfail ExpectedNil.

(** de.rs:651-659. *)
Definition deserialize_newtype_struct (v : visitor) : M U := r_de R (visit_newtype v).

(** [if access.count.is_some() { return Err(TrailingElements) }] (de.rs:672-675,
    706-709, 736-739). *)
Definition check_count (p : U * Z) : M U :=
  if snd p =? 0 then dret (fst p) else dfail TrailingElements.

(** de.rs:661-693. *)
Definition deserialize_seq (v : visitor) : M U :=
  c <-- fetch ;;
  len <-- (if between FIXARRAY FIXARRAY_MAX c then dret (Z.land c MAX_FIXARRAY_SIZE)
           else if c =? ARRAY_16 then fetch_u16
           else if c =? ARRAY_32 then (n <-- fetch_u32 ;; try_usize n)
           else dfail ExpectedArray) ;;
  p <-- r_seq R (visit_seq v) len ;; check_count p.

(** de.rs:695-710. *)
Definition deserialize_map (v : visitor) : M U :=
  c <-- fetch ;;
  len <-- (if between FIXMAP FIXMAP_MAX c then dret (Z.land c MAX_FIXMAP_SIZE)
           else if c =? MAP_16 then fetch_u16
           else if c =? MAP_32 then (n <-- fetch_u32 ;; try_usize n)
           else dfail ExpectedMap) ;;
  p <-- r_map R (visit_map v) len ;; check_count p.

(** de.rs:712-740. *)
Definition deserialize_struct (v : visitor) : M U :=
  c <-- fetch ;;
  ml <-- (if between FIXMAP FIXMAP_MAX c then dret (true, Z.land c MAX_FIXMAP_SIZE)
          else if c =? MAP_16 then (n <-- fetch_u16 ;; dret (true, n))
          else if c =? MAP_32 then (n <-- fetch_u32 ;; n <-- try_usize n ;; dret (true, n))
          else if between FIXARRAY FIXARRAY_MAX c then dret (false, Z.land c MAX_FIXARRAY_SIZE)
          else if c =? ARRAY_16 then (n <-- fetch_u16 ;; dret (false, n))
          else if c =? ARRAY_32 then (n <-- fetch_u32 ;; n <-- try_usize n ;; dret (false, n))
          else dfail ExpectedStruct) ;;
  p <-- (if (fst ml : bool) then r_map R (visit_map v) (snd ml) else r_seq R (visit_seq v) (snd ml)) ;;
  check_count p.

(** de.rs:742-758.  [r_enum R true] runs against [UnitVariantAccess],
    [r_enum R false] against [VariantAccess]. *)
Definition deserialize_enum (v : visitor) : M U :=
  c <-- peek ;;
  if c =? Z.lor FIXMAP 1 then (_ <-- eat_some 1 ;; r_enum R false (visit_enum v))
  else r_enum R true (visit_enum v).

(** de.rs:760-774. *)
Definition deserialize_identifier (v : visitor) : M U :=
  c <-- peek ;;
  if between 0 MAX_POSFIXINT c || (c =? UINT_8) || (c =? UINT_16) || (c =? UINT_32) then
    deserialize_int U32 v
  else if between FIXSTR FIXSTR_MAX c || (c =? STR_8) || (c =? STR_16) || (c =? STR_32) then
    deserialize_str v
  else dfail ExpectedIdentifier.

(** de.rs:776-781. *)
Definition deserialize_ignored_any (v : visitor) : M U :=
  _ <-- r_eat R ;; dlift (visit_unit v).

(** de.rs:436-478. *)
Definition deserialize_any (v : visitor) : M U :=
  c <-- peek ;;
  if between 0 MAX_POSFIXINT c then deserialize_int U8 v
  else if between FIXMAP FIXMAP_MAX c then deserialize_map v
  else if between FIXARRAY FIXARRAY_MAX c then deserialize_seq v
  else if between FIXSTR FIXSTR_MAX c then deserialize_str v
  else if c =? NIL then deserialize_unit v
  else if c =? RESERVED then dfail ReservedCode
  else if (c =? FALSE) || (c =? TRUE) then deserialize_bool v
  else if (c =? BIN_8) || (c =? BIN_16) || (c =? BIN_32) then deserialize_bytes v
  else if (c =? EXT_8) || (c =? EXT_16) || (c =? EXT_32) then dfail UnsupportedExt
  else if c =? FLOAT_32 then deserialize_f32 v
  else if c =? FLOAT_64 then deserialize_f64 v
  else if c =? UINT_8 then deserialize_int U8 v
  else if c =? UINT_16 then deserialize_int U16 v
  else if c =? UINT_32 then deserialize_int U32 v
  else if c =? UINT_64 then deserialize_int U64 v
  else if c =? INT_8 then deserialize_int I8 v
  else if c =? INT_16 then deserialize_int I16 v
  else if c =? INT_32 then deserialize_int I32 v
  else if c =? INT_64 then deserialize_int I64 v
  else if (c =? FIXEXT_1) || (c =? FIXEXT_2) || (c =? FIXEXT_4) || (c =? FIXEXT_8) || (c =? FIXEXT_16)
    then dfail UnsupportedExt
  else if (c =? STR_8) || (c =? STR_16) || (c =? STR_32) then deserialize_str v
  else if (c =? ARRAY_16) || (c =? ARRAY_32) then deserialize_seq v
  else if (c =? MAP_16) || (c =? MAP_32) then deserialize_map v
  else (* NEGFIXINT..=0xff *) deserialize_int I8 v.

(** [impl Deserializer for &mut Deserializer] (de.rs:429-782); [deserialize_i128]
    and [deserialize_u128] are serde's defaults, which return [Error::custom]. *)
Definition mp_method (m : dmethod) (v : visitor) : M U :=
  match m with
  | DAny => deserialize_any v
  | DBool => deserialize_bool v
  | DInt k => deserialize_int k v
  | DI128 => dfail DeserializeError
  | DF32 => deserialize_f32 v
  | DF64 => deserialize_f64 v
  | DChar => deserialize_char v
  | DStr | DString => deserialize_str v
  | DBytes | DByteBuf => deserialize_bytes v
  | DOption => deserialize_option v
  | DUnit | DUnitStruct => deserialize_unit v
  | DNewtypeStruct => deserialize_newtype_struct v
  | DSeq | DTuple | DTupleStruct => deserialize_seq v
  | DMap => deserialize_map v
  | DStruct => deserialize_struct v
  | DEnum => deserialize_enum v
  | DIdentifier => deserialize_identifier v
  | DIgnoredAny => deserialize_ignored_any v
  end.

(** [impl VariantAccess] for [UnitVariantAccess] (de.rs:856-880, [unit] = true)
    and for [VariantAccess] (de.rs:898-922, [unit] = false). *)
Definition run_variant (unit : bool) (p : vprog) : M U :=
  match p with
  | VRet r => dlift r
  | VUnit k => dlift (k (if unit then Ok tt else Err InvalidType))
  | VNewtype seed post => dpost post (if unit then dfail InvalidType else r_de R seed)
  | VTuple v post => dpost post (if unit then dfail InvalidType else deserialize_seq v)
  | VStruct v post => dpost post (if unit then dfail InvalidType else deserialize_struct v)
  end.

Definition res_some (r : result U mp_de_error) : result (option U) mp_de_error :=
  match r with Ok u => Ok (Some u) | Err e => Err e end.

(** One step of running a program. *)
Definition step_de (p : deser) : M U :=
  match p with
  | DRet r => dlift r
  | DHuman k => r_de R (k false)            (* de.rs:432-434 *)
  | DReq m v post => dpost post (mp_method m v)
  end.
(** [impl SeqAccess for CountingAccess] (de.rs:798-814). *)
Definition step_seq (p : sprog) (count : Z) : M (U * Z) :=
  match p with
  | SRet r => u <-- dlift r ;; dret (u, count)
  | SNext seed k =>
    if count =? 0 then r_seq R (k (Ok None)) count
    else dtry (r_de R seed) (fun r => r_seq R (k (res_some r)) (count - 1))
  | SHint k => r_seq R (k (Some count)) count
  end.
(** [impl MapAccess for CountingAccess] (de.rs:816-838). *)
Definition step_map (p : mprog) (count : Z) : M (U * Z) :=
  match p with
  | MRet r => u <-- dlift r ;; dret (u, count)
  | MKey seed k =>
    if count =? 0 then r_map R (k (Ok None)) count
    else dtry (r_de R seed) (fun r => r_map R (k (res_some r)) (count - 1))
  | MVal seed k => dtry (r_de R seed) (fun r => r_map R (k r) count)
  | MHint k => r_map R (k (Some count)) count
  end.
(** [variant_seed] (de.rs:844-854 and 886-896). *)
Definition step_enum (unit : bool) (p : eprog) : M U :=
  match p with
  | ERet r => dlift r
  | EVariant seed kerr kok =>
    dtry (r_de R seed) (fun r =>
      match r with
      | Ok u => run_variant unit (kok u)
      | Err e => dlift (kerr e)
      end)
  end.
End Methods.

(** Run a program with a step budget. *)
Fixpoint mp_run {U} (fuel : nat) : @runner U :=
  match fuel with
  | O => {| r_de := fun _ _ => OutOfFuel; r_seq := fun _ _ _ => OutOfFuel;
            r_map := fun _ _ _ => OutOfFuel; r_enum := fun _ _ _ => OutOfFuel;
            r_eat := fun _ => OutOfFuel |}
  | S f => let R := mp_run f in
           {| r_de := step_de R; r_seq := step_seq R; r_map := step_map R;
              r_enum := step_enum R; r_eat := eat_message fuel |}
  end.

(** [from_slice] (de.rs:23-31); the subtraction panics or wraps if it underflows,
    both shown as a panic. *)
Definition mp_from_slice {U} (fuel : nat) (p : deser U mp_de_error) (input : bytes)
  : outcome mpde (U * Z) mp_de_error :=
  (value <-- r_de (mp_run fuel) p ;;
   tail_len <-- de_end ;;
   if tail_len <=? zlen input then dret (value, zlen input - tail_len) else dpanic) (de_from_slice input).

(** [from_slice_split_tail] (de.rs:39-44); slicing [&input[len..]] panics when
    [len] is out of range. *)
Definition mp_from_slice_split_tail {U} (fuel : nat) (p : deser U mp_de_error) (input : bytes)
  : outcome mpde (U * bytes) mp_de_error :=
  match mp_from_slice fuel p input with
  | Done s (Ok (value, len)) =>
    if (0 <=? len) && (len <=? zlen input) then Done s (Ok (value, skipn (Z.to_nat len) input)) else Panic
  | Done s (Err e) => Done s (Err e)
  | Panic => Panic
  | OutOfFuel => OutOfFuel
  end.
End MpDe.

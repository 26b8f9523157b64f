(** Model of /repo/ser-write-msgpack/src/ser.rs: the three MessagePack serializers.
    Constants are those of [mod magick] in ser-write-msgpack/src/lib.rs:90-153. *)
From Verif Require Import Prelude Utf8 Writer SerdeSer SerMonad.
From Verif Require Export MpMagick.

(** [enum Error<E>] (ser.rs:105-126); the message of [SerializeError] is dropped;
    [MPanic] is a Rust panic. *)
Inductive mp_ser_error (E : Type) :=
| MWriter (e : E)
| MMapLength | MSeqLength | MStrLength | MDataLength | MFieldSkipped | MFormatError
| MSerializeError
| MPanic.
Arguments MWriter {E} e.
Arguments MMapLength {E}.
Arguments MSeqLength {E}.
Arguments MStrLength {E}.
Arguments MDataLength {E}.
Arguments MFieldSkipped {E}.
Arguments MFormatError {E}.
Arguments MSerializeError {E}.
Arguments MPanic {E}.

(** The three serializers: [CompactSerializer] (ser.rs:20), [StructMapIdxSerializer]
    (ser.rs:25), [StructMapStrSerializer] (ser.rs:30). *)
Inductive flavour := Compact | StructMapIdx | StructMapStr.

(** Build configuration: feature std/alloc or not, and the target's [usize::MAX]
    (only matters to the no-alloc length counter). *)
Record mp_cfg := { cfg_alloc : bool; cfg_usize_max : Z }.

Section Ser.
Context {W E : Type} (SW : SerWrite W E) (cfg : mp_cfg) (fl : flavour).

(** A serializer method: takes [&mut self] (whose only field is the writer). *)
Local Notation M := (SM W (mp_ser_error E)).
Local Notation ret := sret.
Local Notation fail := sfail.
Local Open Scope ser_scope.

(** [self.output.write(..)?] with [From<E> for Error<E>] (ser.rs:169-173). *)
Definition write (bs : bytes) : M unit := slift MWriter (fun w => sw_write SW w bs).
Definition write_byte (b : Z) : M unit := slift MWriter (fun w => sw_write_byte SW w b).
Definition out_write_str (s : bytes) : M unit := slift MWriter (fun w => sw_write_str SW w s).

(** [write_u32] (ser.rs:584-601). *)
Definition write_u32 (v : Z) : M unit :=
  if v <=? MAX_POSFIXINT then write_byte (as_u8 v)
  else match try_from U8 v with
  | Some v => write_byte UINT_8 ;; write_byte v
  | None => match try_from U16 v with
  | Some v => write_byte UINT_16 ;; write (be_bytes 2 v)
  | None => write_byte UINT_32 ;; write (be_bytes 4 v)
  end end.

(** [write_str_len] (ser.rs:611-631). *)
Definition write_str_len (len : Z) : M unit :=
  if len <=? MAX_FIXSTR_SIZE then write_byte (Z.lor FIXSTR (as_u8 len))
  else match try_from U8 len with
  | Some len => write_byte STR_8 ;; write_byte len
  | None => match try_from U16 len with
  | Some len => write_byte STR_16 ;; write (be_bytes 2 len)
  | None => match try_from U32 len with
  | Some len => write_byte STR_32 ;; write (be_bytes 4 len)
  | None => fail MStrLength
  end end end.

(** [write_str] (ser.rs:604-608). *)
Definition write_str (v : bytes) : M unit :=
  write_str_len (zlen v) ;; out_write_str v.

(** [write_array_len] (ser.rs:634-650). *)
Definition write_array_len (len : Z) : M unit :=
  if len <=? MAX_FIXARRAY_SIZE then write_byte (Z.lor FIXARRAY (as_u8 len))
  else match try_from U16 len with
  | Some len => write_byte ARRAY_16 ;; write (be_bytes 2 len)
  | None => match try_from U32 len with
  | Some len => write_byte ARRAY_32 ;; write (be_bytes 4 len)
  | None => fail MSeqLength
  end end.

(** [write_map_len] (ser.rs:653-669). *)
Definition write_map_len (len : Z) : M unit :=
  if len <=? MAX_FIXMAP_SIZE then write_byte (Z.lor FIXMAP (as_u8 len))
  else match try_from U16 len with
  | Some len => write_byte MAP_16 ;; write (be_bytes 2 len)
  | None => match try_from U32 len with
  | Some len => write_byte MAP_32 ;; write (be_bytes 4 len)
  | None => fail MMapLength
  end end.

(** [serialize_variant] of each serializer (ser.rs:176-178, 187-189, 198-200). *)
Definition serialize_variant (variant_index : Z) (variant_name : bytes) : M unit :=
  match fl with
  | StructMapIdx => write_u32 variant_index
  | Compact => write_u32 variant_index
  | StructMapStr => write_str variant_name
  end.

(** [serialize_struct] of each serializer (ser.rs:180-183, 191-194, 202-205);
    the state of the returned struct serializer is (len, idx), idx being used by
    [SerializeStructIntMap] only (ser.rs:709-723). *)
Definition inherent_serialize_struct (len : Z) : M (Z * Z) :=
  match fl with
  | StructMapIdx => write_map_len len ;; ret (len, 0)
  | Compact => write_array_len len ;; ret (len, 0)
  | StructMapStr => write_map_len len ;; ret (len, 0)
  end.

(** ser.rs:252-254. *)
Definition serialize_bool (v : bool) : M unit := write_byte (if v then TRUE else FALSE).

(** [FIXINT_I16/32/64.contains(&v)] (lib.rs:97-99). *)
Definition fixint_contains (v : Z) : bool := (MIN_NEGFIXINT <=? v) && (v <=? MAX_POSFIXINT).

(** ser.rs:256-265. *)
Definition serialize_i8 (v : Z) : M unit :=
  if MIN_NEGFIXINT <=? v then write_byte (as_u8 v)
  else write_byte INT_8 ;; write_byte (as_u8 v).

(** ser.rs:267-284. *)
Definition serialize_i16 (v : Z) : M unit :=
  if fixint_contains v then write_byte (as_u8 v)
  else match try_from I8 v with
  | Some v => write_byte INT_8 ;; write_byte (as_u8 v)
  | None => match try_from U8 v with
  | Some v => write_byte UINT_8 ;; write_byte v
  | None => write_byte INT_16 ;; write (be_bytes 2 (v mod 2 ^ 16))
  end end.

(** ser.rs:286-311. *)
Definition serialize_i32 (v : Z) : M unit :=
  if fixint_contains v then write_byte (as_u8 v)
  else match try_from I8 v with
  | Some v => write_byte INT_8 ;; write_byte (as_u8 v)
  | None => match try_from U8 v with
  | Some v => write_byte UINT_8 ;; write_byte v
  | None => match try_from I16 v with
  | Some v => write_byte INT_16 ;; write (be_bytes 2 (v mod 2 ^ 16))
  | None => match try_from U16 v with
  | Some v => write_byte UINT_16 ;; write (be_bytes 2 v)
  | None => write_byte INT_32 ;; write (be_bytes 4 (v mod 2 ^ 32))
  end end end end.

(** ser.rs:313-346. *)
Definition serialize_i64 (v : Z) : M unit :=
  if fixint_contains v then write_byte (as_u8 v)
  else match try_from I8 v with
  | Some v => write_byte INT_8 ;; write_byte (as_u8 v)
  | None => match try_from U8 v with
  | Some v => write_byte UINT_8 ;; write_byte v
  | None => match try_from I16 v with
  | Some v => write_byte INT_16 ;; write (be_bytes 2 (v mod 2 ^ 16))
  | None => match try_from U16 v with
  | Some v => write_byte UINT_16 ;; write (be_bytes 2 v)
  | None => match try_from I32 v with
  | Some v => write_byte INT_32 ;; write (be_bytes 4 (v mod 2 ^ 32))
  | None => match try_from U32 v with
  | Some v => write_byte UINT_32 ;; write (be_bytes 4 v)
  | None => write_byte INT_64 ;; write (be_bytes 8 (v mod 2 ^ 64))
  end end end end end end.

(** ser.rs:348-357. *)
Definition serialize_u8 (v : Z) : M unit :=
  if v <=? MAX_POSFIXINT then write_byte v
  else write_byte UINT_8 ;; write_byte v.

(** ser.rs:359-372. *)
Definition serialize_u16 (v : Z) : M unit :=
  if v <=? MAX_POSFIXINT then write_byte (as_u8 v)
  else match try_from U8 v with
  | Some v => write_byte UINT_8 ;; write_byte v
  | None => write_byte UINT_16 ;; write (be_bytes 2 v)
  end.

(** ser.rs:374-376. *)
Definition serialize_u32 (v : Z) : M unit := write_u32 v.

(** ser.rs:378-399. *)
Definition serialize_u64 (v : Z) : M unit :=
  if v <=? MAX_POSFIXINT then write_byte (as_u8 v)
  else match try_from U8 v with
  | Some v => write_byte UINT_8 ;; write_byte v
  | None => match try_from U16 v with
  | Some v => write_byte UINT_16 ;; write (be_bytes 2 v)
  | None => match try_from U32 v with
  | Some v => write_byte UINT_32 ;; write (be_bytes 4 v)
  | None => write_byte UINT_64 ;; write (be_bytes 8 v)
  end end end.

(** Dispatch of the eight integer methods. *)
Definition serialize_int (k : ikind) (v : Z) : M unit :=
  match k with
  | I8 => serialize_i8 v | I16 => serialize_i16 v | I32 => serialize_i32 v | I64 => serialize_i64 v
  | U8 => serialize_u8 v | U16 => serialize_u16 v | U32 => serialize_u32 v | U64 => serialize_u64 v
  end.

(** ser.rs:401-404, 406-409; a float is its IEEE bit pattern. *)
Definition serialize_f32 (bits : Z) : M unit := write_byte FLOAT_32 ;; write (be_bytes 4 bits).
Definition serialize_f64 (bits : Z) : M unit := write_byte FLOAT_64 ;; write (be_bytes 8 bits).

(** ser.rs:417-419. *)
Definition serialize_str (v : bytes) : M unit := write_str v.

(** ser.rs:411-415. *)
Definition serialize_char (c : Z) : M unit := serialize_str (encode_utf8 c).

(** ser.rs:421-439. *)
Definition serialize_bytes (v : bytes) : M unit :=
  let size := zlen v in
  (match try_from U8 size with
   | Some size => write_byte BIN_8 ;; write_byte size
   | None => match try_from U16 size with
   | Some size => write_byte BIN_16 ;; write (be_bytes 2 size)
   | None => match try_from U32 size with
   | Some size => write_byte BIN_32 ;; write (be_bytes 4 size)
   | None => fail MDataLength
   end end end) ;;
  write v.

(** ser.rs:441-443, 451-453, 455-457. *)
Definition serialize_none : M unit := write_byte NIL.
Definition serialize_unit : M unit := serialize_none.
Definition serialize_unit_struct : M unit := serialize_unit.

(** ser.rs:459-466. *)
Definition serialize_unit_variant (idx : Z) (name : bytes) : M unit := serialize_variant idx name.

(** ser.rs:445-449, 468-476: transparent. *)
Definition serialize_some (value : M unit) : M unit := value.
Definition serialize_newtype_struct (value : M unit) : M unit := value.

(** ser.rs:478-491. *)
Definition serialize_newtype_variant (idx : Z) (name : bytes) (value : M unit) : M unit :=
  write_byte (Z.lor FIXMAP 1) ;; serialize_variant idx name ;; value.

(** ser.rs:493-497; the state of [SerializeSeqMap] (ser.rs:704-707) is its [len]. *)
Definition serialize_seq (len : option Z) : M Z :=
  match len with
  | None => fail MSeqLength
  | Some len => write_array_len len ;; ret len
  end.

(** ser.rs:499-502, 504-510. *)
Definition serialize_tuple (len : Z) : M Z := write_array_len len ;; ret len.
Definition serialize_tuple_struct (len : Z) : M Z := serialize_tuple len.

(** ser.rs:514-524. *)
Definition serialize_tuple_variant (idx : Z) (name : bytes) (len : Z) : M Z :=
  write_byte (Z.lor FIXMAP 1) ;; serialize_variant idx name ;; serialize_tuple len.

(** ser.rs:526-530. *)
Definition serialize_map (len : option Z) : M Z :=
  match len with
  | None => fail MMapLength
  | Some len => write_map_len len ;; ret len
  end.

(** ser.rs:532-538. *)
Definition serialize_struct (len : Z) : M (Z * Z) := inherent_serialize_struct len.

(** ser.rs:542-552. *)
Definition serialize_struct_variant (idx : Z) (name : bytes) (len : Z) : M (Z * Z) :=
  write_byte (Z.lor FIXMAP 1) ;; serialize_variant idx name ;; inherent_serialize_struct len.

(** [usize::checked_sub(1).ok_or(e)]. *)
Definition checked_dec (len : Z) (e : mp_ser_error E) : M Z :=
  if len <? 1 then fail e else ret (len - 1).

(** [SerializeSeq/Tuple/TupleStruct/TupleVariant for SerializeSeqMap]
    (ser.rs:734-743, 753-762, 772-781, 792-801): the four impls are the same. *)
Definition seq_serialize_element (value : M unit) (len : Z) : M Z :=
  len <- checked_dec len MSeqLength ;; value ;; ret len.
Definition seq_end (len : Z) : M unit := if len =? 0 then ret tt else fail MSeqLength.

(** [SerializeMap for SerializeSeqMap] (ser.rs:811-826). *)
Definition map_serialize_key (key : M unit) (len : Z) : M Z :=
  len <- checked_dec len MMapLength ;; key ;; ret len.
Definition map_serialize_value (value : M unit) (len : Z) : M Z := value ;; ret len.
Definition map_end (len : Z) : M unit := if len =? 0 then ret tt else fail MMapLength.

(** [SerializeStruct] and [SerializeStructVariant] of the three struct serializers:
    [SerializeStructArray] (ser.rs:836-850, 860-874), [SerializeStructIntMap]
    (ser.rs:884-901, 911-928), [SerializeStructStrMap] (ser.rs:938-948, 958-968);
    both impls of each are the same. *)
Definition struct_serialize_field (key : bytes) (value : M unit) (st : Z * Z) : M (Z * Z) :=
  let '(len, idx) := st in
  match fl with
  | Compact => len <- checked_dec len MSeqLength ;; value ;; ret (len, idx)
  | StructMapIdx =>
    len <- checked_dec len MMapLength ;;
    serialize_u32 idx ;; value ;; ret (len, (idx + 1) mod 2 ^ 32)
  | StructMapStr =>
    len <- checked_dec len MMapLength ;;
    serialize_str key ;; value ;; ret (len, idx)
  end.

(** [skip_field]: ser.rs:844-846/868-870, 894-897/921-924, serde's default (no-op). *)
Definition struct_skip_field (st : Z * Z) : M (Z * Z) :=
  let '(len, idx) := st in
  match fl with
  | Compact => if len =? 0 then ret st else fail MFieldSkipped
  | StructMapIdx => ret (len, (idx + 1) mod 2 ^ 32)
  | StructMapStr => ret st
  end.
Definition struct_end (st : Z * Z) : M unit :=
  match fl with
  | Compact => if fst st =? 0 then ret tt else fail MSeqLength
  | _ => if fst st =? 0 then ret tt else fail MMapLength
  end.

(** [StringLenCounter] as [fmt::Write] (ser.rs:689-694). *)
Definition counter_write_str (len : Z) (s : bytes) : Z * bool :=
  if len + zlen s <=? cfg_usize_max cfg then (len + zlen s, true) else (len, false).

(** [StringCollector] as [fmt::Write] (ser.rs:697-702); the state is (len, output). *)
Definition collector_write_str (st : Z * W) (s : bytes) : (Z * W) * bool :=
  let '(len, w) := st in
  if len <? zlen s then (st, false)
  else let '(w', r) := sw_write_str SW w s in
       ((len - zlen s, w'), match r with Ok _ => true | Err _ => false end).

(** [String] as [fmt::Write], used by [to_string]: never fails. *)
Definition string_write_str (t : bytes) (s : bytes) : bytes * bool := (t ++ s, true).

(** Second formatting pass into the writer (ser.rs:571-572). *)
Definition collect_pass2 (pass2 : fmtp) (len : Z) : M unit := fun w =>
  let '((_, w'), ok) := run_fmt collector_write_str pass2 (len, w) in
  (w', if ok then Ok tt else Err MFormatError).

(** [collect_str]: ser.rs:555-559 with alloc ([to_string] panics when the Display
    returns an error), ser.rs:564-573 without. *)
Definition collect_str (pass1 pass2 : fmtp) : M unit :=
  if cfg_alloc cfg then
    let '(t, ok) := run_fmt string_write_str pass1 [] in
    if ok then serialize_str t else fail MPanic
  else
    let '(len, ok) := run_fmt counter_write_str pass1 0 in
    if ok then
      write_str_len len ;; collect_pass2 pass2 len
    else fail MFormatError.

(** Drive [SerializeSeq] (and the tuple variants), [SerializeMap] and
    [SerializeStruct] over the parts of a value: one call per part. *)
Definition ser_items (ser : sval -> M unit) : list sval -> Z -> M Z :=
  fix items l n :=
    match l with
    | [] => ret n
    | x :: l => n <- seq_serialize_element (ser x) n ;; items l n
    end.
Definition ser_entries (ser : sval -> M unit) : list (bool * sval) -> Z -> M Z :=
  fix entries l n :=
    match l with
    | [] => ret n
    | (isk, x) :: l =>
      n <- (if isk then map_serialize_key (ser x) n else map_serialize_value (ser x) n) ;;
      entries l n
    end.
Definition ser_fields (ser : sval -> M unit) : list (bytes * option sval) -> Z * Z -> M (Z * Z) :=
  fix fields l st :=
    match l with
    | [] => ret st
    | (k, x) :: l =>
      st <- (match x with
             | Some x => struct_serialize_field k (ser x) st
             | None => struct_skip_field st
             end) ;;
      fields l st
    end.

(** A Serialize impl driving the serializer ([value.serialize(&mut serializer)]). *)
Fixpoint mp_ser (v : sval) : M unit :=
  match v with
  | SBool b => serialize_bool b
  | SInt k z => serialize_int k z
  | SI128 => fail MSerializeError          (* serde's default serialize_i128/u128 *)
  | SF32 b => serialize_f32 b
  | SF64 b => serialize_f64 b
  | SChar c => serialize_char c
  | SStr s => serialize_str s
  | SBytes s => serialize_bytes s
  | SNone => serialize_none
  | SSome v => serialize_some (mp_ser v)
  | SUnit => serialize_unit
  | SUnitStruct => serialize_unit_struct
  | SUnitVariant i n => serialize_unit_variant i n
  | SNewtypeStruct v => serialize_newtype_struct (mp_ser v)
  | SNewtypeVariant i n v => serialize_newtype_variant i n (mp_ser v)
  | SSeq len l => n <- serialize_seq len ;; n <- ser_items mp_ser l n ;; seq_end n
  | STuple len l => n <- serialize_tuple len ;; n <- ser_items mp_ser l n ;; seq_end n
  | STupleStruct len l => n <- serialize_tuple_struct len ;; n <- ser_items mp_ser l n ;; seq_end n
  | STupleVariant i nm len l => n <- serialize_tuple_variant i nm len ;; n <- ser_items mp_ser l n ;; seq_end n
  | SMap len l => n <- serialize_map len ;; n <- ser_entries mp_ser l n ;; map_end n
  | SStruct len l => st <- serialize_struct len ;; st <- ser_fields mp_ser l st ;; struct_end st
  | SStructVariant i nm len l =>
    st <- serialize_struct_variant i nm len ;; st <- ser_fields mp_ser l st ;; struct_end st
  | SCollect a b => collect_str a b
  | SCustom => fail MSerializeError
  end.

(** [to_writer_compact] / [to_writer] / [to_writer_named] (ser.rs:69-100): the
    writer is moved into a fresh serializer. *)
Definition mp_to_writer (w : W) (v : sval) : W * result unit (mp_ser_error E) := mp_ser v w.
End Ser.

(** [to_vec] / [to_vec_compact] / [to_vec_named] (ser.rs:36-62), with memory available. *)
Definition mp_to_vec (cfg : mp_cfg) (fl : flavour) (v : sval) : result bytes (mp_ser_error ser_error) :=
  match mp_to_writer VecWriter cfg fl [] v with
  | (out, Ok _) => Ok out
  | (_, Err e) => Err e
  end.

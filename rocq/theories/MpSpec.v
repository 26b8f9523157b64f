(** Specification of the MessagePack format
    (https://github.com/msgpack/msgpack/blob/master/spec.md) and of the mapping of
    serde's data model to it documented in ser-write-msgpack/src/lib.rs:4-29.
    Independent of the model of the serializers and deserializer. *)
From Verif Require Import Prelude Utf8Spec SerdeSer.

(** MessagePack values. *)
Inductive mpv :=
| VNil
| VBool (b : bool)
| VInt (z : Z)
| VF32 (bits : Z)
| VF64 (bits : Z)
| VStr (s : bytes)
| VBin (b : bytes)
| VArr (l : list mpv)
| VMap (l : list (mpv * mpv))
| VExt (ty : Z) (data : bytes).

(** [bs] is the big-endian representation of [x] on [n] bytes. *)
Definition uint_be (n : nat) (x : Z) (bs : bytes) : Prop :=
  length bs = n /\ all_bytes bs /\ be_val bs = x.

(** [bs] is the big-endian two's complement representation of [x] on [n] bytes. *)
Definition int_be (n : nat) (x : Z) (bs : bytes) : Prop :=
  length bs = n /\ all_bytes bs /\ to_signed (8 * Z.of_nat n) (be_val bs) = x.

(** Length headers of strings, binaries, arrays, maps and extensions. *)
Inductive str_hdr : Z -> bytes -> Prop :=
| SH_fix n : 0 <= n < 32 -> str_hdr n [0xa0 + n]
| SH_8 n h : uint_be 1 n h -> str_hdr n (0xd9 :: h)
| SH_16 n h : uint_be 2 n h -> str_hdr n (0xda :: h)
| SH_32 n h : uint_be 4 n h -> str_hdr n (0xdb :: h).
Inductive bin_hdr : Z -> bytes -> Prop :=
| BH_8 n h : uint_be 1 n h -> bin_hdr n (0xc4 :: h)
| BH_16 n h : uint_be 2 n h -> bin_hdr n (0xc5 :: h)
| BH_32 n h : uint_be 4 n h -> bin_hdr n (0xc6 :: h).
Inductive arr_hdr : Z -> bytes -> Prop :=
| AH_fix n : 0 <= n < 16 -> arr_hdr n [0x90 + n]
| AH_16 n h : uint_be 2 n h -> arr_hdr n (0xdc :: h)
| AH_32 n h : uint_be 4 n h -> arr_hdr n (0xdd :: h).
Inductive map_hdr : Z -> bytes -> Prop :=
| MH_fix n : 0 <= n < 16 -> map_hdr n [0x80 + n]
| MH_16 n h : uint_be 2 n h -> map_hdr n (0xde :: h)
| MH_32 n h : uint_be 4 n h -> map_hdr n (0xdf :: h).
Inductive ext_hdr : Z -> bytes -> Prop :=
| EH_fix1 : ext_hdr 1 [0xd4]
| EH_fix2 : ext_hdr 2 [0xd5]
| EH_fix4 : ext_hdr 4 [0xd6]
| EH_fix8 : ext_hdr 8 [0xd7]
| EH_fix16 : ext_hdr 16 [0xd8]
| EH_8 n h : uint_be 1 n h -> ext_hdr n (0xc7 :: h)
| EH_16 n h : uint_be 2 n h -> ext_hdr n (0xc8 :: h)
| EH_32 n h : uint_be 4 n h -> ext_hdr n (0xc9 :: h).

(** Integers. *)
Inductive int_fmt : Z -> bytes -> Prop :=
| IF_pos z : 0 <= z < 128 -> int_fmt z [z]
| IF_neg z : -32 <= z < 0 -> int_fmt z [256 + z]
| IF_u8 z h : uint_be 1 z h -> int_fmt z (0xcc :: h)
| IF_u16 z h : uint_be 2 z h -> int_fmt z (0xcd :: h)
| IF_u32 z h : uint_be 4 z h -> int_fmt z (0xce :: h)
| IF_u64 z h : uint_be 8 z h -> int_fmt z (0xcf :: h)
| IF_i8 z h : int_be 1 z h -> int_fmt z (0xd0 :: h)
| IF_i16 z h : int_be 2 z h -> int_fmt z (0xd1 :: h)
| IF_i32 z h : int_be 4 z h -> int_fmt z (0xd2 :: h)
| IF_i64 z h : int_be 8 z h -> int_fmt z (0xd3 :: h).

(** [mp_fmt v bs]: the bytes [bs] are one complete encoding of [v].  Strings are
    only required to be bytes; that they are UTF-8 is required separately where it matters. *)
Inductive mp_fmt : mpv -> bytes -> Prop :=
| MF_nil : mp_fmt VNil [0xc0]
| MF_false : mp_fmt (VBool false) [0xc2]
| MF_true : mp_fmt (VBool true) [0xc3]
| MF_int z bs : int_fmt z bs -> mp_fmt (VInt z) bs
| MF_f32 x h : uint_be 4 x h -> mp_fmt (VF32 x) (0xca :: h)
| MF_f64 x h : uint_be 8 x h -> mp_fmt (VF64 x) (0xcb :: h)
| MF_str s h : all_bytes s -> str_hdr (zlen s) h -> mp_fmt (VStr s) (h ++ s)
| MF_bin s h : all_bytes s -> bin_hdr (zlen s) h -> mp_fmt (VBin s) (h ++ s)
| MF_arr l h bs : arr_hdr (zlen l) h -> mp_fmt_list l bs -> mp_fmt (VArr l) (h ++ bs)
| MF_map l h bs : map_hdr (zlen l) h -> mp_fmt_pairs l bs -> mp_fmt (VMap l) (h ++ bs)
| MF_ext ty d h : is_byte ty -> all_bytes d -> ext_hdr (zlen d) h -> mp_fmt (VExt ty d) (h ++ ty :: d)
with mp_fmt_list : list mpv -> bytes -> Prop :=
| ML_nil : mp_fmt_list [] []
| ML_cons v l a b : mp_fmt v a -> mp_fmt_list l b -> mp_fmt_list (v :: l) (a ++ b)
with mp_fmt_pairs : list (mpv * mpv) -> bytes -> Prop :=
| MP_nil : mp_fmt_pairs [] []
| MP_cons k v l a b c : mp_fmt k a -> mp_fmt v b -> mp_fmt_pairs l c ->
    mp_fmt_pairs ((k, v) :: l) (a ++ b ++ c).

Scheme mp_fmt_mind := Induction for mp_fmt Sort Prop
  with mp_fmt_list_mind := Induction for mp_fmt_list Sort Prop
  with mp_fmt_pairs_mind := Induction for mp_fmt_pairs Sort Prop.
Combined Scheme mp_fmt_mutind from mp_fmt_mind, mp_fmt_list_mind, mp_fmt_pairs_mind.

(** ** The documented mapping of serde values (lib.rs:4-27)

    [SArray]: structs as arrays, variants by index (to_writer_compact);
    [SIndexMap]: structs as maps keyed by field index, variants by index (to_writer);
    [SNameMap]: structs as maps keyed by name, variants by name (to_writer_named). *)
Inductive style := SArray | SIndexMap | SNameMap.

Definition lt32 (n : Z) : bool := (0 <=? n) && (n <? 2 ^ 32).

Definition doc_str (s : bytes) : option mpv := if lt32 (zlen s) then Some (VStr s) else None.
Definition doc_variant (st : style) (idx : Z) (name : bytes) : option mpv :=
  match st with SNameMap => doc_str name | _ => Some (VInt idx) end.

Definition omap {A B} (f : A -> option B) : list A -> option (list B) :=
  fix go l := match l with
  | [] => Some []
  | x :: l => match f x, go l with Some y, Some ys => Some (y :: ys) | _, _ => None end
  end.

(** A MessagePack array of [len] declared elements. *)
Definition doc_array (len : Z) (items : option (list mpv)) : option mpv :=
  match items with
  | Some vs => if (len =? zlen vs) && lt32 len then Some (VArr vs) else None
  | None => None
  end.
Definition doc_map (len : Z) (items : option (list (mpv * mpv))) : option mpv :=
  match items with
  | Some vs => if (len =? zlen vs) && lt32 len then Some (VMap vs) else None
  | None => None
  end.

(** Pair up an alternating sequence key, value, key, value, ... *)
Fixpoint pair_up {A} (l : list (bool * A)) : option (list (A * A)) :=
  match l with
  | [] => Some []
  | (true, k) :: (false, v) :: l => option_map (cons (k, v)) (pair_up l)
  | _ => None
  end.

(** For a struct the fields are given in declaration order, [None] = skipped.
    Array style: skipped fields must all be at the end. *)
Fixpoint doc_fields_array {A} (fs : list (bytes * option A)) : option (list A) :=
  match fs with
  | [] => Some []
  | (_, Some v) :: fs => option_map (cons v) (doc_fields_array fs)
  | (_, None) :: fs => if forallb (fun f => match snd f with None => true | Some _ => false end) fs
                       then Some [] else None
  end.
(** Index-map style: each value is keyed by its position in the declaration. *)
Fixpoint doc_fields_index (i : Z) (fs : list (bytes * option mpv)) : list (mpv * mpv) :=
  match fs with
  | [] => []
  | (_, Some v) :: fs => (VInt i, v) :: doc_fields_index (i + 1) fs
  | (_, None) :: fs => doc_fields_index (i + 1) fs
  end.
(** Name-map style: each value is keyed by its field name. *)
Fixpoint doc_fields_name (fs : list (bytes * option mpv)) : option (list (mpv * mpv)) :=
  match fs with
  | [] => Some []
  | (n, Some v) :: fs =>
    match doc_str n, doc_fields_name fs with Some k, Some r => Some ((k, v) :: r) | _, _ => None end
  | (_, None) :: fs => doc_fields_name fs
  end.
Definition doc_struct (st : style) (len : Z) (fs : option (list (bytes * option mpv))) : option mpv :=
  match fs with
  | None => None
  | Some fs =>
    match st with
    | SArray => doc_array len (doc_fields_array fs)
    | SIndexMap => doc_map len (Some (doc_fields_index 0 fs))
    | SNameMap => doc_map len (doc_fields_name fs)
    end
  end.

Definition variant_map (tag : option mpv) (content : option mpv) : option mpv :=
  match tag, content with Some t, Some c => Some (VMap [(t, c)]) | _, _ => None end.

(** The documented value of a call tree, [None] when it has none: wrong or
    unknown declared length, a length of 2^32 or more, keys and values not
    alternating, a field skipped before a serialized one in array style, 128-bit
    integers, a failing Display or Serialize impl. *)
Fixpoint mp_doc (st : style) (v : sval) : option mpv :=
  match v with
  | SBool b => Some (VBool b)
  | SInt _ z => Some (VInt z)
  | SI128 => None
  | SF32 b => Some (VF32 b)
  | SF64 b => Some (VF64 b)
  | SChar c => Some (VStr (utf8_char c))
  | SStr s => doc_str s
  | SBytes s => if lt32 (zlen s) then Some (VBin s) else None
  | SNone => Some VNil
  | SSome v => mp_doc st v
  | SUnit => Some VNil
  | SUnitStruct => Some VNil
  | SUnitVariant i n => doc_variant st i n
  | SNewtypeStruct v => mp_doc st v
  | SNewtypeVariant i n v => variant_map (doc_variant st i n) (mp_doc st v)
  | SSeq (Some len) l => doc_array len (omap (mp_doc st) l)
  | SSeq None _ => None
  | STuple len l => doc_array len (omap (mp_doc st) l)
  | STupleStruct len l => doc_array len (omap (mp_doc st) l)
  | STupleVariant i n len l => variant_map (doc_variant st i n) (doc_array len (omap (mp_doc st) l))
  | SMap (Some len) l =>
    match omap (fun o => option_map (pair (fst o)) (mp_doc st (snd o))) l with
    | Some l => doc_map len (pair_up l)
    | None => None
    end
  | SMap None _ => None
  | SStruct len fs =>
    doc_struct st len
      (omap (fun f => match snd f with
                      | None => Some (fst f, None)
                      | Some x => option_map (fun m => (fst f, Some m)) (mp_doc st x)
                      end) fs)
  | SStructVariant i n len fs =>
    variant_map (doc_variant st i n)
      (doc_struct st len
        (omap (fun f => match snd f with
                        | None => Some (fst f, None)
                        | Some x => option_map (fun m => (fst f, Some m)) (mp_doc st x)
                        end) fs))
  | SCollect p1 _ => match fmt_text p1 with Some t => doc_str t | None => None end
  | SCustom => None
  end.

(** ** Well-formed call trees: what Rust's types and serde's protocol guarantee *)
(** Two Display runs printing the same text and honouring the fmt contract. *)
Definition fmt_consistent (p1 p2 : fmtp) : Prop :=
  fmt_text p1 = fmt_text p2 /\ fmt_propagates p1 /\ fmt_propagates p2 /\
  fmt_all valid_utf8 p1 /\ fmt_all valid_utf8 p2.

Definition is_u32 (i : Z) : Prop := 0 <= i < 2 ^ 32.
Definition is_len (n : Z) : Prop := 0 <= n < 2 ^ 64.

Fixpoint sval_ok (v : sval) : Prop :=
  match v with
  | SInt k z => in_ikind k z
  | SF32 b => 0 <= b < 2 ^ 32
  | SF64 b => 0 <= b < 2 ^ 64
  | SChar c => is_scalar c
  | SStr s => valid_utf8 s
  | SBytes s => all_bytes s
  | SSome v => sval_ok v
  | SUnitVariant i n => is_u32 i /\ valid_utf8 n
  | SNewtypeStruct v => sval_ok v
  | SNewtypeVariant i n v => is_u32 i /\ valid_utf8 n /\ sval_ok v
  | SSeq len l => match len with Some n => is_len n | None => True end /\ all_list sval_ok l
  | STuple len l => is_len len /\ all_list sval_ok l
  | STupleStruct len l => is_len len /\ all_list sval_ok l
  | STupleVariant i n len l => is_u32 i /\ valid_utf8 n /\ is_len len /\ all_list sval_ok l
  | SMap len l => match len with Some n => is_len n | None => True end /\
                  pair_up l <> None /\ all_list (fun o => sval_ok (snd o)) l
  | SStruct len fs => is_len len /\ zlen fs < 2 ^ 32 /\
      all_list (fun f => valid_utf8 (fst f) /\ match snd f with Some x => sval_ok x | None => True end) fs
  | SStructVariant i n len fs => is_u32 i /\ valid_utf8 n /\ is_len len /\ zlen fs < 2 ^ 32 /\
      all_list (fun f => valid_utf8 (fst f) /\ match snd f with Some x => sval_ok x | None => True end) fs
  | SCollect p1 p2 => fmt_consistent p1 p2
  | _ => True
  end.

(** Number of fields really serialized (not skipped). *)
Definition present (fs : list (bytes * option sval)) : Z :=
  zlen (filter (fun f => match snd f with Some _ => true | None => false end) fs).

(** No field is serialized after a skipped one. *)
Fixpoint skips_at_end (fs : list (bytes * option sval)) : Prop :=
  match fs with
  | [] => True
  | (_, Some _) :: fs => skips_at_end fs
  | (_, None) :: fs => present fs = 0
  end.

(** Signed Rust integer types. *)
Definition is_signed (k : ikind) : bool :=
  match k with I8 | I16 | I32 | I64 => true | _ => false end.

(** Numbers with both a signed and an unsigned shortest encoding. *)
Definition mixed_range (z : Z) : Prop :=
  2 ^ 8 <= z < 2 ^ 15 \/ 2 ^ 16 <= z < 2 ^ 31 \/ 2 ^ 32 <= z < 2 ^ 63.


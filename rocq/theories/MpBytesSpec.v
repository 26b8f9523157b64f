(** Specification: the bytes of every call tree (C08).  The documents of [MpSpec] leave
    open which of several shortest formats an integer gets; this does not.  Independent
    of the model of the serializers. *)
From Verif Require Import Prelude Utf8Spec SerdeSer MpSpec.

(** The shortest header: the first of these limits the length is below. *)
Definition head (fix_code fix_limit : Z) (longer : list (nat * Z)) (n : Z) : bytes :=
  if n <? fix_limit then [fix_code + n]
  else (fix go l := match l with
        | [] => []
        | (k, code) :: l => if n <? 256 ^ Z.of_nat k then code :: be_bytes k n else go l
        end) longer.
Definition str_head : Z -> bytes := head 0xa0 32 [(1%nat, 0xd9); (2%nat, 0xda); (4%nat, 0xdb)].
Definition bin_head : Z -> bytes := head 0 0 [(1%nat, 0xc4); (2%nat, 0xc5); (4%nat, 0xc6)].
Definition arr_head : Z -> bytes := head 0x90 16 [(2%nat, 0xdc); (4%nat, 0xdd)].
Definition map_head : Z -> bytes := head 0x80 16 [(2%nat, 0xde); (4%nat, 0xdf)].

Definition signed_in (n : nat) (z : Z) : bool := (- 2 ^ (8 * Z.of_nat n - 1) <=? z) && (z <? 2 ^ (8 * Z.of_nat n - 1)).
Definition unsigned_in (n : nat) (z : Z) : bool := (0 <=? z) && (z <? 2 ^ (8 * Z.of_nat n)).
Definition signed_be (n : nat) (z : Z) : bytes := be_bytes n (z mod 2 ^ (8 * Z.of_nat n)).
(** One byte if possible.  Signed types take, of each size, the signed format where both
    would do; unsigned types never take a signed one. *)
Definition int_bytes (signed : bool) (z : Z) : bytes :=
  if (-32 <=? z) && (z <? 128) then [z mod 256]
  else if signed then
    if signed_in 1 z then 0xd0 :: signed_be 1 z else if unsigned_in 1 z then 0xcc :: be_bytes 1 z
    else if signed_in 2 z then 0xd1 :: signed_be 2 z else if unsigned_in 2 z then 0xcd :: be_bytes 2 z
    else if signed_in 4 z then 0xd2 :: signed_be 4 z else if unsigned_in 4 z then 0xce :: be_bytes 4 z
    else 0xd3 :: signed_be 8 z
  else
    if unsigned_in 1 z then 0xcc :: be_bytes 1 z else if unsigned_in 2 z then 0xcd :: be_bytes 2 z
    else if unsigned_in 4 z then 0xce :: be_bytes 4 z else 0xcf :: be_bytes 8 z.
Definition signed_kind (k : ikind) : bool := match k with I8 | I16 | I32 | I64 => true | _ => false end.

Definition str_bytes (s : bytes) : bytes := str_head (zlen s) ++ s.

Section Bytes.
Context (st : style).

Definition tag_bytes (i : Z) (n : bytes) : bytes :=
  match st with SNameMap => str_bytes n | _ => int_bytes false i end.
(** The fields that are not skipped, each behind its key if it has one. *)
Definition field_bytes (f : sval -> bytes) : Z -> list (bytes * option sval) -> bytes :=
  fix go i l := match l with
  | [] => []
  | (n, None) :: l => go (i + 1) l
  | (n, Some x) :: l =>
    (match st with SArray => [] | SIndexMap => int_bytes false i | SNameMap => str_bytes n end) ++ f x ++ go (i + 1) l
  end.
Definition struct_bytes (f : sval -> bytes) (fs : list (bytes * option sval)) : bytes :=
  (match st with SArray => arr_head | _ => map_head end) (present fs) ++ field_bytes f 0 fs.

(** The bytes of a call tree that has a document. *)
Fixpoint mp_bytes (v : sval) : bytes :=
  match v with
  | SBool b => [if b then 0xc3 else 0xc2]
  | SInt k z => int_bytes (signed_kind k) z
  | SF32 b => 0xca :: be_bytes 4 b
  | SF64 b => 0xcb :: be_bytes 8 b
  | SChar c => str_bytes (utf8_char c)
  | SStr s => str_bytes s
  | SBytes s => bin_head (zlen s) ++ s
  | SNone | SUnit | SUnitStruct => [0xc0]
  | SSome v => mp_bytes v
  | SUnitVariant i n => tag_bytes i n
  | SNewtypeStruct v => mp_bytes v
  | SNewtypeVariant i n v => map_head 1 ++ tag_bytes i n ++ mp_bytes v
  | SSeq _ l | STuple _ l | STupleStruct _ l => arr_head (zlen l) ++ flat_map mp_bytes l
  | STupleVariant i n _ l => map_head 1 ++ tag_bytes i n ++ arr_head (zlen l) ++ flat_map mp_bytes l
  | SMap _ l => map_head (zlen (filter fst l)) ++ flat_map (fun o => mp_bytes (snd o)) l
  | SStruct _ fs => struct_bytes mp_bytes fs
  | SStructVariant i n _ fs => map_head 1 ++ tag_bytes i n ++ struct_bytes mp_bytes fs
  | SCollect p _ => match fmt_text p with Some t => str_bytes t | None => [] end
  | SI128 | SCustom => []
  end.
End Bytes.

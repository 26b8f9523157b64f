(** Common vocabulary of the model: results, bytes, slices, big-endian integers.

    Nothing here models a particular function of /repo; these are the Gallina
    counterparts of core Rust notions ([Result], [&[u8]], [to_be_bytes]). *)
From Coq Require Export ZArith List Bool Lia.
From Coq Require Export ZifyBool ZifyNat.
Export ListNotations.
#[global] Open Scope list_scope.
#[global] Open Scope Z_scope.

(** Rust's [Result<A, E>]. *)
Inductive result (A E : Type) : Type :=
| Ok (a : A)
| Err (e : E).
Arguments Ok {A E} a.
Arguments Err {A E} e.

(** A byte is a [Z] in range; a [&[u8]] is a list of bytes. *)
Definition byte := Z.
Definition bytes := list Z.
Definition is_byte (b : Z) : Prop := 0 <= b < 256.
Definition all_bytes (l : bytes) : Prop := Forall is_byte l.
Definition is_byteb (b : Z) : bool := (0 <=? b) && (b <? 256).

(** [&l[a .. a+n]]: the caller guarantees that the range is inside [l]. *)
Definition slice {A} (l : list A) (a n : nat) : list A := firstn n (skipn a l).

(** Overwrite [l[a .. a+length bs]] with [bs] ([copy_from_slice]). *)
Definition splice {A} (l : list A) (a : nat) (bs : list A) : list A :=
  firstn a l ++ bs ++ skipn (a + length bs) l.

(** [len as integer]. *)
Definition zlen {A} (l : list A) : Z := Z.of_nat (length l).

(** Rust's [to_be_bytes] for an [n]-byte unsigned integer; a signed integer [v]
    is passed as [v mod 2^(8n)] (two's complement). *)
Fixpoint be_bytes (n : nat) (x : Z) : bytes :=
  match n with
  | O => []
  | S m => (x / 256 ^ Z.of_nat m) mod 256 :: be_bytes m x
  end.

(** Rust's [from_be_bytes] for unsigned integers. *)
Definition be_val (l : bytes) : Z := fold_left (fun acc b => acc * 256 + b) l 0.

(** Reinterpret an unsigned [bits]-bit number as two's complement
    ([as iN] / [iN::from_be_bytes]). *)
Definition to_signed (bits : Z) (x : Z) : Z :=
  if x <? 2 ^ (bits - 1) then x else x - 2 ^ bits.

(** [v as u8]. *)
Definition as_u8 (v : Z) : Z := v mod 256.

(** The eight integer types of serde's data model supported by the crates. *)
Inductive ikind := I8 | I16 | I32 | I64 | U8 | U16 | U32 | U64.

Definition imin (k : ikind) : Z :=
  match k with
  | I8 => - 2 ^ 7 | I16 => - 2 ^ 15 | I32 => - 2 ^ 31 | I64 => - 2 ^ 63
  | _ => 0
  end.
Definition imax (k : ikind) : Z :=
  match k with
  | I8 => 2 ^ 7 - 1 | I16 => 2 ^ 15 - 1 | I32 => 2 ^ 31 - 1 | I64 => 2 ^ 63 - 1
  | U8 => 2 ^ 8 - 1 | U16 => 2 ^ 16 - 1 | U32 => 2 ^ 32 - 1 | U64 => 2 ^ 64 - 1
  end.
Definition in_ikind (k : ikind) (z : Z) : Prop := imin k <= z <= imax k.
Definition in_ikindb (k : ikind) (z : Z) : bool := (imin k <=? z) && (z <=? imax k).

(** Rust's [k::try_from(z).ok()]. *)
Definition try_from (k : ikind) (z : Z) : option Z :=
  if in_ikindb k z then Some z else None.

Definition prefix {A} (p l : list A) : Prop := exists s, l = p ++ s.

#[global] Arguments slice : simpl never.
#[global] Arguments splice : simpl never.
#[global] Arguments be_val : simpl never.
#[global] Arguments zlen : simpl never.

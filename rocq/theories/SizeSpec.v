(** How big a value is, and how big a type may make it (specification for C62). *)
From Verif Require Import Prelude SerdeSer Types.

(** Parts of a value, down to the bytes of its strings. *)
Fixpoint val_size (v : val) : nat :=
  match v with
  | UStr s | UBytes s => S (length s)
  | USome v | UVar _ v => S (val_size v)
  | USeq l => S (list_sum (map val_size l))
  | UMap l => S (list_sum (map (fun e => val_size (fst e) + val_size (snd e))%nat l))
  | _ => 1%nat
  end.

(** What the program itself supplies for a field that is not in the input. *)
Definition supplied (f : bytes * fattr * ty) : nat :=
  match attr_of f with FDefault d => val_size d | FPlain => 1%nat end.
(** The most parts a byte of input can stand for: the wrappers around it and the
    defaults beside it. *)
Fixpoint per_byte (t : ty) : nat :=
  match t with
  | TNewtype t => per_byte t
  | TOption t | TSeq t => S (per_byte t)
  | TTuple l | TTupleStruct l => S (list_max (map per_byte l))
  | TMap k v => S (Nat.max (per_byte k) (per_byte v))
  | TStruct fs => S (list_sum (map supplied fs) + list_max (map (fun f => per_byte (snd f)) fs))
  | TEnum vs => S (S (list_max (map (fun f => per_byte (snd f)) vs)))
  | _ => 1%nat
  end.

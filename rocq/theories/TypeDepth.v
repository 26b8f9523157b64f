(** How deeply a type of the universe nests (specification for C60). *)
From Verif Require Import Prelude SerdeSer Types.

(** The longest chain of types inside types. *)
Fixpoint type_depth (t : ty) : nat :=
  match t with
  | TOption t | TNewtype t | TSeq t => S (type_depth t)
  | TTuple l | TTupleStruct l => S (list_max (map type_depth l))
  | TMap k v => S (Nat.max (type_depth k) (type_depth v))
  | TStruct fs => S (list_max (map (fun f => type_depth (snd f)) fs))
  | TEnum vs => S (list_max (map (fun f => type_depth (snd f)) vs))
  | _ => O
  end.

(** No struct with named fields in it: nothing of the input is ever skipped. *)
Fixpoint skips_nothing (t : ty) : Prop :=
  match t with
  | TOption t | TNewtype t | TSeq t => skips_nothing t
  | TTuple l | TTupleStruct l => all_list skips_nothing l
  | TMap k v => skips_nothing k /\ skips_nothing v
  | TStruct _ => False
  | TEnum vs => all_list (fun f => skips_nothing (snd f)) vs
  | _ => True
  end.

(** The number of types a type of the universe mentions, itself included. *)
From Verif Require Import Prelude Types.

Fixpoint type_size (t : ty) : nat :=
  match t with
  | TOption t | TNewtype t | TSeq t => S (type_size t)
  | TTuple l | TTupleStruct l => S (list_sum (map type_size l))
  | TMap k v => S (type_size k + type_size v)
  | TStruct fs => S (list_sum (map (fun f => type_size (snd f)) fs))
  | TEnum vs => S (list_sum (map (fun f => type_size (snd f)) vs))
  | _ => 1%nat
  end.

(** The number of types a type with buffered enums inside mentions, itself included; an
    enum read through a buffer counts as one. *)
From Verif Require Import Prelude Types TypeSize Content Nested.

Fixpoint xsize (x : xty) : nat :=
  match x with
  | XTy t => type_size t
  | XUntagged _ | XTagged _ _ => 1%nat
  | XOption x | XSeq x | XNewtype x => S (xsize x)
  | XTuple l => S (list_sum (map xsize l))
  | XMap k x => S (type_size k + xsize x)
  | XStruct fs => S (list_sum (map (fun f => xsize (snd f)) fs))
  | XEnum vs => S (list_sum (map (fun f => match snd f with Some x => xsize x | None => 1%nat end) vs))
  end.

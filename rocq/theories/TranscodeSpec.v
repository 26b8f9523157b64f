(** Specification: what a change of format by way of a self-describing value keeps (C73). *)
From Verif Require Import Prelude SerdeSer JsonSpec.

(** Text, also as the key of a map. *)
Fixpoint text_call (v : sval) : Prop :=
  match v with
  | SChar _ | SStr _ | SUnitVariant _ _ | SCollect _ _ => True
  | SNewtypeStruct v => text_call v
  | _ => False
  end.
(** Nothing JSON has no form of its own for: no byte strings, and the keys of maps are text. *)
Fixpoint json_native (v : sval) : Prop :=
  match v with
  | SBytes _ => False
  | SSome v | SNewtypeStruct v | SNewtypeVariant _ _ v => json_native v
  | SSeq _ l | STuple _ l | STupleStruct _ l | STupleVariant _ _ _ l => all_list json_native l
  | SMap _ l => all_list (fun o : bool * sval => if fst o then text_call (snd o) else json_native (snd o)) l
  | SStruct _ fs | SStructVariant _ _ _ fs =>
      all_list (fun f => match snd f with Some x => json_native x | None => True end) fs
  | _ => True
  end.

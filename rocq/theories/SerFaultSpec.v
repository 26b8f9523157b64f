(** Specification: why a value cannot be serialized, and which fault comes first (C63).
    Independent of the serializers. *)
From Verif Require Import Prelude SerdeSer MpSpec.

Inductive ser_fault :=
| WrongSeqLength | WrongMapLength      (* unknown, too big, or not the number of parts *)
| LongString | LongBytes               (* 2^32 bytes or more *)
| Gap                                  (* a field skipped before the last one *)
| DisplayFailed
| Refused                              (* the value's own error, and 128-bit integers *)
| KeyNotString.

Definition orelse (a b : option ser_fault) : option ser_fault := match a with Some f => Some f | None => b end.
Definition first_of {A} (f : A -> option ser_fault) (l : list A) : option ser_fault :=
  fold_right (fun a r => orelse (f a) r) None l.

(** ** MessagePack *)
Section Mp.
(** How structs are written, whether memory can be allocated, and the greatest length. *)
Context (st : style) (alloc : bool) (usize_max : Z).

Definition str_fault (s : bytes) : option ser_fault := if zlen s <? 2 ^ 32 then None else Some LongString.
Definition bytes_fault (s : bytes) : option ser_fault := if zlen s <? 2 ^ 32 then None else Some LongBytes.
(** The identifier of a variant or a field. *)
Definition name_fault (s : bytes) : option ser_fault := match st with SNameMap => str_fault s | _ => None end.
Definition display_fault (p1 p2 : fmtp) : option ser_fault :=
  match fmt_text p1 with
  | None => Some DisplayFailed
  | Some t =>
    if alloc then str_fault t
    else if usize_max <? zlen t then Some DisplayFailed
    else orelse (str_fault t)
      (* printed once more; it must not have become longer *)
      (match fmt_text p2 with
       | Some t' => if zlen t' <=? zlen t then None else Some DisplayFailed
       | None => Some DisplayFailed
       end)
  end.

(** What is between the head and the end of an array or a map: parts that count, parts
    that do not (the value of an entry), and fields left out where they must not be. *)
Inductive part := Counts (f : option ser_fault) | Free (f : option ser_fault) | Hole.
Fixpoint parts_fault (e : ser_fault) (n : Z) (l : list part) : option ser_fault :=
  match l with
  | [] => if n =? 0 then None else Some e
  | Counts f :: l => if n <? 1 then Some e else orelse f (parts_fault e (n - 1) l)
  | Free f :: l => orelse f (parts_fault e n l)
  | Hole :: l => if n =? 0 then parts_fault e n l else Some Gap
  end.
Definition container_fault (e : ser_fault) (n : Z) (l : list part) : option ser_fault :=
  if n <? 2 ^ 32 then parts_fault e n l else Some e.
Definition field_part (name : bytes) (f : option (option ser_fault)) : part :=
  match f, st with
  | Some f, _ => Counts (orelse (name_fault name) f)
  | None, SArray => Hole
  | None, _ => Free None
  end.
Definition struct_kind : ser_fault := match st with SArray => WrongSeqLength | _ => WrongMapLength end.

Fixpoint mp_first_fault (v : sval) : option ser_fault :=
  match v with
  | SI128 | SCustom => Some Refused
  | SStr s => str_fault s
  | SBytes s => bytes_fault s
  | SSome v | SNewtypeStruct v => mp_first_fault v
  | SUnitVariant _ n => name_fault n
  | SNewtypeVariant _ n v => orelse (name_fault n) (mp_first_fault v)
  | SSeq None _ => Some WrongSeqLength
  | SSeq (Some n) l | STuple n l | STupleStruct n l => container_fault WrongSeqLength n (map (fun v => Counts (mp_first_fault v)) l)
  | STupleVariant _ nm n l => orelse (name_fault nm) (container_fault WrongSeqLength n (map (fun v => Counts (mp_first_fault v)) l))
  | SMap None _ => Some WrongMapLength
  | SMap (Some n) l => container_fault WrongMapLength n (map (fun o : bool * sval => (if fst o then Counts else Free) (mp_first_fault (snd o))) l)
  | SStruct n l => container_fault struct_kind n (map (fun f : bytes * option sval => field_part (fst f) (option_map mp_first_fault (snd f))) l)
  | SStructVariant _ nm n l => orelse (name_fault nm)
      (container_fault struct_kind n (map (fun f : bytes * option sval => field_part (fst f) (option_map mp_first_fault (snd f))) l))
  | SCollect p1 p2 => display_fault p1 p2
  | _ => None
  end.
End Mp.

(** ** JSON *)
Definition print_fault (p : fmtp) : option ser_fault := match fmt_text p with Some _ => None | None => Some DisplayFailed end.
Fixpoint key_fault (v : sval) : option ser_fault :=
  match v with
  | SBool _ | SInt _ _ | SChar _ | SStr _ | SUnitVariant _ _ => None
  | SNewtypeStruct v => key_fault v
  | SCollect p _ => print_fault p
  | SI128 | SCustom => Some Refused
  | _ => Some KeyNotString
  end.
Fixpoint js_first_fault (v : sval) : option ser_fault :=
  match v with
  | SI128 | SCustom => Some Refused
  | SCollect p _ => print_fault p
  | SSome v | SNewtypeStruct v | SNewtypeVariant _ _ v => js_first_fault v
  | SSeq _ l | STuple _ l | STupleStruct _ l | STupleVariant _ _ _ l => first_of js_first_fault l
  | SMap _ l => first_of (fun o : bool * sval => if fst o then key_fault (snd o) else js_first_fault (snd o)) l
  | SStruct _ l | SStructVariant _ _ _ l => first_of (fun f : bytes * option sval => match snd f with Some v => js_first_fault v | None => None end) l
  | _ => None
  end.

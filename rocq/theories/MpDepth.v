(** The MessagePack deserializer on a bounded stack: [MpDe] with a count of the nested
    calls left.  Every [Deserialize::deserialize] called from a [Visitor], [SeqAccess],
    [MapAccess], [EnumAccess] or [VariantAccess] and every [eat_message] takes one; what
    a level costs in bytes is up to the compiler and the types.  Running out of stack is
    shown as [Panic] (the process is killed, or on bare metal anything happens). *)
From Verif Require Import Prelude SerdeDe FloatOps MpDe.

Section MpDepth.
Context (ar : arch) (fo : float_ops).
Local Notation M := (DM mpde mp_de_error).

(** [eat_message], [eat_seq_items] and [eat_map_items] (de.rs:359-424); the helpers'
    own frames are counted with [eat_message]. *)
Fixpoint eat_deep (fuel depth : nat) : M unit :=
  match fuel with
  | O => fun _ => OutOfFuel
  | S f =>
    match depth with
    | O => dpanic
    | S d =>
      t <-- eat_header ar ;;
      match t with
      | Single len => eat_single ar len
      | Array len => eat_items_deep f d false len
      | Map len => eat_items_deep f d true len
      end
    end
  end
with eat_items_deep (fuel depth : nat) (pairs : bool) (len : Z) : M unit :=
  if len <=? 0 then dret tt
  else match fuel with
  | O => fun _ => OutOfFuel
  | S f =>
    _ <-- eat_deep f depth ;;
    _ <-- (if pairs then eat_deep f depth else dret tt) ;;
    eat_items_deep f depth pairs (len - 1)
  end.

(** The frame a program runs in: nested programs get one call less, what goes on in the
    same visitor does not. *)
Definition frame {U} (same : @runner U) (nested : option (@runner U)) : @runner U :=
  {| r_de := fun p => match nested with Some R => r_de R p | None => dpanic end;
     r_seq := r_seq same; r_map := r_map same; r_enum := r_enum same; r_eat := r_eat same |}.

(** [mp_run] (de.rs:429-922) with [depth] nested calls left. *)
Fixpoint mp_deep {U} (fuel depth : nat) : @runner U :=
  match fuel with
  | O => {| r_de := fun _ _ => OutOfFuel; r_seq := fun _ _ _ => OutOfFuel;
            r_map := fun _ _ _ => OutOfFuel; r_enum := fun _ _ _ => OutOfFuel;
            r_eat := fun _ => OutOfFuel |}
  | S f =>
    let same := mp_deep f depth in
    let R := frame same (match depth with O => None | S d => Some (mp_deep f d) end) in
    {| r_de := fun p => match p with
                        | DHuman k => r_de same (k false)
                        | _ => step_de ar fo R p
                        end;
       r_seq := step_seq R; r_map := step_map R;
       r_enum := step_enum ar R; r_eat := eat_deep fuel depth |}
  end.

(** [from_slice] (de.rs:23-31). *)
Definition mp_from_slice_deep {U} (fuel depth : nat) (p : deser U mp_de_error) (input : bytes)
  : outcome mpde (U * Z) mp_de_error :=
  (value <-- r_de (mp_deep fuel depth) p ;;
   tail_len <-- de_end ;;
   if tail_len <=? zlen input then dret (value, zlen input - tail_len) else dpanic) (de_from_slice input).
End MpDepth.

(** Specification: values that come back unchanged when they are written again (C67). *)
From Verif Require Import Prelude SerdeSer MpSpec Types FloatOps JsonSpec.

(** Conversions to a float give the bits of one. *)
Definition conversions_ok (fo : float_ops) : Prop :=
  forall x, 0 <= int_to_f32 fo x < 2 ^ 32 /\ 0 <= int_to_f64 fo x < 2 ^ 64 /\ 0 <= f64_to_f32 fo x < 2 ^ 32 /\ 0 <= f32_to_f64 fo x < 2 ^ 64.

(** JSON: the floats in a value have a number other than -0, or are the one NaN that
    null stands for. *)
Definition kept32 (b : Z) : Prop := (finite32 b /\ b <> 0x80000000) \/ b = 0x7fc00000.
Definition kept64 (b : Z) : Prop := (finite64 b /\ b <> 0x8000000000000000) \/ b = 0x7ff8000000000000.
Fixpoint floats_kept (v : val) : Prop :=
  match v with
  | UF32 b => kept32 b
  | UF64 b => kept64 b
  | USome v | UVar _ v => floats_kept v
  | USeq l => all_list floats_kept l
  | UMap l => all_list (fun e => floats_kept (fst e) /\ floats_kept (snd e)) l
  | _ => True
  end.

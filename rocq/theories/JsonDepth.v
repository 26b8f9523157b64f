(** The JSON deserializer on a bounded stack: [JsonDe] with a count of the nested calls
    left (see [MpDepth]).  Skipping a value goes through [IgnoredAny], that is through
    the same calls (de.rs:1200-1222). *)
From Verif Require Import Prelude SerdeDe JsonDe.

Section JsonDepth.
Context (ar : arch) (fl : float_parser) (any_f32 : bool) (dec : byte_decoder).
Local Notation M := (DM jde js_de_error).

(** The frame a program runs in: nested programs get one call less. *)
Definition jframe {U} (same : @jrunner U) (nested : option (@jrunner U)) : @jrunner U :=
  {| jr_de := fun key p => match nested with Some R => jr_de R key p | None => dpanic end;
     jr_seq := jr_seq same; jr_map := jr_map same; jr_enum := jr_enum same |}.

(** [js_run] (de.rs:896-1544) with [depth] nested calls left. *)
Fixpoint js_deep {U} (fuel depth : nat) : @jrunner U :=
  match fuel with
  | O => {| jr_de := fun _ _ _ => OutOfFuel; jr_seq := fun _ _ _ => OutOfFuel;
            jr_map := fun _ _ _ => OutOfFuel; jr_enum := fun _ _ _ => OutOfFuel |}
  | S f =>
    let same := js_deep f depth in
    let R := jframe same (match depth with O => None | S d => Some (js_deep f d) end) in
    {| jr_de := fun key p => match p with
                             | DHuman k => jr_de same key (k true)
                             | _ => j_step_de ar fl any_f32 dec R key p
                             end;
       jr_seq := j_step_seq R; jr_map := j_step_map R; jr_enum := j_step_enum R |}
  end.

(** [from_mut_slice_with_decoder] (de.rs:37-46). *)
Definition js_from_mut_slice_deep {U} (fuel depth : nat) (p : deser U js_de_error) (input : bytes)
  : outcome jde U js_de_error :=
  (value <-- jr_de (js_deep fuel depth) false p ;; _ <-- j_end ;; dret value) (j_from_mut_slice input).
End JsonDepth.

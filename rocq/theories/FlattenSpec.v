(** Specification: when a struct with a flattened field is read back (C72). *)
From Verif Require Import Prelude SerdeSer Types JsonSpec ContentSpec.

(** The flattened field is a struct, or a map with keys that are text, and its keys are not
    names of the other fields. *)
Definition keys_apart (names : list bytes) (g : ty) (w : val) : Prop :=
  match g, w with
  | TStruct gs, _ => forall f, In f gs -> ~ In (name_of f) names
  | TMap k _, UMap l => forall e raw, In e l -> key_doc (trace k (fst e)) = Some raw -> ~ In raw names
  | _, _ => False
  end.
Definition has_members (g : ty) : Prop := match g with TStruct _ | TMap _ _ => True | _ => False end.

(** The serde side of deserialization: what an arbitrary [T: Deserialize] may ask
    of a [Deserializer].  serde itself is not part of /repo; this is its interface.

    A Deserialize impl is an interactive program.  The types are coinductive: a
    visitor may loop for as long as the accessor keeps returning elements, and a
    program may never end.  Every continuation receives a [result], so programs
    that swallow errors and go on are included.  All values have one universal
    type [U].  Names, field lists and lengths passed to a [Deserializer] method
    are left out: both deserializers of /repo ignore them. *)
From Verif Require Import Prelude.

(** The methods of [serde::Deserializer]. *)
Inductive dmethod :=
| DAny | DBool | DInt (k : ikind) | DI128 | DF32 | DF64 | DChar | DStr | DString
| DBytes | DByteBuf | DOption | DUnit | DUnitStruct | DNewtypeStruct
| DSeq | DTuple | DTupleStruct | DMap | DStruct | DEnum | DIdentifier | DIgnoredAny.

Section SerdeDe.
Context {U E : Type}.
Local Notation R := (result U E).

CoInductive deser : Type :=
| DRet (r : R)                                          (* returns without using the deserializer *)
| DHuman (k : bool -> deser)                            (* is_human_readable() *)
| DReq (m : dmethod) (v : visitor) (post : R -> R)      (* deserialize_m(visitor), then anything *)
(** [serde::de::Visitor]: one entry per visit method the deserializers call. *)
with visitor : Type :=
| Visitor (vbool : bool -> R) (vint : ikind -> Z -> R) (vf32 vf64 : Z -> R) (vchar : Z -> R)
    (vstr vbytes : bytes -> R) (vnone vunit : R) (vsome vnewtype : deser)
    (vseq : sprog) (vmap : mprog) (venum : eprog)
(** What [visit_seq] does with its [SeqAccess]. *)
with sprog : Type :=
| SRet (r : R)
| SNext (seed : deser) (k : result (option U) E -> sprog)
| SHint (k : option Z -> sprog)
(** What [visit_map] does with its [MapAccess]. *)
with mprog : Type :=
| MRet (r : R)
| MKey (seed : deser) (k : result (option U) E -> mprog)
| MVal (seed : deser) (k : R -> mprog)
| MHint (k : option Z -> mprog)
(** What [visit_enum] does with its [EnumAccess] (consumed by [variant_seed]). *)
with eprog : Type :=
| ERet (r : R)
| EVariant (seed : deser) (kerr : E -> R) (kok : U -> vprog)
(** ... and with the [VariantAccess] (consumed by each of its methods). *)
with vprog : Type :=
| VRet (r : R)
| VUnit (k : result unit E -> R)
| VNewtype (seed : deser) (post : R -> R)
| VTuple (v : visitor) (post : R -> R)
| VStruct (v : visitor) (post : R -> R).

Definition visit_bool (v : visitor) := let 'Visitor f _ _ _ _ _ _ _ _ _ _ _ _ _ := v in f.
Definition visit_int (v : visitor) := let 'Visitor _ f _ _ _ _ _ _ _ _ _ _ _ _ := v in f.
Definition visit_f32 (v : visitor) := let 'Visitor _ _ f _ _ _ _ _ _ _ _ _ _ _ := v in f.
Definition visit_f64 (v : visitor) := let 'Visitor _ _ _ f _ _ _ _ _ _ _ _ _ _ := v in f.
Definition visit_char (v : visitor) := let 'Visitor _ _ _ _ f _ _ _ _ _ _ _ _ _ := v in f.
Definition visit_str (v : visitor) := let 'Visitor _ _ _ _ _ f _ _ _ _ _ _ _ _ := v in f.
Definition visit_bytes (v : visitor) := let 'Visitor _ _ _ _ _ _ f _ _ _ _ _ _ _ := v in f.
Definition visit_none (v : visitor) := let 'Visitor _ _ _ _ _ _ _ f _ _ _ _ _ _ := v in f.
Definition visit_unit (v : visitor) := let 'Visitor _ _ _ _ _ _ _ _ f _ _ _ _ _ := v in f.
Definition visit_some (v : visitor) := let 'Visitor _ _ _ _ _ _ _ _ _ f _ _ _ _ := v in f.
Definition visit_newtype (v : visitor) := let 'Visitor _ _ _ _ _ _ _ _ _ _ f _ _ _ := v in f.
Definition visit_seq (v : visitor) := let 'Visitor _ _ _ _ _ _ _ _ _ _ _ f _ _ := v in f.
Definition visit_map (v : visitor) := let 'Visitor _ _ _ _ _ _ _ _ _ _ _ _ f _ := v in f.
Definition visit_enum (v : visitor) := let 'Visitor _ _ _ _ _ _ _ _ _ _ _ _ _ f := v in f.
End SerdeDe.
Arguments deser : clear implicits.
Arguments visitor : clear implicits.
Arguments sprog : clear implicits.
Arguments mprog : clear implicits.
Arguments eprog : clear implicits.
Arguments vprog : clear implicits.

(** The outcome of running a piece of the deserializer in state [S]: it returns
    (with the new state, kept also on error since a visitor may go on after one),
    panics, or the model's step budget is used up. *)
Inductive outcome (S A E : Type) : Type :=
| Done (s : S) (r : result A E)
| Panic
| OutOfFuel.
Arguments Done {S A E} s r.
Arguments Panic {S A E}.
Arguments OutOfFuel {S A E}.

Section DMonad.
Context {S E : Type}.
Definition DM (A : Type) : Type := S -> outcome S A E.
Definition dret {A} (a : A) : DM A := fun s => Done s (Ok a).
Definition dfail {A} (e : E) : DM A := fun s => Done s (Err e).
Definition dlift {A} (r : result A E) : DM A := fun s => Done s r.
Definition dpanic {A} : DM A := fun _ => Panic.
(** [m?] followed by [f]. *)
Definition dbind {A B} (m : DM A) (f : A -> DM B) : DM B := fun s =>
  match m s with
  | Done s' (Ok a) => f a s'
  | Done s' (Err e) => Done s' (Err e)
  | Panic => Panic
  | OutOfFuel => OutOfFuel
  end.
(** Run [m] and go on with its result, whatever it is. *)
Definition dtry {A B} (m : DM A) (f : result A E -> DM B) : DM B := fun s =>
  match m s with
  | Done s' r => f r s'
  | Panic => Panic
  | OutOfFuel => OutOfFuel
  end.
(** Post-process the result of [m]. *)
Definition dpost {A B} (post : result A E -> result B E) (m : DM A) : DM B :=
  dtry m (fun r => dlift (post r)).
End DMonad.
Arguments DM : clear implicits.
Notation "x <-- m ;; f" := (dbind m (fun x => f)) (at level 61, m at next level, right associativity).

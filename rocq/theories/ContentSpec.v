(** Specification: when an untagged enum is read back as it was written (C65). *)
From Verif Require Import Prelude SerdeSer FloatOps MpSpec Types JsonAnySpec.

(** What a document looks like from the outside. *)
Inductive shape := Null | Bool | Num | Text | Bin | Arr | Obj.
Definition shape_of (c : val) : option shape :=
  match c with
  | UUnit | UNone => Some Null
  | UBool _ => Some Bool
  | UInt _ | UF32 _ | UF64 _ => Some Num
  | UStr _ | UChar _ => Some Text
  | UBytes _ => Some Bin
  | USeq _ => Some Arr
  | UMap _ => Some Obj
  | _ => None
  end.

(** The shapes a type can be read from. *)
Fixpoint readable (t : ty) : list shape :=
  match t with
  | TBool => [Bool]
  | TInt _ | TF32 | TF64 => [Num]
  | TChar => [Text]
  | TStr => [Text; Bin]
  | TBytes => [Text; Bin; Arr]
  | TUnit | TUnitStruct => [Null]
  | TOption t => Null :: readable t
  | TNewtype t => readable t
  | TSeq _ | TTuple _ | TTupleStruct _ => [Arr]
  | TMap _ _ => [Obj]
  | TStruct _ => [Arr; Obj]
  | TEnum _ => [Text; Obj]
  end.
(** A struct variant is only read from a map. *)
Definition variant_readable (f : vkind * ty) : list shape :=
  match fst f with KUnit => [Null] | KStruct => [Obj] | _ => readable (snd f) end.

(** The shapes it is written in; [bytes]: byte strings, [fields]: structs. *)
Section Written.
Context (bytes fields : shape).
Fixpoint written (t : ty) : list shape :=
  match t with
  | TBool => [Bool]
  | TInt _ | TF32 | TF64 => [Num]
  | TChar | TStr => [Text]
  | TBytes => [bytes]
  | TUnit | TUnitStruct => [Null]
  | TOption t => Null :: written t
  | TNewtype t => written t
  | TSeq _ | TTuple _ | TTupleStruct _ => [Arr]
  | TMap _ _ => [Obj]
  | TStruct _ => [fields]
  | TEnum _ => [Text; Obj]
  end.
End Written.

(** No shape [t] is written in can be read by one of the variants before. *)
Definition apart (earlier : list (vkind * ty)) (w : list shape) : Prop :=
  forall f s, In f earlier -> In s w -> ~ In s (variant_readable f).

(** MessagePack: enums whose variants are written by name, or by a number that is a key
    (not a unit variant's) and fits a byte; the same for fields. *)
Section ToldApart.
Context (st : style).
Fixpoint told_apart (t : ty) : Prop :=
  match t with
  | TOption t | TNewtype t | TSeq t => told_apart t
  | TTuple l | TTupleStruct l => all_list told_apart l
  | TMap k v => told_apart k /\ told_apart v
  | TStruct fs => (st = SIndexMap -> zlen fs <= 256) /\ all_list (fun f => told_apart (snd f)) fs
  | TEnum vs => (st = SNameMap \/ (zlen vs <= 256 /\ all_list (fun f => attr_of f <> KUnit) vs)) /\ all_list (fun f => told_apart (snd f)) vs
  | _ => True
  end.
End ToldApart.

(** JSON: keys that are strings, and byte strings only as arrays. *)
Fixpoint text_key (t : ty) : Prop :=
  match t with
  | TChar | TStr | TEnum _ => True
  | TNewtype t => text_key t
  | _ => False
  end.
Section TextKeys.
Context (bytes_too : Prop).
Fixpoint text_keys (t : ty) : Prop :=
  match t with
  | TBytes => bytes_too
  | TOption t | TNewtype t | TSeq t => text_keys t
  | TTuple l | TTupleStruct l => all_list text_keys l
  | TMap k v => text_key k /\ text_keys v
  | TStruct fs => all_list (fun f => text_keys (snd f)) fs
  | TEnum vs => all_list (fun f => text_keys (snd f)) vs
  | _ => True
  end.
End TextKeys.

(** JSON: a number that is read as the float it was printed for, whichever of an integer,
    an f32 or an f64 a generic reader takes it for. *)
Definition told32 (fo : float_ops) (any_f32 : bool) (float_of : bytes -> option Z) (text : bytes) (b : Z) : Prop :=
  exists w, number_as any_f32 float_of w text /\
    match w with UF32 x => x = b | UF64 x => f64_to_f32 fo x = b | UInt z => int_to_f32 fo z = b | _ => False end.
Definition told64 (fo : float_ops) (any_f32 : bool) (float_of : bytes -> option Z) (text : bytes) (b : Z) : Prop :=
  exists w, number_as any_f32 float_of w text /\
    match w with UF64 x => x = b | UF32 x => f32_to_f64 fo x = b | UInt z => int_to_f64 fo z = b | _ => False end.

(** Internally tagged enums: a variant's fields ([None]: a unit variant), and the struct
    that has the tag before them. *)
Definition variant_fields (f : bytes * option (list (bytes * fattr * ty))) : list (bytes * fattr * ty) := match snd f with Some fs => fs | None => [] end.
Definition variant_hastype (f : bytes * option (list (bytes * fattr * ty))) (v : val) : Prop :=
  match snd f with Some fs => hastype (TStruct fs) v | None => v = UUnit end.
Definition with_tag (tag : bytes) (fs : list (bytes * fattr * ty)) : ty := TStruct ((tag, FPlain, TStr) :: fs).

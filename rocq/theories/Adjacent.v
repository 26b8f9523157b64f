(** Adjacently tagged enums: [#[serde(tag = "...", content = "...")]].  serde is not in
    /repo; this models the code serde_derive 1.0.219 generates, the version
    ser-write-json/Cargo.toml and ser-write-msgpack/Cargo.toml ask for. *)
From Verif Require Import Prelude Utf8Spec SerdeSer SerdeDe FloatOps Types Content.

(** The tag alone is written and read as a unit variant
    ([serde::__private::ser::AdjacentlyTaggedEnumVariant] and
    [serde::__private::de::AdjacentlyTaggedEnumVariantSeed]). *)
Definition tag_ty (vs : list (bytes * vkind * ty)) : ty := TEnum (map (fun f => (name_of f, KUnit, TUnit)) vs).

(** The derived [Serialize]: a struct of one field for unit variants, of two for others. *)
Definition adjacent_trace (tag content : bytes) (vs : list (bytes * vkind * ty)) (v : val) : sval :=
  match v with
  | UVar i v =>
    match nth_error vs i with
    | Some (n, KUnit, _) => SStruct 1 [(tag, Some (SUnitVariant (Z.of_nat i) n))]
    | Some (n, _, t) => SStruct 2 [(tag, Some (SUnitVariant (Z.of_nat i) n)); (content, Some (trace t v))]
    | None => SCustom
    end
  | _ => SCustom
  end.

Section Adjacent.
Context (fo : float_ops) {E : Type} (custom : E).
Local Notation deser := (deser val E).
Local Notation mprog := (mprog val E).
Local Notation sprog := (sprog val E).
Local Notation bad := (bad custom).

(** [serde::__private::de::UntaggedUnitVisitor]. *)
Definition v_untagged_unit : vis := {| on_bool := fun _ => bad; on_int := fun _ _ => bad; on_f32 := fun _ => bad;
  on_f64 := fun _ => bad; on_char := fun _ => bad; on_str := fun _ => bad; on_bytes := fun _ => bad;
  on_none := Ok UUnit; on_unit := Ok UUnit; on_some := DRet bad; on_newtype := DRet bad; on_seq := SRet bad;
  on_map := MRet bad; on_enum := ERet bad |}.
(** The derived [__Seed]: the content of a variant, read in place.  Unit and struct variants
    ask for whatever is there, and the latter take it only if it is a map. *)
Definition content_seed (k : vkind) (t : ty) : deser :=
  match k, t with
  | KUnit, _ => request DAny v_untagged_unit
  | KStruct, TStruct fs => request DAny (v_map custom
      (struct_loop custom (map name_of fs) (map (fun f => denote custom (snd f)) fs) (map absent_val fs) (map (fun _ => None) fs)))
  | _, t => denote custom t
  end.
(** The content of a variant when there is none: unit variants need none, and newtype
    variants ask [missing_field]. *)
Definition content_absent (k : vkind) (t : ty) : option val :=
  match k, t with
  | KUnit, _ => Some UUnit
  | KNewtype, TOption _ => Some UNone
  | _, _ => None
  end.

(** The next key that is the tag (0) or the content (1); others are skipped with their
    values ([serde::__private::de::TagContentOtherFieldVisitor]). *)
CoFixpoint next_relevant (names : list bytes) (k : option nat -> mprog) : mprog :=
  MKey (ident custom false names) (fun r =>
    match r with
    | Err e => MRet (Err e)
    | Ok None => k None
    | Ok (Some (UIdent (Some i))) => k (Some i)
    | Ok (Some _) => MVal ignored (fun r =>
        match r with
        | Ok _ => next_relevant names k
        | Err e => MRet (Err e)
        end)
    end).
(** Both were there; neither may come again. *)
Definition no_more (names : list bytes) (v : val) : mprog :=
  next_relevant names (fun o => MRet (match o with None => Ok v | Some _ => bad end)).
(** The value of the tag picks the variant. *)
Definition tag_value (vs : list (bytes * vkind * ty)) (k : nat -> vkind -> ty -> mprog) : mprog :=
  MVal (denote custom (tag_ty vs)) (fun r =>
    match r with
    | Ok (UVar i _) => match nth_error vs i with Some (_, kd, t) => k i kd t | None => MRet bad end
    | Ok _ => MRet bad
    | Err e => MRet (Err e)
    end).
(** The derived [visit_map].  A content before the tag is buffered
    ([serde::__private::de::ContentVisitor]) and read from there, as in an untagged enum. *)
Definition adjacent_map (tag content : bytes) (vs : list (bytes * vkind * ty)) : mprog :=
  let names := [tag; content] in
  next_relevant names (fun o =>
    match o with
    | Some O => tag_value vs (fun i kd t =>
        next_relevant names (fun o =>
          match o with
          | Some O => MRet bad
          | Some _ => MVal (content_seed kd t) (fun r =>
              match r with
              | Ok v => no_more names (UVar i v)
              | Err e => MRet (Err e)
              end)
          | None => MRet (match content_absent kd t with Some v => Ok (UVar i v) | None => bad end)
          end))
    | Some _ => MVal (any custom) (fun r =>
        match r with
        | Ok c => next_relevant names (fun o =>
            match o with
            | Some O => tag_value vs (fun i kd t =>
                match untagged_variant fo (kd, t) c with
                | Some v => no_more names (UVar i v)
                | None => MRet bad
                end)
            | _ => MRet bad
            end)
        | Err e => MRet (Err e)
        end)
    | None => MRet bad
    end).
(** The derived [visit_seq] insists on both elements. *)
Definition adjacent_seq (vs : list (bytes * vkind * ty)) : sprog :=
  SNext (ident custom true (map name_of vs)) (fun r =>
    match r with
    | Ok (Some (UIdent (Some i))) =>
      match nth_error vs i with
      | Some (_, kd, t) => SNext (content_seed kd t) (fun r =>
          match r with
          | Ok (Some v) => SRet (Ok (UVar i v))
          | Ok None => SRet bad
          | Err e => SRet (Err e)
          end)
      | None => SRet bad
      end
    | Ok _ => SRet bad
    | Err e => SRet (Err e)
    end).
(** The derived [Deserialize]. *)
Definition adjacent (tag content : bytes) (vs : list (bytes * vkind * ty)) : deser :=
  request DStruct (v_struct custom (adjacent_seq vs) (adjacent_map tag content vs)).
End Adjacent.

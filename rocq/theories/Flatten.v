(** Structs with a flattened field: [#[serde(flatten)]].  serde is not in /repo; this models
    the code serde_derive 1.0.219 generates, the version ser-write-json/Cargo.toml and
    ser-write-msgpack/Cargo.toml ask for.

    Modelled: one flattened field, a struct or a map, at any position among the other
    fields.  A value is [USeq [USeq l; w]]: the other fields in order, the flattened one. *)
From Verif Require Import Prelude Utf8Spec SerdeSer SerdeDe FloatOps Types Content.

(** The entries a struct or a map adds to the map it is flattened into
    ([serde::__private::ser::FlatMapSerializer]); skipped fields add none. *)
Definition field_entries (items : list (bytes * option sval)) : list (bool * sval) :=
  flat_map (fun f => match snd f with Some x => [(true, SStr (fst f)); (false, x)] | None => [] end) items.
Definition flat_entries (x : sval) : option (list (bool * sval)) :=
  match x with
  | SStruct _ items => Some (field_entries items)
  | SMap _ ops => Some ops
  | _ => None
  end.
(** The derived [Serialize]: a map of unknown length, with [p] fields before the flattened one. *)
Definition flat_trace (fs : list (bytes * fattr * ty)) (p : nat) (g : ty) (v : val) : sval :=
  match v with
  | USeq [USeq l; w] =>
    match trace (TStruct fs) (USeq l), flat_entries (trace g w) with
    | SStruct _ items, Some es => SMap None (field_entries (firstn p items) ++ es ++ field_entries (skipn p items))
    | _, _ => SCustom
    end
  | _ => SCustom
  end.

Section Flatten.
Context (fo : float_ops) {E : Type} (custom : E).
Local Notation deser := (deser val E).
Local Notation mprog := (mprog val E).
Local Notation bad := (bad custom).

(** The derived [__Field]: the fields by name; other keys are kept as they are. *)
Definition v_flat_ident (ns : list bytes) : vis := {| on_bool := fun b => Ok (UBool b); on_int := fun _ z => Ok (UInt z);
  on_f32 := fun b => Ok (UF32 b); on_f64 := fun b => Ok (UF64 b); on_char := fun c => Ok (UChar c);
  on_str := fun s => match find_name s ns 0 with Some i => Ok (UIdent (Some i)) | None => Ok (UStr s) end;
  on_bytes := fun s => match find_name s ns 0 with Some i => Ok (UIdent (Some i)) | None => Ok (UBytes s) end;
  on_none := bad; on_unit := Ok UUnit; on_some := DRet bad; on_newtype := DRet bad; on_seq := SRet bad;
  on_map := MRet bad; on_enum := ERet bad |}.
(** What the flattened field makes of the other entries
    ([serde::__private::de::FlatMapDeserializer]): a struct takes those that are named as
    its fields ([flat_map_take_entry]), a map all. *)
Definition is_named (ns : list bytes) (e : val * val) : bool :=
  match fst e with UStr s | UBytes s => match find_name s ns 0 with Some _ => true | None => false end | _ => false end.
Definition from_rest (g : ty) (rest : list (val * val)) : option val :=
  match g with
  | TStruct gs => from_content fo g (UMap (filter (is_named (map name_of gs)) rest))
  | TMap _ _ => from_content fo g (UMap rest)
  | _ => None
  end.
(** The derived [visit_map]; [rest]: the buffered entries. *)
CoFixpoint flat_loop (names : list bytes) (seeds : list deser) (absent : list (option val)) (g : ty)
    (got : list (option val)) (rest : list (val * val)) : mprog :=
  MKey (request DIdentifier (v_flat_ident names)) (fun r =>
    match r with
    | Err e => MRet (Err e)
    | Ok None => MRet (
        match finish got absent, from_rest g rest with
        | Some l, Some w => Ok (USeq [USeq l; w])
        | _, _ => bad
        end)
    | Ok (Some (UIdent (Some i))) =>
      match nth_error seeds i, nth_error got i with
      | Some seed, Some None => MVal seed (fun r =>
          match r with
          | Ok v => flat_loop names seeds absent g (set_nth got i (Some v)) rest
          | Err e => MRet (Err e)
          end)
      | _, _ => MRet bad
      end
    | Ok (Some k) => MVal (any custom) (fun r =>
        match r with
        | Ok c => flat_loop names seeds absent g got (rest ++ [(k, c)])
        | Err e => MRet (Err e)
        end)
    end).
(** The derived [Deserialize] asks for a map: such a struct is never read from an array. *)
Definition flattened (fs : list (bytes * fattr * ty)) (g : ty) : deser :=
  request DMap (v_map custom (flat_loop (map name_of fs) (map (fun f => denote custom (snd f)) fs) (map absent_val fs) g (map (fun _ => None) fs) [])).
End Flatten.

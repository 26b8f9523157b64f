(** Structs that refuse unknown fields: [#[serde(deny_unknown_fields)]].  serde is not in
    /repo; this models the code serde_derive 1.0.219 generates, the version
    ser-write-json/Cargo.toml and ser-write-msgpack/Cargo.toml ask for.

    Modelled: the attribute on the type that is decoded; the structs inside it do not have
    it.  [Serialize] is not affected: [trace (TStruct fs)]. *)
From Verif Require Import Prelude SerdeSer SerdeDe Types.

Section Deny.
Context {E : Type} (custom : E).
Local Notation deser := (deser val E).
Local Notation mprog := (mprog val E).
Local Notation bad := (bad custom).

(** The derived [visit_map]: [struct_loop] with a [__Field] that has no [__ignore]; its
    visitor refuses unknown names ([Error::unknown_field]) and numbers
    ([Error::invalid_value]). *)
CoFixpoint deny_loop (names : list bytes) (seeds : list deser) (absent : list (option val)) (got : list (option val)) : mprog :=
  MKey (ident custom true names) (fun r =>
    match r with
    | Err e => MRet (Err e)
    | Ok None => MRet (match finish got absent with Some l => Ok (USeq l) | None => bad end)
    | Ok (Some (UIdent (Some i))) =>
      match nth_error seeds i, nth_error got i with
      | Some seed, Some None => MVal seed (fun r =>
          match r with
          | Ok v => deny_loop names seeds absent (set_nth got i (Some v))
          | Err e => MRet (Err e)
          end)
      | _, _ => MRet bad
      end
    | Ok (Some _) => MRet bad
    end).
(** The derived [Deserialize]; [visit_seq] is that of any struct. *)
Definition denying (fs : list (bytes * fattr * ty)) : deser :=
  request DStruct (v_struct custom
    (tuple_prog custom (map (fun f => (denote custom (snd f), default_of (attr_of f))) fs) [])
    (deny_loop (map name_of fs) (map (fun f => denote custom (snd f)) fs) (map absent_val fs) (map (fun _ => None) fs))).
End Deny.

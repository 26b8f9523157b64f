(** Types that read their input twice.  serde_derive reads an [#[serde(untagged)]] enum
    (as in the tests [test_de_any], ser-write-json/src/de.rs:2861-2945 and
    ser-write-msgpack/src/de.rs:2047-2180, and ser-write-json/tests/ex_machine.rs) into
    [serde::__private::de::Content] with [deserialize_any] and then tries the variants on
    that.  serde is not in /repo; this models version 1.0.

    A [Content] is what the program [any] of [Types] returns.  Simplified: the width of
    an integer is not kept.  It matters for numbers of fields and variants, which serde
    takes only as u8 (or u64); the serializer writes numbers below 256 as u8, so on its
    output this is the same. *)
From Verif Require Import Prelude Utf8 SerdeSer SerdeDe FloatOps Types.

Section Content.
Context (fo : float_ops).

Definition content_list {A} (f : val -> option A) : list val -> option (list A) :=
  fix go l := match l with
  | [] => Some []
  | c :: l => match f c, go l with Some v, Some vs => Some (v :: vs) | _, _ => None end
  end.
(** A tuple: the program stops behind its last element, the deserializer reports what
    is left. *)
Fixpoint content_tuple (fs : list (val -> option val)) (l : list val) : option (list val) :=
  match fs, l with
  | [], [] => Some []
  | f :: fs, c :: l => match f c, content_tuple fs l with Some v, Some vs => Some (v :: vs) | _, _ => None end
  | _, _ => None
  end.
(** A struct given as a sequence; fields beyond its end have their default. *)
Fixpoint content_seq (fs : list ((val -> option val) * option val)) (l : list val) : option (list val) :=
  match fs, l with
  | [], [] => Some []
  | (f, _) :: fs, c :: l => match f c, content_seq fs l with Some v, Some vs => Some (v :: vs) | _, _ => None end
  | (_, Some d) :: fs, [] => option_map (cons d) (content_seq fs [])
  | _, _ => None
  end.
(** Identifiers: [None] an error, [Some None] unknown. *)
Definition content_ident (names : list bytes) (c : val) : option (option nat) :=
  match c with
  | UStr s | UBytes s => Some (find_name s names 0)
  | UInt z => if (0 <=? z) && (z <? 256) then Some (if z <? zlen names then Some (Z.to_nat z) else None) else None
  | _ => None
  end.
(** A struct given as a map. *)
Fixpoint content_fields (names : list bytes) (fs : list (val -> option val)) (got : list (option val)) (l : list (val * val)) : option (list (option val)) :=
  match l with
  | [] => Some got
  | (k, c) :: l =>
    match content_ident names k with
    | None => None
    | Some None => content_fields names fs got l
    | Some (Some i) =>
      match nth_error fs i, nth_error got i with
      | Some f, Some None =>
        match f c with
        | Some v => content_fields names fs (set_nth got i (Some v)) l
        | None => None
        end
      | _, _ => None
      end
    end
  end.
Definition content_struct (fs : list (bytes * fattr * ty)) (ps : list (val -> option val)) (c : val) : option val :=
  match c with
  | USeq l => option_map USeq (content_seq (zip pair ps (map (fun f => default_of (attr_of f)) fs)) l)
  | UMap l =>
    match content_fields (map name_of fs) ps (map (fun _ => None) fs) l with
    | Some got => option_map USeq (finish got (map absent_val fs))
    | None => None
    end
  | _ => None
  end.
(** [serde::__private::de::ContentRefDeserializer], as each type uses it.  [TBytes] is
    [serde_bytes::ByteBuf]. *)
Fixpoint from_content (t : ty) (c : val) {struct t} : option val :=
  match t with
  | TBool => match c with UBool b => Some (UBool b) | _ => None end
  | TInt k => match c with UInt z => if in_ikindb k z then Some (UInt z) else None | _ => None end
  | TF32 =>
    match c with
    | UF32 b => Some (UF32 b) | UF64 b => Some (UF32 (f64_to_f32 fo b)) | UInt z => Some (UF32 (int_to_f32 fo z))
    | _ => None
    end
  | TF64 =>
    match c with
    | UF64 b => Some (UF64 b) | UF32 b => Some (UF64 (f32_to_f64 fo b)) | UInt z => Some (UF64 (int_to_f64 fo z))
    | _ => None
    end
  | TChar => match c with UStr s => option_map UChar (char_from_str s) | _ => None end
  | TStr =>
    match c with
    | UStr s => Some (UStr s)
    | UBytes s => if from_utf8_ok s then Some (UStr s) else None
    | _ => None
    end
  | TBytes =>
    match c with
    | UStr s => Some (UBytes s)
    | UBytes s => Some (UBytes s)
    | USeq l => option_map UBytes (content_list (fun c => match c with UInt z => if in_ikindb U8 z then Some z else None | _ => None end) l)
    | _ => None
    end
  | TUnit | TUnitStruct => match c with UUnit => Some UUnit | _ => None end
  | TOption t => match c with UUnit | UNone => Some UNone | c => option_map USome (from_content t c) end
  | TNewtype t => from_content t c
  | TSeq t => match c with USeq l => option_map USeq (content_list (from_content t) l) | _ => None end
  | TTuple ts | TTupleStruct ts => match c with USeq l => option_map USeq (content_tuple (map from_content ts) l) | _ => None end
  | TMap k v =>
    match c with
    | UMap l => option_map UMap ((fix go (l : list (val * val)) :=
        match l with
        | [] => Some []
        | (x, y) :: l =>
          match from_content k x, from_content v y, go l with Some x, Some y, Some l => Some ((x, y) :: l) | _, _, _ => None end
        end) l)
    | _ => None
    end
  | TStruct fs => content_struct fs (map (fun f => from_content (snd f)) fs) c
  | TEnum vs =>
    match c with
    | UStr s =>
      match find_name s (map name_of vs) 0 with
      | Some i => match nth_error (map attr_of vs) i with Some KUnit => Some (UVar i UUnit) | _ => None end
      | None => None
      end
    | UMap [(k, c)] =>
      match content_ident (map name_of vs) k with
      | Some (Some i) =>
        match nth_error (map (fun f => from_content (snd f)) vs) i with
        | Some f => option_map (UVar i) (f c)
        | None => None
        end
      | _ => None
      end
    | _ => None
    end
  end.

(** ** Untagged enums *)
(** The variants of an untagged enum: the derived code does not read a struct variant
    from a sequence. *)
Definition untagged_variant (f : vkind * ty) (c : val) : option val :=
  match fst f, c with
  | KUnit, (UUnit | UNone) => Some UUnit
  | KUnit, _ => None
  | KStruct, UMap _ => from_content (snd f) c
  | KStruct, _ => None
  | _, _ => from_content (snd f) c
  end.
(** The first variant that takes the content. *)
Fixpoint untagged_pick (vs : list (vkind * ty)) (i : nat) (c : val) : option val :=
  match vs with
  | [] => None
  | f :: vs => match untagged_variant f c with Some v => Some (UVar i v) | None => untagged_pick vs (S i) c end
  end.
(** A type that reads its input into a buffer first. *)
Definition buffered {E} (custom : E) (f : val -> option val) : deser val E :=
  then_ (any custom) (fun r =>
    match r with
    | Ok c => match f c with Some v => Ok v | None => Err custom end
    | Err e => Err e
    end).
(** The derived [Deserialize]. *)
Definition untagged {E} (custom : E) (vs : list (vkind * ty)) : deser val E := buffered custom (untagged_pick vs 0).

(** ** Internally tagged enums *)
(** [#[serde(tag = "...")]]: the variants are unit variants ([None]) or have fields (struct
    variants, and newtype variants of structs, which are written the same way).

    [serde::__private::de::TaggedContentVisitor] and [ContentDeserializer].  Simplified:
    the value of the tag is read as any other value (serde reads it as an identifier,
    which only differs for numbers); the owned buffer takes an empty map for [()], which
    no serializer here writes. *)
Definition is_tag (tag : bytes) (e : val * val) : bool :=
  match fst e with UStr s | UBytes s => list_eqb Z.eqb s tag | _ => false end.
Definition by_tag (vs : list (bytes * option (list (bytes * fattr * ty)))) (x c : val) : option val :=
  match content_ident (map fst vs) x with
  | Some (Some i) =>
    match nth_error vs i with
    | Some (_, None) => match c with USeq [] | UMap _ => Some (UVar i UUnit) | _ => None end
    | Some (_, Some fs) => option_map (UVar i) (from_content (TStruct fs) c)
    | None => None
    end
  | _ => None
  end.
Definition tagged_pick (tag : bytes) (vs : list (bytes * option (list (bytes * fattr * ty)))) (c : val) : option val :=
  match c with
  | USeq (x :: l) => by_tag vs x (USeq l)
  | UMap l => match partition (is_tag tag) l with ([e], rest) => by_tag vs (snd e) (UMap rest) | _ => None end
  | _ => None
  end.
Definition tagged {E} (custom : E) (tag : bytes) (vs : list (bytes * option (list (bytes * fattr * ty)))) : deser val E :=
  buffered custom (tagged_pick tag vs).
End Content.

(** The derived [Serialize] writes the content of the variant. *)
Definition untagged_trace (vs : list (vkind * ty)) (v : val) : sval :=
  match v with
  | UVar i v => match nth_error vs i with Some f => trace (snd f) v | None => SCustom end
  | _ => SCustom
  end.
(** The tag is written as the first field. *)
Definition tagged_trace (tag : bytes) (vs : list (bytes * option (list (bytes * fattr * ty)))) (v : val) : sval :=
  match v with
  | UVar i v =>
    match nth_error vs i with
    | Some (n, None) => SStruct 1 [(tag, Some (SStr n))]
    | Some (n, Some fs) =>
      match trace (TStruct fs) v with
      | SStruct len l => SStruct (1 + len) ((tag, Some (SStr n)) :: l)
      | _ => SCustom
      end
    | None => SCustom
    end
  | _ => SCustom
  end.

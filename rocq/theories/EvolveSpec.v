(** Specification: what a value written by one program means to another one whose types
    are not the same (C68).

    The writer is any [Serialize] implementation, given as the tree of its calls; the
    reader is a type.  [fits t v x]: read as the type [t], what the calls [x] wrote is [v].
    Independent of the model of serializers and deserializers. *)
From Verif Require Import Prelude Utf8Spec SerdeSer SerdeDe MpSpec JsonSpec FloatOps Types MpTypeSpec JsonTypeSpec.

(** [Some] and newtype structs leave no trace. *)
Fixpoint bare (x : sval) : sval :=
  match x with
  | SSome x => bare x
  | SNewtypeStruct x => bare x
  | x => x
  end.

(** The elements of what is written as an array. *)
Definition items_of (x : sval) : option (list sval) :=
  match x with
  | SSeq _ l | STuple _ l | STupleStruct _ l => Some l
  | _ => None
  end.
(** The fields that are written. *)
Definition written (fs : list (bytes * option sval)) : list (bytes * sval) :=
  flat_map (fun f => match snd f with Some x => [(fst f, x)] | None => [] end) fs.
(** A variant with content: its number, name and content. *)
Definition variant_of (x : sval) : option (Z * bytes * sval) :=
  match x with
  | SNewtypeVariant i n x => Some (i, n, x)
  | STupleVariant i n len l => Some (i, n, STuple len l)
  | SStructVariant i n len fs => Some (i, n, SStruct len fs)
  | _ => None
  end.

(** The [i]-th field is [x], if written. *)
Definition field_at (fs : list (bytes * option sval)) (i : nat) (_ : bytes) : option sval :=
  match nth_error fs i with Some (_, x) => x | None => None end.
(** The field called [n] is [x], if written. *)
Definition field_named (l : list (bytes * sval)) (_ : nat) (n : bytes) : option sval :=
  match find (fun f => list_eqb Z.eqb (fst f) n) l with Some (_, x) => Some x | None => None end.

(** The fields of a struct from the [k]-th on: those found have the value that fits,
    the others what stands in for them. *)
Fixpoint fits_fields (look : nat -> bytes -> option sval) (absent : bytes * fattr * ty -> val -> Prop)
    (k : nat) (fs : list (bytes * fattr * ty)) (ps : list (val -> sval -> Prop)) (l : list val) : Prop :=
  match fs, ps, l with
  | [], [], [] => True
  | f :: fs, p :: ps, v :: l =>
    match look k (name_of f) with Some x => p v x | None => absent f v end /\ fits_fields look absent (S k) fs ps l
  | _, _, _ => False
  end.
Definition has_default (f : bytes * fattr * ty) (v : val) : Prop := attr_of f = FDefault v.

Section Fits.
(** How structs and variants are written, what reads as null, as floats and as text, and
    the keys of maps, if not as any other value. *)
Context (st : style) (null : sval -> bool) (f32_as f64_as : sval -> Z -> Prop) (text : sval -> option bytes)
  (keys : option (ty -> val -> sval -> Prop)).

(** The entries of what is written as a map with names as keys. *)
Definition members_of (x : sval) : option (list (bytes * sval)) :=
  match x with
  | SStruct _ fs => match st with SNameMap => Some (written fs) | _ => None end
  | SMap _ l =>
    match pair_up l with
    | Some l => omap (fun e => option_map (fun n => (n, snd e)) (text (bare (fst e)))) l
    | None => None
    end
  | _ => None
  end.
(** The entries of what is written as a map. *)
Fixpoint indexed (i : Z) (fs : list (bytes * option sval)) : list (sval * sval) :=
  match fs with
  | [] => []
  | (_, Some x) :: fs => (SInt U32 i, x) :: indexed (i + 1) fs
  | (_, None) :: fs => indexed (i + 1) fs
  end.
Definition entries_of (x : sval) : option (list (sval * sval)) :=
  match x with
  | SMap _ l => pair_up l
  | SStruct _ fs =>
    match st with
    | SNameMap => Some (map (fun f => (SStr (fst f), snd f)) (written fs))
    | SIndexMap => Some (indexed 0 fs)
    | SArray => None
    end
  | _ => None
  end.
(** The [i]-th variant of [vs] is the one written as number [j] or name [n]. *)
Definition same_variant (names : list bytes) (i : nat) (j : Z) (n : bytes) : Prop :=
  match st with
  | SNameMap => nth_error names i = Some n
  | _ => j = Z.of_nat i /\ (i < length names)%nat
  end.

Fixpoint fits (t : ty) (v : val) (x : sval) {struct t} : Prop :=
  match t, v with
  | TBool, UBool b => bare x = SBool b
  | TInt k, UInt z => in_ikind k z /\ exists k', bare x = SInt k' z
  | TF32, UF32 b => f32_as (bare x) b
  | TF64, UF64 b => f64_as (bare x) b
  | TChar, UChar c => is_scalar c /\ text (bare x) = Some (utf8_char c)
  | TStr, UStr s => text (bare x) = Some s
  | TBytes, UBytes s => bare x = SBytes s
  | TUnit, UUnit => null (bare x) = true
  | TUnitStruct, UUnit => null (bare x) = true
  | TOption _, UNone => null (bare x) = true
  | TOption t, USome v => null (bare x) = false /\ fits t v x
  | TNewtype t, v => fits t v x
  | TSeq t, USeq l => exists xs, items_of (bare x) = Some xs /\ Forall2 (fits t) l xs
  | TTuple ts, USeq l => exists xs, items_of (bare x) = Some xs /\ all3 (fun p v x => p v x) (map fits ts) l xs
  | TTupleStruct ts, USeq l => exists xs, items_of (bare x) = Some xs /\ all3 (fun p v x => p v x) (map fits ts) l xs
  | TMap k v, UMap l => exists es, entries_of (bare x) = Some es /\
      Forall2 (fun e f => match keys with Some p => p k (fst e) (fst f) | None => fits k (fst e) (fst f) end /\ fits v (snd e) (snd f)) l es
  | TStruct fs, USeq l =>
    let ps := map (fun f => fits (snd f)) fs in
    match bare x with
    | SStruct _ its =>
      match st with
      (* by position, none left over *)
      | SArray => (length (written its) <= length fs)%nat /\ fits_fields (field_at its) has_default 0 fs ps l
      | SIndexMap => fits_fields (field_at its) absent_ok 0 fs ps l
      | SNameMap => NoDup (map fst (written its)) /\ fits_fields (field_named (written its)) absent_ok 0 fs ps l
      end
    | SMap _ _ => exists ms, members_of (bare x) = Some ms /\ NoDup (map fst ms) /\ fits_fields (field_named ms) absent_ok 0 fs ps l
    | x => exists xs, items_of x = Some xs /\ (length xs <= length fs)%nat /\
        fits_fields (fun i _ => nth_error xs i) has_default 0 fs ps l
    end
  | TEnum vs, UVar i v =>
    match nth_error (map (fun f => (attr_of f, fits (snd f))) vs) i with
    | Some (KUnit, _) => v = UUnit /\
        match bare x with
        | SUnitVariant j n => same_variant (map name_of vs) i j n
        | x => exists n, text x = Some n /\ nth_error (map name_of vs) i = Some n
        end
    | Some (_, p) => exists j n c, variant_of (bare x) = Some (j, n, c) /\ same_variant (map name_of vs) i j n /\ p v c
    | None => False
    end
  | _, _ => False
  end.
End Fits.

(** ** MessagePack *)
Definition mp_null (x : sval) : bool := match x with SNone | SUnit | SUnitStruct => true | _ => false end.
Definition mp_text (st : style) (x : sval) : option bytes :=
  match x with
  | SStr s => Some s
  | SChar c => Some (utf8_char c)
  | SUnitVariant _ n => match st with SNameMap => Some n | _ => None end
  | SCollect p _ => fmt_text p
  | _ => None
  end.
Definition mp_f32_as (fo : float_ops) (x : sval) (b : Z) : Prop :=
  match x with
  | SF32 y => b = y
  | SF64 y => b = f64_to_f32 fo y
  | SInt _ z => b = int_to_f32 fo z
  | x => mp_null x = true /\ b = 0x7fc00000
  end.
Definition mp_f64_as (fo : float_ops) (x : sval) (b : Z) : Prop :=
  match x with
  | SF64 y => b = y
  | SF32 y => b = f32_to_f64 fo y
  | SInt _ z => b = int_to_f64 fo z
  | x => mp_null x = true /\ b = 0x7ff8000000000000
  end.
Definition mp_fits (fo : float_ops) (st : style) : ty -> val -> sval -> Prop :=
  fits st mp_null (mp_f32_as fo) (mp_f64_as fo) (mp_text st) None.

(** ** JSON *)
Definition js_null (x : sval) : bool :=
  match x with
  | SNone | SUnit | SUnitStruct => true
  | SF32 b => b / 2 ^ 23 mod 256 =? 255
  | SF64 b => b / 2 ^ 52 mod 2048 =? 2047
  | _ => false
  end.
Definition js_text (x : sval) : option bytes :=
  match x with
  | SStr s => Some s
  | SChar c => Some (utf8_char c)
  | SUnitVariant _ n => Some n
  | SCollect p _ => fmt_text p
  | _ => None
  end.
(** The text of a number, [print32] and [print64] for floats. *)
Definition js_number (print32 print64 : Z -> bytes) (x : sval) : option bytes :=
  match x with
  | SF32 b => Some (print32 b)
  | SF64 b => Some (print64 b)
  | SInt _ z => Some (dec_text z)
  | _ => None
  end.
Definition js_float_as (print32 print64 : Z -> bytes) (parse : bytes -> option Z) (nan : Z) (x : sval) (b : Z) : Prop :=
  (js_null x = true /\ b = nan) \/
  (js_null x = false /\ exists tok, js_number print32 print64 x = Some tok /\ parse tok = Some b).
(** Keys: [key_doc] is the text a value becomes as a key. *)
Definition js_key_as (t : ty) (v : val) (x : sval) : Prop :=
  match t, v with
  | TBool, UBool b => key_doc x = Some (if b then [116; 114; 117; 101] else [102; 97; 108; 115; 101])
  | TInt k, UInt z => in_ikind k z /\ key_doc x = Some (dec_text z)
  | TChar, UChar c => is_scalar c /\ key_doc x = Some (utf8_char c)
  | TStr, UStr s => key_doc x = Some s
  | TBytes, UBytes s => key_doc x = Some s
  | TEnum vs, UVar i v => v = UUnit /\ exists n, nth_error (map (fun f => (name_of f, attr_of f)) vs) i = Some (n, KUnit) /\ key_doc x = Some n
  | _, _ => False
  end.
Definition js_fits (print32 print64 : Z -> bytes) (parse32 parse64 : bytes -> option Z) : ty -> val -> sval -> Prop :=
  fits SNameMap js_null (js_float_as print32 print64 parse32 0x7fc00000) (js_float_as print32 print64 parse64 0x7ff8000000000000)
    js_text (Some js_key_as).

(** ** Structs whose fields change *)
(** A field [f] written with the value [v] is read as the field [f'] with the value [v'];
    [img] is what a value of the same type is read as, [absent] what stands in for a field
    that was skipped. *)
Definition carried (img : ty -> val -> val) (absent : bytes * fattr * ty -> val -> Prop)
    (f : bytes * fattr * ty) (v : val) (f' : bytes * fattr * ty) (v' : val) : Prop :=
  snd f' = snd f /\ if skipped (attr_of f) v then absent f' v' else v' = img (snd f) v.
(** By name: fields may be added, dropped and put in another order. *)
Definition fields_by_name (img : ty -> val -> val) (fs : list (bytes * fattr * ty)) (l : list val)
    (fs' : list (bytes * fattr * ty)) (l' : list val) : Prop :=
  length l' = length fs' /\
  forall i f' v', nth_error fs' i = Some f' -> nth_error l' i = Some v' ->
    (exists j f v, nth_error fs j = Some f /\ nth_error l j = Some v /\ name_of f = name_of f' /\ carried img absent_ok f v f' v') \/
    (~ In (name_of f') (map name_of fs) /\ absent_ok f' v').
(** By position: fields may be renamed, and added at the end. *)
Definition fields_by_position (img : ty -> val -> val) (absent : bytes * fattr * ty -> val -> Prop)
    (fs : list (bytes * fattr * ty)) (l : list val) (fs' : list (bytes * fattr * ty)) (l' : list val) : Prop :=
  length l' = length fs' /\
  forall i f' v', nth_error fs' i = Some f' -> nth_error l' i = Some v' ->
    match nth_error fs i, nth_error l i with
    | Some f, Some v => carried img absent f v f' v'
    | _, _ => absent f' v'
    end.

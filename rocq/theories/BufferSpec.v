(** Specification: what a type makes of a value that was read into a buffer before (C75).
    The buffered value is given as a self-describing reader gets it (C27, C52). *)
From Verif Require Import Prelude Utf8Spec SerdeSer FloatOps MpSpec Types MpTypeSpec JsonTypeSpec.

(** A field or variant named as text or as a byte string. *)
Definition called (s : bytes) (k : val) : Prop := k = UStr s \/ k = UBytes s.
(** The entries of a struct in any order: each field at most once, entries with another
    name are left out. *)
Inductive buf_fields (names : list bytes) (ps : list (val -> val -> Prop)) : list (option val) -> list (val * val) -> list (option val) -> Prop :=
| BF_nil got : buf_fields names ps got [] got
| BF_field got i n p v k c es got' : nth_error got i = Some None -> nth_error ps i = Some p -> nth_error names i = Some n ->
    called n k -> p v c -> buf_fields names ps (set_nth got i (Some v)) es got' -> buf_fields names ps got ((k, c) :: es) got'
| BF_other got s k c es got' : called s k -> ~ In s names -> buf_fields names ps got es got' -> buf_fields names ps got ((k, c) :: es) got'.

Section As.
Context (fo : float_ops).
(** [buf_as t v c]: the buffered [c] is read as the value [v] of the type [t]. *)
Fixpoint buf_as (t : ty) (v c : val) {struct t} : Prop :=
  match t, v with
  | TBool, UBool _ => c = v
  | TInt k, UInt z => c = v /\ in_ikind k z
  | TF32, UF32 x => c = v \/ (exists y, c = UF64 y /\ x = f64_to_f32 fo y) \/ (exists z, c = UInt z /\ x = int_to_f32 fo z)
  | TF64, UF64 x => c = v \/ (exists y, c = UF32 y /\ x = f32_to_f64 fo y) \/ (exists z, c = UInt z /\ x = int_to_f64 fo z)
  | TChar, UChar x => is_scalar x /\ c = UStr (utf8_char x)
  | TStr, UStr s => c = UStr s \/ (c = UBytes s /\ valid_utf8 s)
  | TBytes, UBytes s => c = UStr s \/ c = UBytes s \/ (c = USeq (map UInt s) /\ all_bytes s)
  | TUnit, UUnit | TUnitStruct, UUnit => c = UUnit
  | TOption _, UNone => c = UUnit \/ c = UNone
  | TOption t, USome v => c <> UUnit /\ c <> UNone /\ buf_as t v c
  | TNewtype t, v => buf_as t v c
  | TSeq t, USeq l => exists cs, c = USeq cs /\ Forall2 (buf_as t) l cs
  | TTuple ts, USeq l | TTupleStruct ts, USeq l => exists cs, c = USeq cs /\ all3 (fun p v c => p v c) (map buf_as ts) l cs
  | TMap kt vt, UMap l => exists cs, c = UMap cs /\ Forall2 (fun e m => buf_as kt (fst e) (fst m) /\ buf_as vt (snd e) (snd m)) l cs
  | TStruct fs, USeq l =>
    (* in the order of the fields; those beyond the end have their default *)
    (exists cs, c = USeq cs /\ (length cs <= length fs)%nat /\ length l = length fs /\
       all3 (fun p v c => p v c) (firstn (length cs) (map (fun f => buf_as (snd f)) fs)) (firstn (length cs) l) cs /\
       all2 (fun f v => attr_of f = FDefault v) (skipn (length cs) fs) (skipn (length cs) l)) \/
    (exists es got, c = UMap es /\ buf_fields (map name_of fs) (map (fun f => buf_as (snd f)) fs) (map (fun _ => None) fs) es got /\ all_fields fs got l)
  | TEnum vs, UVar i v =>
    (exists f, nth_error vs i = Some f /\ attr_of f = KUnit /\ v = UUnit /\ c = UStr (name_of f)) \/
    (exists p n k x, nth_error (map (fun f => buf_as (snd f)) vs) i = Some p /\ nth_error (map name_of vs) i = Some n /\
       c = UMap [(k, x)] /\ called n k /\ p v x)
  | _, _ => False
  end.

(** A variant of an untagged enum: unit variants are null, struct variants have names. *)
Definition variant_as (f : vkind * ty) (v c : val) : Prop :=
  match fst f with
  | KUnit => v = UUnit /\ (c = UUnit \/ c = UNone)
  | KStruct => (exists es, c = UMap es) /\ buf_as (snd f) v c
  | _ => buf_as (snd f) v c
  end.
(** The first variant that takes it; none. *)
Definition first_variant (vs : list (vkind * ty)) (i : nat) (v c : val) : Prop :=
  exists f, nth_error vs i = Some f /\ variant_as f v c /\
    forall j g u, (j < i)%nat -> nth_error vs j = Some g -> ~ variant_as g u c.
Definition no_variant (vs : list (vkind * ty)) (c : val) : Prop := forall f v, In f vs -> ~ variant_as f v c.

(** An internally tagged enum: the tag once, anywhere among the entries, and the fields of
    the variant it names; or first in a sequence.  A unit variant has no fields; other
    entries are left out. *)
Definition tag_entry (tag : bytes) (e : val * val) : Prop := called tag (fst e).
Definition fields_as (f : option (list (bytes * fattr * ty))) (v c : val) : Prop :=
  match f with
  | Some fs => buf_as (TStruct fs) v c
  | None => v = UUnit /\ (c = USeq [] \/ exists es, c = UMap es)
  end.
Definition tagged_as (tag : bytes) (vs : list (bytes * option (list (bytes * fattr * ty)))) (i : nat) (v c : val) : Prop :=
  exists n f x, nth_error vs i = Some (n, f) /\ called n x /\
    ((exists l, c = USeq (x :: l) /\ fields_as f v (USeq l)) \/
     (exists a b k, c = UMap (a ++ (k, x) :: b) /\ called tag k /\ Forall (fun e => ~ tag_entry tag e) (a ++ b) /\ fields_as f v (UMap (a ++ b)))).
End As.
(** What an internally tagged enum refuses, whatever the fields of its variants: something
    that is no array and no map, a map without the tag or with several, a tag that names no
    variant, and elements after the tag of a unit variant. *)
Definition names_none (vs : list (bytes * option (list (bytes * fattr * ty)))) (x : val) : Prop :=
  (forall z, x <> UInt z) /\ forall n f, In (n, f) vs -> ~ called n x.
Definition tag_refused (tag : bytes) (vs : list (bytes * option (list (bytes * fattr * ty)))) (c : val) : Prop :=
  match c with
  | USeq [] => True
  | USeq (x :: l) => names_none vs x \/ (l <> [] /\ exists n, In (n, None) vs /\ called n x)
  | UMap es =>
    Forall (fun e => ~ tag_entry tag e) es \/
    (exists l1 l2 l3 a b, es = l1 ++ a :: l2 ++ b :: l3 /\ tag_entry tag a /\ tag_entry tag b) \/
    (exists l1 l2 k x, es = l1 ++ (k, x) :: l2 /\ called tag k /\ names_none vs x)
  | _ => True
  end.

(** No map in it has a number as a key, as no JSON object has. *)
Fixpoint no_number_keys (c : val) : Prop :=
  match c with
  | USeq l => all_list no_number_keys l
  | UMap l => all_list (fun e => (forall z, fst e <> UInt z) /\ no_number_keys (fst e) /\ no_number_keys (snd e)) l
  | USome c | UVar _ c => no_number_keys c
  | _ => True
  end.

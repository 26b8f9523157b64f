(** Specification: the JSON documents a reader should accept for a value of a type
    (C39, C40, C44, C46).  Independent of the deserializer and the serializer.

    Documents are taken with their string literals unread: [JStr raw] and the keys of
    a [JObj] hold the text between the quotes, as [JNum] holds the text of a number. *)
From Verif Require Import Prelude Utf8Spec SerdeSer MpSpec Base64Spec JsonSpec Types MpTypeSpec.

Definition quoted (raw text : bytes) : Prop := text = 34 :: raw ++ [34] /\ quoted_span raw.
(** An RFC 8259 text and its document with unread literals. *)
Definition raw_text : jv -> bytes -> Prop := jtext any_ws quoted quoted json_number.

(** The texts the reader accepts, as it is: any run of these characters is a number
    (the target type decides whether it means something), and whitespace, even a line
    feed, may come first in a key (only keys read as a boolean or integer use it). *)
Definition number_run (tok : bytes) : Prop :=
  tok <> [] /\ Forall (fun c => is_digit c \/ c = 43 \/ c = 45 \/ c = 46 \/ c = 101 \/ c = 69) tok.
Definition loose_key (raw text : bytes) : Prop :=
  text = 34 :: raw ++ [34] /\ exists w r, raw = w ++ r /\ any_ws w /\ quoted_span r.
Definition loose_text : jv -> bytes -> Prop := jtext any_ws quoted loose_key number_run.

(** What may follow a value so that it cannot be taken for a part of it. *)
Definition cannot_extend (d : jv) (k : bytes) : Prop :=
  match d, k with
  | JNum _, c :: _ => ~ (is_digit c \/ c = 43 \/ c = 45 \/ c = 46 \/ c = 101 \/ c = 69)
  | _, _ => True
  end.

(** A literal and the string it denotes, without surrogate pairs (see C38). *)
Definition literal (raw s : bytes) : Prop := str_body false raw s /\ valid_utf8 s.

(** An integer literal of a type; only signed types take a minus sign. *)
Definition int_lit (k : ikind) (z : Z) (tok : bytes) : Prop :=
  in_ikind k z /\ exists (neg : bool) ds, tok = (if neg then [45] else []) ++ ds /\ int_part ds /\
    z = (if neg then - dec_val ds else dec_val ds) /\ (neg = true -> imin k < 0).

(** A value that can be skipped: the keys of its objects are readable and its numbers
    start as a number does. *)
Fixpoint skippable (d : jv) : Prop :=
  match d with
  | JNum tok => exists c r, tok = c :: r /\ (is_digit c \/ c = 45)
  | JArr l => all_list skippable l
  | JObj ms => all_list (fun m => (exists s, literal (fst m) s) /\ skippable (snd m)) ms
  | _ => True
  end.

Section All3.
Context {A B C : Type} (P : A -> B -> C -> Prop).
Fixpoint all3 (l : list A) (m : list B) (n : list C) : Prop :=
  match l, m, n with
  | [], [], [] => True
  | a :: l, b :: m, c :: n => P a b c /\ all3 l m n
  | _, _, _ => False
  end.
End All3.

(** The members of a struct given as an object: [got] are the fields seen before,
    [got'] after; each field at most once, unknown keys with any value. *)
Inductive obj_fields (names : list bytes) (ps : list (val -> jv -> Prop)) :
  list (option val) -> list (bytes * jv) -> list (option val) -> Prop :=
| OF_nil got : obj_fields names ps got [] got
| OF_field got i n p v raw d ms got' :
    nth_error got i = Some None -> nth_error ps i = Some p -> nth_error names i = Some n ->
    literal raw n -> p v d ->
    obj_fields names ps (set_nth got i (Some v)) ms got' ->
    obj_fields names ps got ((raw, d) :: ms) got'
| OF_unknown got raw s d ms got' :
    literal raw s -> ~ In s names -> skippable d ->
    obj_fields names ps got ms got' ->
    obj_fields names ps got ((raw, d) :: ms) got'.

Definition struct_as (fs : list (bytes * fattr * ty)) (ps : list (val -> jv -> Prop)) (l : list val) (d : jv) : Prop :=
  (* an array; fields beyond its end have their default *)
  (exists ds, d = JArr ds /\ (length ds <= length fs)%nat /\ length l = length fs /\
     all3 (fun p v d => p v d) (firstn (length ds) ps) (firstn (length ds) l) ds /\
     all2 (fun f v => attr_of f = FDefault v) (skipn (length ds) fs) (skipn (length ds) l)) \/
  (* an object *)
  (exists ms got, d = JObj ms /\ obj_fields (map name_of fs) ps (map (fun _ => None) fs) ms got /\ all_fields fs got l).

Section ReadsAs.
(** The whitespace before a boolean or an integer in a key, what number tokens mean as
    floats, and what literals mean as byte strings. *)
Context (key_ws : bytes -> Prop) (f32_of f64_of : bytes -> option Z) (bytes_of : bytes -> bytes -> Prop).

(** Object keys: strings, and what can be spelled inside a string. *)
Definition key_as (t : ty) (v : val) (raw : bytes) : Prop :=
  match t, v with
  | TBool, UBool b => exists w, key_ws w /\ raw = w ++ (if b then [116; 114; 117; 101] else [102; 97; 108; 115; 101])
  | TInt k, UInt z => exists w tok, key_ws w /\ raw = w ++ tok /\ int_lit k z tok
  | TChar, UChar c => literal raw (utf8_char c) /\ is_scalar c
  | TStr, UStr s => literal raw s
  | TBytes, UBytes s => literal raw s
  | TEnum vs, UVar i v => v = UUnit /\ exists n, nth_error (map (fun f => (name_of f, attr_of f)) vs) i = Some (n, KUnit) /\ literal raw n
  | _, _ => False
  end.

(** [reads_as t v d]: the document [d] is a representation of the value [v] of type [t]. *)
Fixpoint reads_as (t : ty) (v : val) (d : jv) {struct t} : Prop :=
  match t, v with
  | TBool, UBool b => d = JBool b
  | TInt k, UInt z => exists tok, d = JNum tok /\ int_lit k z tok
  | TF32, UF32 b => (exists tok, d = JNum tok /\ f32_of tok = Some b) \/ (d = JNull /\ b = 0x7fc00000)
  | TF64, UF64 b => (exists tok, d = JNum tok /\ f64_of tok = Some b) \/ (d = JNull /\ b = 0x7ff8000000000000)
  | TChar, UChar c => exists raw, d = JStr raw /\ literal raw (utf8_char c) /\ is_scalar c
  | TStr, UStr s => exists raw, d = JStr raw /\ literal raw s
  | TBytes, UBytes s =>
    (exists raw, d = JStr raw /\ bytes_of raw s) \/
    (exists toks, d = JArr (map JNum toks) /\ Forall2 (int_lit U8) s toks)
  | TUnit, UUnit => d = JNull
  | TUnitStruct, UUnit => d = JNull
  | TOption _, UNone => d = JNull
  | TOption t, USome v => reads_as t v d /\ d <> JNull
  | TNewtype t, v => reads_as t v d
  | TSeq t, USeq l => exists ds, d = JArr ds /\ Forall2 (reads_as t) l ds
  | TTuple ts, USeq l => exists ds, d = JArr ds /\ all3 (fun p v d => p v d) (map reads_as ts) l ds
  | TTupleStruct ts, USeq l => exists ds, d = JArr ds /\ all3 (fun p v d => p v d) (map reads_as ts) l ds
  | TMap k v, UMap l => exists ms, d = JObj ms /\
      Forall2 (fun e m => key_as k (fst e) (fst m) /\ reads_as v (snd e) (snd m)) l ms
  | TStruct fs, USeq l => struct_as fs (map (fun f => reads_as (snd f)) fs) l d
  | TEnum vs, UVar i v =>
    (* a unit variant is its name; another one an object with one member *)
    match nth_error (map (fun f => (name_of f, attr_of f, reads_as (snd f))) vs) i with
    | Some (n, KUnit, _) => v = UUnit /\ exists raw, d = JStr raw /\ literal raw n
    | Some (n, _, p) => exists raw d', d = JObj [(raw, d')] /\ literal raw n /\ p v d'
    | None => False
    end
  | _, _ => False
  end.
End ReadsAs.

(** The three ways to read a literal as a byte string. *)
Definition bytes_as_string (raw s : bytes) : Prop := str_body false raw s.
Definition bytes_as_base64 (raw s : bytes) : Prop :=
  exists ds n, raw = map b64_char ds ++ repeat 61 n /\ Forall (fun v => 0 <= v < 64) ds /\ s = b64_bytes ds.

(** ** What is left of a value after a JSON round trip (C39, C49) *)
(** JSON has no number for NaN and the infinities; they are written as null, which
    reads as NaN.  ECMAScript prints both zeros as 0. *)
Definition f32_image (b : Z) : Z :=
  if b / 2 ^ 23 mod 256 =? 255 then 0x7fc00000 else if b =? 0x80000000 then 0 else b.
Definition f64_image (b : Z) : Z :=
  if b / 2 ^ 52 mod 2048 =? 2047 then 0x7ff8000000000000 else if b =? 0x8000000000000000 then 0 else b.
(** Values written as null. *)
Fixpoint json_null (t : ty) (v : val) : bool :=
  match t, v with
  | TF32, UF32 b => b / 2 ^ 23 mod 256 =? 255
  | TF64, UF64 b => b / 2 ^ 52 mod 2048 =? 2047
  | TUnit, _ => true
  | TUnitStruct, _ => true
  | TOption _, UNone => true
  | TOption t, USome v => json_null t v
  | TNewtype t, v => json_null t v
  | _, _ => false
  end.
Fixpoint json_image (t : ty) (v : val) {struct t} : val :=
  match t, v with
  | TF32, UF32 b => UF32 (f32_image b)
  | TF64, UF64 b => UF64 (f64_image b)
  | TOption t, USome v => if json_null t v then UNone else USome (json_image t v)
  | TNewtype t, v => json_image t v
  | TSeq t, USeq l => USeq (map (json_image t) l)
  | TTuple ts, USeq l => USeq (zip (fun f v => f v) (map json_image ts) l)
  | TTupleStruct ts, USeq l => USeq (zip (fun f v => f v) (map json_image ts) l)
  | TMap k v, UMap l => UMap (map (fun e => (fst e, json_image v (snd e))) l)
  | TStruct fs, USeq l => USeq (zip (fun f v => f v)
      (map (fun f v => if skipped (attr_of f) v then v else json_image (snd f) v) fs) l)
  | TEnum vs, UVar i v =>
    match nth_error (map (fun f => json_image (snd f)) vs) i with
    | Some f => UVar i (f v)
    | None => UVar i v
    end
  | _, v => v
  end.

(** Values that survive: floats have a number other than -0, or are the one NaN that
    null stands for; nothing written as null is wrapped in [Some]. *)
Fixpoint survives (t : ty) (v : val) {struct t} : Prop :=
  match t, v with
  | TF32, UF32 b => (finite32 b /\ b <> 0x80000000) \/ b = 0x7fc00000
  | TF64, UF64 b => (finite64 b /\ b <> 0x8000000000000000) \/ b = 0x7ff8000000000000
  | TOption t, USome v => json_null t v = false /\ survives t v
  | TNewtype t, v => survives t v
  | TSeq t, USeq l => Forall (survives t) l
  | TTuple ts, USeq l => all2 (fun p v => p v) (map survives ts) l
  | TTupleStruct ts, USeq l => all2 (fun p v => p v) (map survives ts) l
  | TMap k v, UMap l => Forall (fun e => survives v (snd e)) l
  | TStruct fs, USeq l => all2 (fun p v => p v)
      (map (fun f v => skipped (attr_of f) v = true \/ survives (snd f) v) fs) l
  | TEnum vs, UVar i v =>
    match nth_error (map (fun f => survives (snd f)) vs) i with Some p => p v | None => True end
  | _, _ => True
  end.

(** No newtype struct is a map key (see C47). *)
Fixpoint no_newtype_keys (t : ty) : Prop :=
  match t with
  | TOption t => no_newtype_keys t
  | TNewtype t => no_newtype_keys t
  | TSeq t => no_newtype_keys t
  | TTuple l => all_list no_newtype_keys l
  | TTupleStruct l => all_list no_newtype_keys l
  | TMap k v => (forall t, k <> TNewtype t) /\ no_newtype_keys v
  | TStruct fs => all_list (fun f => no_newtype_keys (snd f)) fs
  | TEnum vs => all_list (fun f => no_newtype_keys (snd f)) vs
  | _ => True
  end.
(** Types of map keys that can always be written. *)
Definition key_type (k : ty) : Prop :=
  match k with
  | TBool | TInt _ | TChar | TStr => True
  | TEnum vs => all_list (fun f => attr_of f = KUnit) vs
  | _ => False
  end.
Fixpoint good_keys (t : ty) : Prop :=
  match t with
  | TOption t => good_keys t
  | TNewtype t => good_keys t
  | TSeq t => good_keys t
  | TTuple l => all_list good_keys l
  | TTupleStruct l => all_list good_keys l
  | TMap k v => key_type k /\ good_keys v
  | TStruct fs => all_list (fun f => good_keys (snd f)) fs
  | TEnum vs => all_list (fun f => good_keys (snd f)) vs
  | _ => True
  end.

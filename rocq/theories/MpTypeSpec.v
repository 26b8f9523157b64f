(** Specification: the byte strings a MessagePack reader should accept for a value
    of a type (C21, C22, C25).  Independent of the deserializer and serializers. *)
From Verif Require Import Prelude Utf8Spec SerdeSer SerdeDe MpSpec FloatOps Types.

(** [bs] is the concatenation of encodings accepted by each of [ps]. *)
Fixpoint seq_enc (ps : list (bytes -> Prop)) (bs : bytes) : Prop :=
  match ps with
  | [] => bs = []
  | p :: ps => exists a b, bs = a ++ b /\ p a /\ seq_enc ps b
  end.

Definition str_enc (s : bytes) (bs : bytes) : Prop := exists h, str_hdr (zlen s) h /\ bs = h ++ s.

(** Identifiers by number: unsigned formats up to 32 bits. *)
Inductive ident_int : Z -> bytes -> Prop :=
| II_pos z : 0 <= z < 128 -> ident_int z [z]
| II_u8 z h : uint_be 1 z h -> ident_int z (0xcc :: h)
| II_u16 z h : uint_be 2 z h -> ident_int z (0xcd :: h)
| II_u32 z h : uint_be 4 z h -> ident_int z (0xce :: h).
(** The [i]-th field or variant, by number or by name. *)
Definition ident_enc (names : list bytes) (i : nat) (bs : bytes) : Prop :=
  (exists s, nth_error names i = Some s /\ str_enc s bs) \/
  ((i < length names)%nat /\ ident_int (Z.of_nat i) bs).
(** A key that is none of the fields. *)
Definition unknown_enc (names : list bytes) (bs : bytes) : Prop :=
  (exists s, valid_utf8 s /\ ~ In s names /\ str_enc s bs) \/
  (exists z, zlen names <= z /\ ident_int z bs).

(** The entries of a struct given as a map: [got] are the fields seen before,
    [got'] after; each field at most once, unknown keys with any value. *)
Inductive entries (names : list bytes) (ps : list (val -> bytes -> Prop)) :
  list (option val) -> Z -> bytes -> list (option val) -> Prop :=
| EN_nil got : entries names ps got 0 [] got
| EN_field got n i p v k b rest got' :
    nth_error got i = Some None -> nth_error ps i = Some p ->
    ident_enc names i k -> p v b ->
    entries names ps (set_nth got i (Some v)) n rest got' ->
    entries names ps got (1 + n) (k ++ b ++ rest) got'
| EN_unknown got n m k b rest got' :
    unknown_enc names k -> mp_fmt m b ->
    entries names ps got n rest got' ->
    entries names ps got (1 + n) (k ++ b ++ rest) got'.

(** What an absent field reads as. *)
Definition absent_ok (f : bytes * fattr * ty) (v : val) : Prop :=
  match attr_of f with
  | FDefault d => v = d
  | FPlain => v = UNone /\ exists t, snd f = TOption t
  end.
Fixpoint all_fields (fs : list (bytes * fattr * ty)) (got : list (option val)) (l : list val) : Prop :=
  match fs, got, l with
  | [], [], [] => True
  | f :: fs, g :: got, v :: l => (match g with Some w => v = w | None => absent_ok f v end) /\ all_fields fs got l
  | _, _, _ => False
  end.

Definition struct_enc (fs : list (bytes * fattr * ty)) (ps : list (val -> bytes -> Prop)) (l : list val) (bs : bytes) : Prop :=
  (* an array; fields beyond its end have their default *)
  (exists n h b, bs = h ++ b /\ (n <= length fs)%nat /\ arr_hdr (Z.of_nat n) h /\ length l = length fs /\
     seq_enc (zip (fun p v => p v) (firstn n ps) (firstn n l)) b /\
     all2 (fun f v => attr_of f = FDefault v) (skipn n fs) (skipn n l)) \/
  (* a map *)
  (exists n h b got, bs = h ++ b /\ map_hdr n h /\
     entries (map name_of fs) ps (map (fun _ => None) fs) n b got /\ all_fields fs got l).

Section Adm.
Context (fo : float_ops).

(** [adm t v bs]: [bs] is an encoding of the value [v] of type [t]. *)
Fixpoint adm (t : ty) (v : val) (bs : bytes) {struct t} : Prop :=
  match t, v with
  | TBool, UBool b => bs = [if b then 0xc3 else 0xc2]
  | TInt k, UInt z => in_ikind k z /\ int_fmt z bs
  | TF32, UF32 x =>
    (exists h, bs = 0xca :: h /\ uint_be 4 x h) \/
    (exists h y, bs = 0xcb :: h /\ uint_be 8 y h /\ x = f64_to_f32 fo y) \/
    (exists z, int_fmt z bs /\ x = int_to_f32 fo z) \/
    (bs = [0xc0] /\ x = 0x7fc00000)
  | TF64, UF64 x =>
    (exists h, bs = 0xcb :: h /\ uint_be 8 x h) \/
    (exists h y, bs = 0xca :: h /\ uint_be 4 y h /\ x = f32_to_f64 fo y) \/
    (exists z, int_fmt z bs /\ x = int_to_f64 fo z) \/
    (bs = [0xc0] /\ x = 0x7ff8000000000000)
  | TChar, UChar c => is_scalar c /\ str_enc (utf8_char c) bs
  | TStr, UStr s => valid_utf8 s /\ str_enc s bs
  | TBytes, UBytes s => all_bytes s /\ exists h, bin_hdr (zlen s) h /\ bs = h ++ s
  | TUnit, UUnit => bs = [0xc0]
  | TUnitStruct, UUnit => bs = [0xc0]
  | TOption _, UNone => bs = [0xc0]
  | TOption t, USome v => adm t v bs /\ bs <> [0xc0]
  | TNewtype t, v => adm t v bs
  | TSeq t, USeq l => exists h b, bs = h ++ b /\ arr_hdr (zlen l) h /\ seq_enc (map (adm t) l) b
  | TTuple ts, USeq l => exists h b, bs = h ++ b /\ arr_hdr (zlen ts) h /\ length l = length ts /\
      seq_enc (zip (fun p v => p v) (map adm ts) l) b
  | TTupleStruct ts, USeq l => exists h b, bs = h ++ b /\ arr_hdr (zlen ts) h /\ length l = length ts /\
      seq_enc (zip (fun p v => p v) (map adm ts) l) b
  | TMap k v, UMap l => exists h b, bs = h ++ b /\ map_hdr (zlen l) h /\
      seq_enc (map (fun e b => exists x y, b = x ++ y /\ adm k (fst e) x /\ adm v (snd e) y) l) b
  | TStruct fs, USeq l => struct_enc fs (map (fun f => adm (snd f)) fs) l bs
  | TEnum vs, UVar i v =>
    (* a unit variant is its identifier; another one a map of one entry *)
    match nth_error (map (fun f => (attr_of f, adm (snd f))) vs) i with
    | Some (KUnit, _) => v = UUnit /\ ident_enc (map name_of vs) i bs
    | Some (_, p) => exists k b, bs = 0x81 :: k ++ b /\ ident_enc (map name_of vs) i k /\ p v b
    | None => False
    end
  | _, _ => False
  end.
End Adm.

(** ** Option nesting (C49): values whose encoding is nil *)
Fixpoint nullish (t : ty) (v : val) : bool :=
  match t, v with
  | TUnit, _ => true
  | TUnitStruct, _ => true
  | TOption _, UNone => true
  | TOption t, USome v => nullish t v
  | TNewtype t, v => nullish t v
  | _, _ => false
  end.

(** What is left of a value after a round trip: [Some(x)] of a nil [x] is [None]. *)
Fixpoint collapse (nullish : ty -> val -> bool) (t : ty) (v : val) {struct t} : val :=
  match t, v with
  | TOption t, USome v => if nullish t v then UNone else USome (collapse nullish t v)
  | TNewtype t, v => collapse nullish t v
  | TSeq t, USeq l => USeq (map (collapse nullish t) l)
  | TTuple ts, USeq l => USeq (zip (fun f v => f v) (map (collapse nullish) ts) l)
  | TTupleStruct ts, USeq l => USeq (zip (fun f v => f v) (map (collapse nullish) ts) l)
  | TMap k v, UMap l => UMap (map (fun e => (collapse nullish k (fst e), collapse nullish v (snd e))) l)
  | TStruct fs, USeq l => USeq (zip (fun f v => f v)
      (map (fun f v => if skipped (attr_of f) v then v else collapse nullish (snd f) v) fs) l)
  | TEnum vs, UVar i v =>
    match nth_error (map (fun f => collapse nullish (snd f)) vs) i with
    | Some f => UVar i (f v)
    | None => UVar i v
    end
  | _, v => v
  end.

(** Types whose values may be encoded as nil, and types without an Option of such. *)
Fixpoint nullable (t : ty) : Prop :=
  match t with
  | TUnit => True
  | TUnitStruct => True
  | TOption _ => True
  | TNewtype t => nullable t
  | _ => False
  end.
Fixpoint strict (t : ty) : Prop :=
  match t with
  | TOption t => strict t /\ ~ nullable t
  | TNewtype t => strict t
  | TSeq t => strict t
  | TTuple l => all_list strict l
  | TTupleStruct l => all_list strict l
  | TMap k v => strict k /\ strict v
  | TStruct fs => all_list (fun f => strict (snd f)) fs
  | TEnum vs => all_list (fun f => strict (snd f)) vs
  | _ => True
  end.

(** Types none of whose structs skips fields. *)
Fixpoint plain (t : ty) : Prop :=
  match t with
  | TOption t => plain t
  | TNewtype t => plain t
  | TSeq t => plain t
  | TTuple l => all_list plain l
  | TTupleStruct l => all_list plain l
  | TMap k v => plain k /\ plain v
  | TStruct fs => all_list (fun f => attr_of f = FPlain /\ plain (snd f)) fs
  | TEnum vs => all_list (fun f => plain (snd f)) vs
  | _ => True
  end.

(** ** What a self-describing reader should make of a message (C27) *)
(** Values with no counterpart in serde's data model. *)
Inductive fault := ExtValue | BadUtf8.
(** Read from left to right; the first fault ends the reading. *)
Inductive denotes : mpv -> val + fault -> Prop :=
| DN_nil : denotes VNil (inl UUnit)
| DN_bool b : denotes (VBool b) (inl (UBool b))
| DN_int z : denotes (VInt z) (inl (UInt z))
| DN_f32 x : denotes (VF32 x) (inl (UF32 x))
| DN_f64 x : denotes (VF64 x) (inl (UF64 x))
| DN_str s : valid_utf8 s -> denotes (VStr s) (inl (UStr s))
| DN_str_bad s : ~ valid_utf8 s -> denotes (VStr s) (inr BadUtf8)
| DN_bin b : denotes (VBin b) (inl (UBytes b))
| DN_arr l vs : denotes_list l (inl vs) -> denotes (VArr l) (inl (USeq vs))
| DN_arr_bad l e : denotes_list l (inr e) -> denotes (VArr l) (inr e)
| DN_map l vs : denotes_pairs l (inl vs) -> denotes (VMap l) (inl (UMap vs))
| DN_map_bad l e : denotes_pairs l (inr e) -> denotes (VMap l) (inr e)
| DN_ext t d : denotes (VExt t d) (inr ExtValue)
with denotes_list : list mpv -> list val + fault -> Prop :=
| DL_nil : denotes_list [] (inl [])
| DL_cons m l v vs : denotes m (inl v) -> denotes_list l (inl vs) -> denotes_list (m :: l) (inl (v :: vs))
| DL_here m l e : denotes m (inr e) -> denotes_list (m :: l) (inr e)
| DL_later m l v e : denotes m (inl v) -> denotes_list l (inr e) -> denotes_list (m :: l) (inr e)
with denotes_pairs : list (mpv * mpv) -> list (val * val) + fault -> Prop :=
| DP_nil : denotes_pairs [] (inl [])
| DP_cons k m l u v vs : denotes k (inl u) -> denotes m (inl v) -> denotes_pairs l (inl vs) ->
    denotes_pairs ((k, m) :: l) (inl ((u, v) :: vs))
| DP_key k m l e : denotes k (inr e) -> denotes_pairs ((k, m) :: l) (inr e)
| DP_val k m l u e : denotes k (inl u) -> denotes m (inr e) -> denotes_pairs ((k, m) :: l) (inr e)
| DP_later k m l u v e : denotes k (inl u) -> denotes m (inl v) -> denotes_pairs l (inr e) ->
    denotes_pairs ((k, m) :: l) (inr e).

(** A universe of Rust types with their serde impls: the standard library impls of
    serde and the code serde_derive generates.  None of this is in /repo; it is
    what users of the crates serialize and deserialize with.

    [trace t v] is the tree of Serializer calls made by [Serialize for t];
    [denote t] is the program run by [Deserialize for t]. *)
From Verif Require Import Prelude Utf8Spec SerdeSer SerdeDe.

(** Values.  A struct, tuple or sequence is the list of its parts; a map is the
    list of its entries in iteration order (a Vec of pairs, not a HashMap).
    [UIdent] is the result of deserializing a field or variant identifier
    ([None]: an unknown field). *)
Inductive val :=
| UBool (b : bool)
| UInt (z : Z)
| UF32 (bits : Z)
| UF64 (bits : Z)
| UChar (c : Z)
| UStr (s : bytes)
| UBytes (b : bytes)
| UUnit
| UNone
| USome (v : val)
| USeq (l : list val)
| UMap (l : list (val * val))
| UVar (i : nat) (v : val)
| UIdent (o : option nat).

(** A field is plain, or [#[serde(default = d, skip_serializing_if = is_d)]]. *)
Inductive fattr := FPlain | FDefault (d : val).
(** The kind of an enum variant.  The content is given as a type: [TUnit], any
    type, [TTuple _] and [TStruct _] respectively (see [wf]). *)
Inductive vkind := KUnit | KNewtype | KTuple | KStruct.

Inductive ty :=
| TBool
| TInt (k : ikind)
| TF32
| TF64
| TChar
| TStr
| TBytes                                       (* serde_bytes *)
| TUnit
| TUnitStruct
| TOption (t : ty)
| TNewtype (t : ty)
| TSeq (t : ty)
| TTuple (l : list ty)
| TTupleStruct (l : list ty)
| TMap (k v : ty)
| TStruct (fs : list (bytes * fattr * ty))
| TEnum (vs : list (bytes * vkind * ty)).

Section TyInd.
Variable P : ty -> Prop.
Hypothesis HBool : P TBool.
Hypothesis HInt : forall k, P (TInt k).
Hypothesis HF32 : P TF32.
Hypothesis HF64 : P TF64.
Hypothesis HChar : P TChar.
Hypothesis HStr : P TStr.
Hypothesis HBytes : P TBytes.
Hypothesis HUnit : P TUnit.
Hypothesis HUnitStruct : P TUnitStruct.
Hypothesis HOption : forall t, P t -> P (TOption t).
Hypothesis HNewtype : forall t, P t -> P (TNewtype t).
Hypothesis HSeq : forall t, P t -> P (TSeq t).
Hypothesis HTuple : forall l, Forall P l -> P (TTuple l).
Hypothesis HTupleStruct : forall l, Forall P l -> P (TTupleStruct l).
Hypothesis HMap : forall k v, P k -> P v -> P (TMap k v).
Hypothesis HStruct : forall fs, Forall (fun f => P (snd f)) fs -> P (TStruct fs).
Hypothesis HEnum : forall vs, Forall (fun f => P (snd f)) vs -> P (TEnum vs).

Fixpoint ty_ind' (t : ty) : P t :=
  let go := fix go (l : list ty) : Forall P l :=
    match l with [] => Forall_nil _ | x :: l => Forall_cons x (ty_ind' x) (go l) end in
  match t with
  | TBool => HBool | TInt k => HInt k | TF32 => HF32 | TF64 => HF64 | TChar => HChar | TStr => HStr
  | TBytes => HBytes | TUnit => HUnit | TUnitStruct => HUnitStruct
  | TOption t => HOption t (ty_ind' t)
  | TNewtype t => HNewtype t (ty_ind' t)
  | TSeq t => HSeq t (ty_ind' t)
  | TTuple l => HTuple l (go l)
  | TTupleStruct l => HTupleStruct l (go l)
  | TMap k v => HMap k v (ty_ind' k) (ty_ind' v)
  | TStruct fs => HStruct fs
      ((fix gof (l : list (bytes * fattr * ty)) : Forall (fun f => P (snd f)) l :=
        match l with [] => Forall_nil _ | x :: l => Forall_cons x (ty_ind' (snd x)) (gof l) end) fs)
  | TEnum vs => HEnum vs
      ((fix gov (l : list (bytes * vkind * ty)) : Forall (fun f => P (snd f)) l :=
        match l with [] => Forall_nil _ | x :: l => Forall_cons x (ty_ind' (snd x)) (gov l) end) vs)
  end.
End TyInd.

(** Equality of values, used by [skip_serializing_if]. *)
Section ListEq.
Context {A : Type} (eqb : A -> A -> bool).
Fixpoint list_eqb (l m : list A) : bool :=
  match l, m with
  | [], [] => true
  | a :: l, b :: m => eqb a b && list_eqb l m
  | _, _ => false
  end.
End ListEq.
Definition opt_eqb (a b : option nat) : bool :=
  match a, b with Some x, Some y => Nat.eqb x y | None, None => true | _, _ => false end.
Fixpoint val_eqb (a b : val) : bool :=
  match a, b with
  | UBool x, UBool y => Bool.eqb x y
  | UInt x, UInt y => x =? y
  | UF32 x, UF32 y => x =? y
  | UF64 x, UF64 y => x =? y
  | UChar x, UChar y => x =? y
  | UStr x, UStr y => list_eqb Z.eqb x y
  | UBytes x, UBytes y => list_eqb Z.eqb x y
  | UUnit, UUnit => true
  | UNone, UNone => true
  | USome x, USome y => val_eqb x y
  | USeq x, USeq y => list_eqb val_eqb x y
  | UMap x, UMap y => list_eqb (fun p q => val_eqb (fst p) (fst q) && val_eqb (snd p) (snd q)) x y
  | UVar i x, UVar j y => Nat.eqb i j && val_eqb x y
  | UIdent x, UIdent y => opt_eqb x y
  | _, _ => false
  end.

(** ** Which values a type has, and which types exist *)
Definition name_of {A B} (f : bytes * A * B) : bytes := fst (fst f).
Definition attr_of {A B} (f : bytes * A * B) : A := snd (fst f).

Section All2.
Context {A B : Type} (P : A -> B -> Prop).
Fixpoint all2 (l : list A) (m : list B) : Prop :=
  match l, m with
  | [], [] => True
  | a :: l, b :: m => P a b /\ all2 l m
  | _, _ => False
  end.
End All2.

(** The lengths that fit the formats. *)
Definition short {A} (l : list A) : Prop := zlen l < 2 ^ 32.

Fixpoint hastype (t : ty) (v : val) {struct t} : Prop :=
  match t, v with
  | TBool, UBool _ => True
  | TInt k, UInt z => in_ikind k z
  | TF32, UF32 b => 0 <= b < 2 ^ 32
  | TF64, UF64 b => 0 <= b < 2 ^ 64
  | TChar, UChar c => is_scalar c
  | TStr, UStr s => valid_utf8 s /\ short s
  | TBytes, UBytes s => all_bytes s /\ short s
  | TUnit, UUnit => True
  | TUnitStruct, UUnit => True
  | TOption _, UNone => True
  | TOption t, USome v => hastype t v
  | TNewtype t, v => hastype t v
  | TSeq t, USeq l => Forall (hastype t) l /\ short l
  | TTuple ts, USeq l => all2 (fun h v => h v) (map hastype ts) l
  | TTupleStruct ts, USeq l => all2 (fun h v => h v) (map hastype ts) l
  | TMap k v, UMap l => Forall (fun e => hastype k (fst e) /\ hastype v (snd e)) l /\ short l
  | TStruct fs, USeq l => all2 (fun h v => h v) (map (fun f => hastype (snd f)) fs) l
  | TEnum vs, UVar i v => match nth_error (map (fun f => hastype (snd f)) vs) i with Some h => h v | None => False end
  | _, _ => False
  end.

Definition kind_ok (k : vkind) (t : ty) : Prop :=
  match k, t with
  | KUnit, TUnit => True
  | KNewtype, _ => True
  | KTuple, TTuple _ => True
  | KStruct, TStruct _ => True
  | _, _ => False
  end.

(** Types that exist in Rust: identifiers are UTF-8, distinct inside one struct or
    enum, and there are less than 2^32 of them; defaults have the right type. *)
Definition names_ok (ns : list bytes) : Prop :=
  NoDup ns /\ Forall (fun n => valid_utf8 n /\ short n) ns /\ short ns.
Fixpoint wf (t : ty) : Prop :=
  match t with
  | TOption t => wf t
  | TNewtype t => wf t
  | TSeq t => wf t
  | TTuple l => all_list wf l /\ short l
  | TTupleStruct l => all_list wf l /\ short l
  | TMap k v => wf k /\ wf v
  | TStruct fs => names_ok (map name_of fs) /\
      all_list (fun f => wf (snd f) /\ match attr_of f with FDefault d => hastype (snd f) d | FPlain => True end) fs
  | TEnum vs => names_ok (map name_of vs) /\
      all_list (fun f => wf (snd f) /\ kind_ok (attr_of f) (snd f)) vs
  | _ => True
  end.

(** ** Serialize *)
Definition skipped (a : fattr) (v : val) : bool :=
  match a with FPlain => false | FDefault d => val_eqb v d end.

Section Zip.
Context {A B C : Type} (f : A -> B -> C).
Fixpoint zip (l : list A) (m : list B) : list C :=
  match l, m with
  | a :: l, b :: m => f a b :: zip l m
  | _, _ => []
  end.
End Zip.

Definition count_some {A B} (l : list (A * option B)) : Z :=
  zlen (filter (fun f => match snd f with Some _ => true | None => false end) l).

Definition struct_call (fs : list (bytes * option sval)) : sval := SStruct (count_some fs) fs.
(** The variant methods take what the content's own method would. *)
Definition variant_call (i : nat) (n : bytes) (k : vkind) (content : sval) : sval :=
  match k, content with
  | KUnit, _ => SUnitVariant (Z.of_nat i) n
  | KTuple, STuple len l => STupleVariant (Z.of_nat i) n len l
  | KStruct, SStruct len l => SStructVariant (Z.of_nat i) n len l
  | _, c => SNewtypeVariant (Z.of_nat i) n c
  end.

Fixpoint trace (t : ty) (v : val) {struct t} : sval :=
  match t, v with
  | TBool, UBool b => SBool b
  | TInt k, UInt z => SInt k z
  | TF32, UF32 b => SF32 b
  | TF64, UF64 b => SF64 b
  | TChar, UChar c => SChar c
  | TStr, UStr s => SStr s
  | TBytes, UBytes s => SBytes s
  | TUnit, _ => SUnit
  | TUnitStruct, _ => SUnitStruct
  | TOption t, USome v => SSome (trace t v)
  | TOption _, _ => SNone
  | TNewtype t, v => SNewtypeStruct (trace t v)
  | TSeq t, USeq l => SSeq (Some (zlen l)) (map (trace t) l)
  | TTuple ts, USeq l => STuple (zlen ts) (zip (fun f v => f v) (map trace ts) l)
  | TTupleStruct ts, USeq l => STupleStruct (zlen ts) (zip (fun f v => f v) (map trace ts) l)
  | TMap k v, UMap l => SMap (Some (zlen l)) (flat_map (fun e => [(true, trace k (fst e)); (false, trace v (snd e))]) l)
  | TStruct fs, USeq l =>
    struct_call (zip (fun f v => f v)
      (map (fun f v => (name_of f, if skipped (attr_of f) v then None else Some (trace (snd f) v))) fs) l)
  | TEnum vs, UVar i v =>
    match nth_error (map (fun f v => (name_of f, attr_of f, trace (snd f) v)) vs) i with
    | Some h => let '(n, k, c) := h v in variant_call i n k c
    | None => SCustom
    end
  | _, _ => SCustom
  end.

(** ** Deserialize *)
Section Denote.
(** [custom]: the error built by [Error::custom]; messages are not modelled. *)
Context {E : Type} (custom : E).
Local Notation R := (result val E).
Local Notation deser := (deser val E).
Local Notation visitor := (visitor val E).
Local Notation sprog := (sprog val E).
Local Notation mprog := (mprog val E).
Local Notation eprog := (eprog val E).
Local Notation vprog := (vprog val E).

(** serde's default visit methods report an invalid type. *)
Record vis := {
  on_bool : bool -> R; on_int : ikind -> Z -> R; on_f32 : Z -> R; on_f64 : Z -> R; on_char : Z -> R;
  on_str : bytes -> R; on_bytes : bytes -> R; on_none : R; on_unit : R; on_some : deser; on_newtype : deser;
  on_seq : sprog; on_map : mprog; on_enum : eprog }.
Definition bad : R := Err custom.
Definition no_visit : vis :=
  {| on_bool := fun _ => bad; on_int := fun _ _ => bad; on_f32 := fun _ => bad; on_f64 := fun _ => bad;
     on_char := fun _ => bad; on_str := fun _ => bad; on_bytes := fun _ => bad; on_none := bad; on_unit := bad;
     on_some := DRet bad; on_newtype := DRet bad; on_seq := SRet bad; on_map := MRet bad; on_enum := ERet bad |}.
Definition mk_visitor (v : vis) : visitor :=
  Visitor (on_bool v) (on_int v) (on_f32 v) (on_f64 v) (on_char v) (on_str v) (on_bytes v) (on_none v) (on_unit v)
    (on_some v) (on_newtype v) (on_seq v) (on_map v) (on_enum v).
Definition request (m : dmethod) (v : vis) : deser := DReq m (mk_visitor v) (fun r => r).

Definition v_bool : vis := {| on_bool := fun b => Ok (UBool b); on_int := on_int no_visit; on_f32 := on_f32 no_visit;
  on_f64 := on_f64 no_visit; on_char := on_char no_visit; on_str := on_str no_visit; on_bytes := on_bytes no_visit;
  on_none := bad; on_unit := bad; on_some := DRet bad; on_newtype := DRet bad; on_seq := SRet bad;
  on_map := MRet bad; on_enum := ERet bad |}.
(** Integers of any type are accepted when in range ([num_self!], [int_to_int!]...). *)
Definition v_int (k : ikind) : vis := {| on_bool := fun _ => bad;
  on_int := fun _ z => if in_ikindb k z then Ok (UInt z) else bad; on_f32 := fun _ => bad;
  on_f64 := fun _ => bad; on_char := fun _ => bad; on_str := fun _ => bad; on_bytes := fun _ => bad;
  on_none := bad; on_unit := bad; on_some := DRet bad; on_newtype := DRet bad; on_seq := SRet bad;
  on_map := MRet bad; on_enum := ERet bad |}.
(** Floats.  Simplified: serde also accepts the other number types here; the
    deserializers of /repo only call [visit_f32] for an f32 and [visit_f64] for an f64. *)
Definition v_f32 : vis := {| on_bool := fun _ => bad; on_int := fun _ _ => bad; on_f32 := fun b => Ok (UF32 b);
  on_f64 := fun _ => bad; on_char := fun _ => bad; on_str := fun _ => bad; on_bytes := fun _ => bad;
  on_none := bad; on_unit := bad; on_some := DRet bad; on_newtype := DRet bad; on_seq := SRet bad;
  on_map := MRet bad; on_enum := ERet bad |}.
Definition v_f64 : vis := {| on_bool := fun _ => bad; on_int := fun _ _ => bad; on_f32 := fun _ => bad;
  on_f64 := fun b => Ok (UF64 b); on_char := fun _ => bad; on_str := fun _ => bad; on_bytes := fun _ => bad;
  on_none := bad; on_unit := bad; on_some := DRet bad; on_newtype := DRet bad; on_seq := SRet bad;
  on_map := MRet bad; on_enum := ERet bad |}.
(** Simplified: [visit_str] with one character is also accepted by serde; never called here. *)
Definition v_char : vis := {| on_bool := fun _ => bad; on_int := fun _ _ => bad; on_f32 := fun _ => bad;
  on_f64 := fun _ => bad; on_char := fun c => Ok (UChar c); on_str := fun _ => bad; on_bytes := fun _ => bad;
  on_none := bad; on_unit := bad; on_some := DRet bad; on_newtype := DRet bad; on_seq := SRet bad;
  on_map := MRet bad; on_enum := ERet bad |}.
Definition v_str : vis := {| on_bool := fun _ => bad; on_int := fun _ _ => bad; on_f32 := fun _ => bad;
  on_f64 := fun _ => bad; on_char := fun _ => bad; on_str := fun s => Ok (UStr s); on_bytes := fun _ => bad;
  on_none := bad; on_unit := bad; on_some := DRet bad; on_newtype := DRet bad; on_seq := SRet bad;
  on_map := MRet bad; on_enum := ERet bad |}.
Definition v_bytes : vis := {| on_bool := fun _ => bad; on_int := fun _ _ => bad; on_f32 := fun _ => bad;
  on_f64 := fun _ => bad; on_char := fun _ => bad; on_str := fun s => Ok (UBytes s); on_bytes := fun s => Ok (UBytes s);
  on_none := bad; on_unit := bad; on_some := DRet bad; on_newtype := DRet bad; on_seq := SRet bad;
  on_map := MRet bad; on_enum := ERet bad |}.
Definition v_unit : vis := {| on_bool := fun _ => bad; on_int := fun _ _ => bad; on_f32 := fun _ => bad;
  on_f64 := fun _ => bad; on_char := fun _ => bad; on_str := fun _ => bad; on_bytes := fun _ => bad;
  on_none := bad; on_unit := Ok UUnit; on_some := DRet bad; on_newtype := DRet bad; on_seq := SRet bad;
  on_map := MRet bad; on_enum := ERet bad |}.

(** Post-process the result of a nested program. *)
Definition then_ (d : deser) (f : R -> R) : deser :=
  match d with
  | DRet r => DRet (f r)
  | DHuman k => DHuman k        (* does not occur: no type of the universe asks *)
  | DReq m v post => DReq m v (fun r => f (post r))
  end.
Definition map_ok (f : val -> val) (r : R) : R := match r with Ok v => Ok (f v) | Err e => Err e end.

Definition v_option (t : deser) : vis := {| on_bool := fun _ => bad; on_int := fun _ _ => bad; on_f32 := fun _ => bad;
  on_f64 := fun _ => bad; on_char := fun _ => bad; on_str := fun _ => bad; on_bytes := fun _ => bad;
  on_none := Ok UNone; on_unit := Ok UNone; on_some := then_ t (map_ok USome); on_newtype := DRet bad; on_seq := SRet bad;
  on_map := MRet bad; on_enum := ERet bad |}.
(** Simplified: the derived [visit_seq] of a newtype is left out; never called here. *)
Definition v_newtype (t : deser) : vis := {| on_bool := fun _ => bad; on_int := fun _ _ => bad; on_f32 := fun _ => bad;
  on_f64 := fun _ => bad; on_char := fun _ => bad; on_str := fun _ => bad; on_bytes := fun _ => bad;
  on_none := bad; on_unit := bad; on_some := DRet bad; on_newtype := t; on_seq := SRet bad;
  on_map := MRet bad; on_enum := ERet bad |}.
Definition v_seq (p : sprog) : vis := {| on_bool := fun _ => bad; on_int := fun _ _ => bad; on_f32 := fun _ => bad;
  on_f64 := fun _ => bad; on_char := fun _ => bad; on_str := fun _ => bad; on_bytes := fun _ => bad;
  on_none := bad; on_unit := bad; on_some := DRet bad; on_newtype := DRet bad; on_seq := p;
  on_map := MRet bad; on_enum := ERet bad |}.
Definition v_map (p : mprog) : vis := {| on_bool := fun _ => bad; on_int := fun _ _ => bad; on_f32 := fun _ => bad;
  on_f64 := fun _ => bad; on_char := fun _ => bad; on_str := fun _ => bad; on_bytes := fun _ => bad;
  on_none := bad; on_unit := bad; on_some := DRet bad; on_newtype := DRet bad; on_seq := SRet bad;
  on_map := p; on_enum := ERet bad |}.
Definition v_struct (s : sprog) (p : mprog) : vis := {| on_bool := fun _ => bad; on_int := fun _ _ => bad; on_f32 := fun _ => bad;
  on_f64 := fun _ => bad; on_char := fun _ => bad; on_str := fun _ => bad; on_bytes := fun _ => bad;
  on_none := bad; on_unit := bad; on_some := DRet bad; on_newtype := DRet bad; on_seq := s;
  on_map := p; on_enum := ERet bad |}.
Definition v_enum (p : eprog) : vis := {| on_bool := fun _ => bad; on_int := fun _ _ => bad; on_f32 := fun _ => bad;
  on_f64 := fun _ => bad; on_char := fun _ => bad; on_str := fun _ => bad; on_bytes := fun _ => bad;
  on_none := bad; on_unit := bad; on_some := DRet bad; on_newtype := DRet bad; on_seq := SRet bad;
  on_map := MRet bad; on_enum := p |}.

(** [Vec::deserialize]: [visit_seq] looks at the size hint, then loops. *)
CoFixpoint seq_loop (seed : deser) (acc : list val) : sprog :=
  SNext seed (fun r =>
    match r with
    | Ok (Some v) => seq_loop seed (v :: acc)
    | Ok None => SRet (Ok (USeq (rev acc)))
    | Err e => SRet (Err e)
    end).
(** Maps: a loop of next_key, next_value. *)
CoFixpoint map_loop (kseed vseed : deser) (acc : list (val * val)) : mprog :=
  MKey kseed (fun r =>
    match r with
    | Ok (Some k) => MVal vseed (fun r =>
        match r with
        | Ok v => map_loop kseed vseed ((k, v) :: acc)
        | Err e => MRet (Err e)
        end)
    | Ok None => MRet (Ok (UMap (rev acc)))
    | Err e => MRet (Err e)
    end).
(** Tuples and structs given as sequences; [d]: the field's default. *)
Fixpoint tuple_prog (seeds : list (deser * option val)) (acc : list val) : sprog :=
  match seeds with
  | [] => SRet (Ok (USeq (rev acc)))
  | (seed, d) :: seeds => SNext seed (fun r =>
      match r with
      | Ok (Some v) => tuple_prog seeds (v :: acc)
      | Ok None => match d with Some d => tuple_prog seeds (d :: acc) | None => SRet bad end
      | Err e => SRet (Err e)
      end)
  end.

(** Position of a name. *)
Fixpoint find_name (s : bytes) (ns : list bytes) (i : nat) : option nat :=
  match ns with
  | [] => None
  | n :: ns => if list_eqb Z.eqb s n then Some i else find_name s ns (S i)
  end.
Definition is_unsigned (k : ikind) : bool := match k with U8 | U16 | U32 | U64 => true | _ => false end.
(** The derived identifier types: by index ([visit_u64]) or name; [strict] (enum
    variants): an unknown one is an error. *)
Definition v_ident (strict : bool) (ns : list bytes) : vis :=
  let unknown := if strict then bad else Ok (UIdent None) in {| on_bool := fun _ => bad;
  on_int := fun k z => if is_unsigned k then
      (if (0 <=? z) && (z <? zlen ns) then Ok (UIdent (Some (Z.to_nat z))) else unknown) else bad;
  on_f32 := fun _ => bad; on_f64 := fun _ => bad; on_char := fun _ => bad;
  on_str := fun s => match find_name s ns 0 with Some i => Ok (UIdent (Some i)) | None => unknown end;
  on_bytes := fun s => match find_name s ns 0 with Some i => Ok (UIdent (Some i)) | None => unknown end;
  on_none := bad; on_unit := bad; on_some := DRet bad; on_newtype := DRet bad; on_seq := SRet bad;
  on_map := MRet bad; on_enum := ERet bad |}.
Definition ident (strict : bool) (ns : list bytes) : deser := request DIdentifier (v_ident strict ns).

(** [serde::de::IgnoredAny]. *)
CoFixpoint ignored : deser :=
  DReq DIgnoredAny (Visitor (fun _ => Ok UUnit) (fun _ _ => Ok UUnit) (fun _ => Ok UUnit) (fun _ => Ok UUnit)
    (fun _ => Ok UUnit) (fun _ => Ok UUnit) (fun _ => Ok UUnit) (Ok UUnit) (Ok UUnit) ignored ignored
    ignored_seq ignored_map ignored_enum) (fun r => r)
with ignored_seq : sprog :=
  SNext ignored (fun r =>
    match r with
    | Ok (Some _) => ignored_seq
    | Ok None => SRet (Ok UUnit)
    | Err e => SRet (Err e)
    end)
with ignored_map : mprog :=
  MKey ignored (fun r =>
    match r with
    | Ok (Some _) => MVal ignored (fun r =>
        match r with
        | Ok _ => ignored_map
        | Err e => MRet (Err e)
        end)
    | Ok None => MRet (Ok UUnit)
    | Err e => MRet (Err e)
    end)
with ignored_enum : eprog :=
  EVariant ignored (fun e => Err e) (fun _ => VNewtype ignored (fun r => r)).

Fixpoint set_nth {A} (l : list A) (i : nat) (a : A) : list A :=
  match l, i with
  | [], _ => []
  | _ :: l, O => a :: l
  | b :: l, S i => b :: set_nth l i a
  end.
(** All fields, or the value to use for an absent one, or an error. *)
Fixpoint finish (got : list (option val)) (absent : list (option val)) : option (list val) :=
  match got, absent with
  | [], _ => Some []
  | Some v :: got, _ :: absent => option_map (cons v) (finish got absent)
  | None :: got, Some d :: absent => option_map (cons d) (finish got absent)
  | _, _ => None
  end.
(** The derived [visit_map] of a struct: keys in any order, duplicates refused,
    unknown keys skipped with their value. *)
CoFixpoint struct_loop (names : list bytes) (seeds : list deser) (absent : list (option val)) (got : list (option val)) : mprog :=
  MKey (ident false names) (fun r =>
    match r with
    | Err e => MRet (Err e)
    | Ok None => MRet (match finish got absent with Some l => Ok (USeq l) | None => bad end)
    | Ok (Some (UIdent (Some i))) =>
      match nth_error seeds i, nth_error got i with
      | Some seed, Some None => MVal seed (fun r =>
          match r with
          | Ok v => struct_loop names seeds absent (set_nth got i (Some v))
          | Err e => MRet (Err e)
          end)
      | _, _ => MRet bad
      end
    | Ok (Some _) => MVal ignored (fun r =>
        match r with
        | Ok _ => struct_loop names seeds absent got
        | Err e => MRet (Err e)
        end)
    end).

(** The value of an absent field: its default, or [None] for an Option
    ([serde::__private::de::missing_field]). *)
Definition absent_val (f : bytes * fattr * ty) : option val :=
  match attr_of f, snd f with
  | FDefault d, _ => Some d
  | FPlain, TOption _ => Some UNone
  | FPlain, _ => None
  end.
Definition default_of (a : fattr) : option val := match a with FDefault d => Some d | FPlain => None end.

(** The derived [visit_enum]; [cs] are the programs of the variants' contents. *)
Definition enum_prog (names : list bytes) (cs : list (vkind * deser)) : eprog :=
  EVariant (ident true names) (fun e => Err e) (fun u =>
    match u with
    | UIdent (Some i) =>
      match nth_error cs i with
      | Some (KUnit, _) => VUnit (fun r => match r with Ok _ => Ok (UVar i UUnit) | Err e => Err e end)
      | Some (KNewtype, c) => VNewtype c (map_ok (UVar i))
      | Some (KTuple, DReq _ v post) => VTuple v (fun r => map_ok (UVar i) (post r))
      | Some (KStruct, DReq _ v post) => VStruct v (fun r => map_ok (UVar i) (post r))
      | _ => VRet bad
      end
    | _ => VRet bad
    end).

Fixpoint denote (t : ty) : deser :=
  match t with
  | TBool => request DBool v_bool
  | TInt k => request (DInt k) (v_int k)
  | TF32 => request DF32 v_f32
  | TF64 => request DF64 v_f64
  | TChar => request DChar v_char
  | TStr => request DString v_str
  | TBytes => request DByteBuf v_bytes
  | TUnit => request DUnit v_unit
  | TUnitStruct => request DUnitStruct v_unit
  | TOption t => request DOption (v_option (denote t))
  | TNewtype t => request DNewtypeStruct (v_newtype (denote t))
  | TSeq t => request DSeq (v_seq (SHint (fun _ => seq_loop (denote t) [])))
  | TTuple l => request DTuple (v_seq (tuple_prog (map (fun t => (denote t, None)) l) []))
  | TTupleStruct l => request DTupleStruct (v_seq (tuple_prog (map (fun t => (denote t, None)) l) []))
  | TMap k v => request DMap (v_map (MHint (fun _ => map_loop (denote k) (denote v) [])))
  | TStruct fs => request DStruct (v_struct
      (tuple_prog (map (fun f => (denote (snd f), default_of (attr_of f))) fs) [])
      (struct_loop (map name_of fs) (map (fun f => denote (snd f)) fs) (map absent_val fs) (map (fun _ => None) fs)))
  | TEnum vs => request DEnum (v_enum (enum_prog (map name_of vs) (map (fun f => (attr_of f, denote (snd f))) vs)))
  end.

(** A self-describing type (like [rmpv::Value] or [serde_json::Value]): takes
    whatever [deserialize_any] finds. *)
CoFixpoint any : deser :=
  DReq DAny (Visitor (fun b => Ok (UBool b)) (fun _ z => Ok (UInt z)) (fun b => Ok (UF32 b)) (fun b => Ok (UF64 b))
    (fun c => Ok (UChar c)) (fun s => Ok (UStr s)) (fun s => Ok (UBytes s)) (Ok UNone) (Ok UUnit) any any
    (any_seq []) (any_map []) (ERet bad)) (fun r => r)
with any_seq (acc : list val) : sprog :=
  SNext any (fun r =>
    match r with
    | Ok (Some v) => any_seq (v :: acc)
    | Ok None => SRet (Ok (USeq (rev acc)))
    | Err e => SRet (Err e)
    end)
with any_map (acc : list (val * val)) : mprog :=
  MKey any (fun r =>
    match r with
    | Ok (Some k) => MVal any (fun r =>
        match r with
        | Ok v => any_map ((k, v) :: acc)
        | Err e => MRet (Err e)
        end)
    | Ok None => MRet (Ok (UMap (rev acc)))
    | Err e => MRet (Err e)
    end).
End Denote.

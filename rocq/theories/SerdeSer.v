(** The serde side of serialization: what an arbitrary [T: Serialize] may ask of
    a [Serializer].  serde itself is not part of /repo; this is its interface.

    A Serialize impl is represented by the tree of Serializer calls it makes.
    Simplification: the impl stops at the first error it gets back (what every
    derived impl does with [?]); a failure of the impl itself is [SCustom]. *)
From Verif Require Import Prelude.

(** One run of a [Display::fmt]: a finite interaction with the formatter.  It may
    look at the result of each [write_str] and return [Ok] or [Err] as it likes. *)
Inductive fmtp :=
| FRet (ok : bool)
| FWrite (s : bytes) (on_ok on_err : fmtp).

Inductive sval :=
| SBool (b : bool)
| SInt (k : ikind) (z : Z)
| SI128                                  (* serialize_i128 / u128: serde's default *)
| SF32 (bits : Z)
| SF64 (bits : Z)
| SChar (c : Z)
| SStr (s : bytes)
| SBytes (b : bytes)
| SNone
| SSome (v : sval)
| SUnit
| SUnitStruct
| SUnitVariant (idx : Z) (name : bytes)
| SNewtypeStruct (v : sval)
| SNewtypeVariant (idx : Z) (name : bytes) (v : sval)
| SSeq (len : option Z) (items : list sval)
| STuple (len : Z) (items : list sval)
| STupleStruct (len : Z) (items : list sval)
| STupleVariant (idx : Z) (name : bytes) (len : Z) (items : list sval)
| SMap (len : option Z) (ops : list (bool * sval))   (* true: serialize_key, false: serialize_value *)
| SStruct (len : Z) (fields : list (bytes * option sval))      (* None: skip_field *)
| SStructVariant (idx : Z) (name : bytes) (len : Z) (fields : list (bytes * option sval))
| SCollect (pass1 pass2 : fmtp)          (* collect_str of a Display, formatted up to twice *)
| SCustom.                               (* the impl returns Error::custom *)

Section SvalInd.
Variable P : sval -> Prop.
Hypothesis HBool : forall b, P (SBool b).
Hypothesis HInt : forall k z, P (SInt k z).
Hypothesis HI128 : P SI128.
Hypothesis HF32 : forall b, P (SF32 b).
Hypothesis HF64 : forall b, P (SF64 b).
Hypothesis HChar : forall c, P (SChar c).
Hypothesis HStr : forall s, P (SStr s).
Hypothesis HBytes : forall s, P (SBytes s).
Hypothesis HNone : P SNone.
Hypothesis HSome : forall v, P v -> P (SSome v).
Hypothesis HUnit : P SUnit.
Hypothesis HUnitStruct : P SUnitStruct.
Hypothesis HUnitVariant : forall i n, P (SUnitVariant i n).
Hypothesis HNewtypeStruct : forall v, P v -> P (SNewtypeStruct v).
Hypothesis HNewtypeVariant : forall i n v, P v -> P (SNewtypeVariant i n v).
Hypothesis HSeq : forall l items, Forall P items -> P (SSeq l items).
Hypothesis HTuple : forall l items, Forall P items -> P (STuple l items).
Hypothesis HTupleStruct : forall l items, Forall P items -> P (STupleStruct l items).
Hypothesis HTupleVariant : forall i n l items, Forall P items -> P (STupleVariant i n l items).
Hypothesis HMap : forall l ops, Forall (fun o => P (snd o)) ops -> P (SMap l ops).
Hypothesis HStruct : forall l fs,
  Forall (fun f => forall v, snd f = Some v -> P v) fs -> P (SStruct l fs).
Hypothesis HStructVariant : forall i n l fs,
  Forall (fun f => forall v, snd f = Some v -> P v) fs -> P (SStructVariant i n l fs).
Hypothesis HCollect : forall a b, P (SCollect a b).
Hypothesis HCustom : P SCustom.

(** Induction over call trees, going under the nested lists. *)
Fixpoint sval_ind' (v : sval) : P v :=
  let go := fix go (l : list sval) : Forall P l :=
    match l with [] => Forall_nil _ | x :: l => Forall_cons x (sval_ind' x) (go l) end in
  let gom := fix gom (l : list (bool * sval)) : Forall (fun o => P (snd o)) l :=
    match l with [] => Forall_nil _ | x :: l => Forall_cons x (sval_ind' (snd x)) (gom l) end in
  let gof := fix gof (l : list (bytes * option sval)) : Forall (fun f => forall v, snd f = Some v -> P v) l :=
    match l with
    | [] => Forall_nil _
    | x :: l => Forall_cons x
        (match x as x return forall v, snd x = Some v -> P v with
         | (_, None) => fun v E => match E with eq_refl => I end
         | (_, Some y) => fun v E => match E in _ = o return match o with Some z => P z | None => True end
                                     with eq_refl => sval_ind' y end
         end) (gof l)
    end in
  match v with
  | SBool b => HBool b
  | SInt k z => HInt k z
  | SI128 => HI128
  | SF32 b => HF32 b
  | SF64 b => HF64 b
  | SChar c => HChar c
  | SStr s => HStr s
  | SBytes s => HBytes s
  | SNone => HNone
  | SSome v => HSome v (sval_ind' v)
  | SUnit => HUnit
  | SUnitStruct => HUnitStruct
  | SUnitVariant i n => HUnitVariant i n
  | SNewtypeStruct v => HNewtypeStruct v (sval_ind' v)
  | SNewtypeVariant i n v => HNewtypeVariant i n v (sval_ind' v)
  | SSeq l items => HSeq l items (go items)
  | STuple l items => HTuple l items (go items)
  | STupleStruct l items => HTupleStruct l items (go items)
  | STupleVariant i n l items => HTupleVariant i n l items (go items)
  | SMap l ops => HMap l ops (gom ops)
  | SStruct l fs => HStruct l fs (gof fs)
  | SStructVariant i n l fs => HStructVariant i n l fs (gof fs)
  | SCollect a b => HCollect a b
  | SCustom => HCustom
  end.
End SvalInd.

(** Drive a Display run against a [fmt::Write] sink; the boolean is what
    [fmt::write] returns ([true] = Ok).  Models [core::fmt::write] on ["{}"]. *)
Fixpoint run_fmt {S} (wr : S -> bytes -> S * bool) (p : fmtp) (s : S) : S * bool :=
  match p with
  | FRet ok => (s, ok)
  | FWrite c k1 k2 =>
    let '(s', b) := wr s c in
    if b then run_fmt wr k1 s' else run_fmt wr k2 s'
  end.

(** A Display that honours the fmt contract: an error from the sink is returned. *)
Fixpoint fmt_propagates (p : fmtp) : Prop :=
  match p with
  | FRet _ => True
  | FWrite _ k1 k2 => k2 = FRet false /\ fmt_propagates k1
  end.

(** The text printed when every write succeeds and the run returns [Ok]. *)
Fixpoint fmt_text (p : fmtp) : option bytes :=
  match p with
  | FRet ok => if ok then Some [] else None
  | FWrite c k1 _ => option_map (app c) (fmt_text k1)
  end.

(** All strings a Display run writes satisfy [Q]. *)
Fixpoint fmt_all (Q : bytes -> Prop) (p : fmtp) : Prop :=
  match p with
  | FRet _ => True
  | FWrite c k1 k2 => Q c /\ fmt_all Q k1 /\ fmt_all Q k2
  end.

Definition all_list {A} (P : A -> Prop) : list A -> Prop :=
  fix go l := match l with [] => True | x :: l => P x /\ go l end.

(** Every Display inside a call tree honours the fmt contract. *)
Fixpoint displays_propagate (v : sval) : Prop :=
  match v with
  | SSome v | SNewtypeStruct v | SNewtypeVariant _ _ v => displays_propagate v
  | SSeq _ l | STuple _ l | STupleStruct _ l | STupleVariant _ _ _ l => all_list displays_propagate l
  | SMap _ l => all_list (fun o => displays_propagate (snd o)) l
  | SStruct _ fs | SStructVariant _ _ _ fs =>
    all_list (fun f => match snd f with Some x => displays_propagate x | None => True end) fs
  | SCollect p1 p2 => fmt_propagates p1 /\ fmt_propagates p2
  | _ => True
  end.

(** Types that contain enums read through a buffer, at any depth: an untagged enum in a
    [Vec], an internally tagged enum in a field of a struct, and so on (as the message
    types of ser-write-json/tests/ex_machine.rs are).  None of this is in /repo: it is
    the code serde and serde_derive generate, as in [Types] and [Content].

    [xtrace x v] is the tree of Serializer calls, [xdenote x] the program run by
    [Deserialize].  [XEnum] is an enum with names outside, [None] a unit variant and
    [Some x] a newtype variant.  Simplified: fields of the structs here have no attributes,
    map keys are types of [Types], and tuple and struct variants of an [XEnum] are not
    there; types without a buffered enum inside are those of [Types]. *)
From Verif Require Import Prelude SerdeSer SerdeDe FloatOps Types Content.

Inductive xty :=
| XTy (t : ty)
| XUntagged (vs : list (vkind * ty))
| XTagged (tag : bytes) (vs : list (bytes * option (list (bytes * fattr * ty))))
| XOption (x : xty)
| XSeq (x : xty)
| XTuple (l : list xty)
| XMap (k : ty) (x : xty)
| XStruct (fs : list (bytes * xty))
| XNewtype (x : xty)
| XEnum (vs : list (bytes * option xty)).

Definition in_some (P : xty -> Prop) (o : option xty) : Prop := match o with Some x => P x | None => True end.
Section XtyInd.
Variable P : xty -> Prop.
Hypothesis HTy : forall t, P (XTy t).
Hypothesis HUntagged : forall vs, P (XUntagged vs).
Hypothesis HTagged : forall tag vs, P (XTagged tag vs).
Hypothesis HOption : forall x, P x -> P (XOption x).
Hypothesis HSeq : forall x, P x -> P (XSeq x).
Hypothesis HTuple : forall l, Forall P l -> P (XTuple l).
Hypothesis HMap : forall k x, P x -> P (XMap k x).
Hypothesis HStruct : forall fs, Forall (fun f => P (snd f)) fs -> P (XStruct fs).
Hypothesis HNewtype : forall x, P x -> P (XNewtype x).
Hypothesis HEnum : forall vs, Forall (fun f => in_some P (snd f)) vs -> P (XEnum vs).
Fixpoint xty_ind' (x : xty) : P x :=
  match x with
  | XTy t => HTy t
  | XUntagged vs => HUntagged vs
  | XTagged tag vs => HTagged tag vs
  | XOption x => HOption x (xty_ind' x)
  | XSeq x => HSeq x (xty_ind' x)
  | XTuple l => HTuple l ((fix go (l : list xty) : Forall P l :=
      match l with [] => Forall_nil _ | x :: l => Forall_cons x (xty_ind' x) (go l) end) l)
  | XMap k x => HMap k x (xty_ind' x)
  | XStruct fs => HStruct fs ((fix go (l : list (bytes * xty)) : Forall (fun f => P (snd f)) l :=
      match l with [] => Forall_nil _ | x :: l => Forall_cons x (xty_ind' (snd x)) (go l) end) fs)
  | XNewtype x => HNewtype x (xty_ind' x)
  | XEnum vs => HEnum vs ((fix go (l : list (bytes * option xty)) : Forall (fun f => in_some P (snd f)) l :=
      match l with
      | [] => Forall_nil _
      | f :: l => Forall_cons f (match snd f as o return in_some P o with Some x => xty_ind' x | None => I end) (go l)
      end) vs)
  end.
End XtyInd.

Definition xkind (f : bytes * option xty) : vkind := match snd f with Some _ => KNewtype | None => KUnit end.

(** [Serialize]: serde_derive, and serde's impls for Option, Vec, tuples and maps. *)
Fixpoint xtrace (x : xty) (v : val) {struct x} : sval :=
  match x, v with
  | XTy t, v => trace t v
  | XUntagged vs, v => untagged_trace vs v
  | XTagged tag vs, v => tagged_trace tag vs v
  | XOption x, USome v => SSome (xtrace x v)
  | XOption _, _ => SNone
  | XSeq x, USeq l => SSeq (Some (zlen l)) (map (xtrace x) l)
  | XTuple xs, USeq l => STuple (zlen xs) (zip (fun f v => f v) (map xtrace xs) l)
  | XMap k x, UMap l => SMap (Some (zlen l)) (flat_map (fun e => [(true, trace k (fst e)); (false, xtrace x (snd e))]) l)
  | XStruct fs, USeq l => struct_call (zip (fun f v => f v) (map (fun f v => (fst f, Some (xtrace (snd f) v))) fs) l)
  | XNewtype x, v => SNewtypeStruct (xtrace x v)
  | XEnum vs, UVar i v =>
    match nth_error (map (fun f => (fst f, option_map xtrace (snd f))) vs) i with
    | Some (n, None) => SUnitVariant (Z.of_nat i) n
    | Some (n, Some g) => SNewtypeVariant (Z.of_nat i) n (g v)
    | None => SCustom
    end
  | _, _ => SCustom
  end.

(** [Deserialize].  A missing field is an error unless it is an Option. *)
Section Denote.
Context (fo : float_ops) {E : Type} (custom : E).
Definition xabsent (x : xty) : option val :=
  match x with XOption _ | XTy (TOption _) => Some UNone | _ => None end.
Fixpoint xdenote (x : xty) : deser val E :=
  match x with
  | XTy t => denote custom t
  | XUntagged vs => untagged fo custom vs
  | XTagged tag vs => tagged fo custom tag vs
  | XOption x => request DOption (v_option custom (xdenote x))
  | XSeq x => request DSeq (v_seq custom (SHint (fun _ => seq_loop (xdenote x) [])))
  | XTuple xs => request DTuple (v_seq custom (tuple_prog custom (map (fun x => (xdenote x, None)) xs) []))
  | XMap k x => request DMap (v_map custom (MHint (fun _ => map_loop (denote custom k) (xdenote x) [])))
  | XStruct fs => request DStruct (v_struct custom
      (tuple_prog custom (map (fun f => (xdenote (snd f), None)) fs) [])
      (struct_loop custom (map fst fs) (map (fun f => xdenote (snd f)) fs) (map (fun f => xabsent (snd f)) fs) (map (fun _ => None) fs)))
  | XNewtype x => request DNewtypeStruct (v_newtype custom (xdenote x))
  | XEnum vs => request DEnum (v_enum custom (enum_prog custom (map fst vs)
      (map (fun f => (xkind f, match snd f with Some x => xdenote x | None => denote custom TUnit end)) vs)))
  end.
End Denote.

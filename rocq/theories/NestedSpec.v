(** Specification: values of types with buffered enums inside, and what a round trip
    leaves of them (C76). *)
From Verif Require Import Prelude Utf8Spec SerdeSer FloatOps MpSpec Types MpTypeSpec JsonSpec JsonTypeSpec JsonAnySpec Content ContentSpec Nested.

(** A value whose parts meet conditions: [P] parts of ordinary types, [K] map keys, [U]
    values of untagged enums, [T] values of internally tagged enums. *)
Section Made.
Context (P K : ty -> val -> Prop) (U : list (vkind * ty) -> val -> Prop)
  (T : bytes -> list (bytes * option (list (bytes * fattr * ty))) -> val -> Prop).
Fixpoint made_of (x : xty) (v : val) {struct x} : Prop :=
  match x, v with
  | XTy t, v => P t v
  | XUntagged vs, v => U vs v
  | XTagged tag vs, v => T tag vs v
  | XOption _, UNone => True
  | XOption x, USome v => made_of x v
  | XSeq x, USeq l => Forall (made_of x) l /\ short l
  | XTuple xs, USeq l => all2 (fun p v => p v) (map made_of xs) l /\ short l
  | XMap k x, UMap l => Forall (fun e => K k (fst e) /\ made_of x (snd e)) l /\ short l
  | XStruct fs, USeq l => names_ok (map fst fs) /\ all2 (fun p v => p v) (map (fun f => made_of (snd f)) fs) l
  | XNewtype x, v => made_of x v
  | XEnum vs, UVar i v => names_ok (map fst vs) /\
    match nth_error (map (fun f => option_map made_of (snd f)) vs) i with
    | Some None => v = UUnit
    | Some (Some p) => p v
    | None => False
    end
  | _, _ => False
  end.
End Made.

(** What is left of a value: ordinary parts are [img], map keys [kimg] of what they were,
    [Some] of something written as null is [None], and enums are what they were. *)
Section Image.
Context (null : ty -> val -> bool) (img kimg : ty -> val -> val).
Fixpoint xnull (x : xty) (v : val) {struct x} : bool :=
  match x, v with
  | XTy t, v => null t v
  | XUntagged vs, UVar i v => match nth_error vs i with Some (_, t) => null t v | None => false end
  | XOption _, UNone => true
  | XOption x, USome v => xnull x v
  | XNewtype x, v => xnull x v
  | _, _ => false
  end.
Fixpoint ximage (x : xty) (v : val) {struct x} : val :=
  match x, v with
  | XTy t, v => img t v
  | XOption x, USome v => if xnull x v then UNone else USome (ximage x v)
  | XSeq x, USeq l => USeq (map (ximage x) l)
  | XTuple xs, USeq l => USeq (zip (fun f v => f v) (map ximage xs) l)
  | XMap k x, UMap l => UMap (map (fun e => (kimg k (fst e), ximage x (snd e))) l)
  | XStruct fs, USeq l => USeq (zip (fun f v => f v) (map (fun f => ximage (snd f)) fs) l)
  | XNewtype x, v => ximage x v
  | XEnum vs, UVar i v =>
    UVar i match nth_error (map (fun f => option_map ximage (snd f)) vs) i with Some (Some g) => g v | _ => v end
  | _, v => v
  end.
End Image.

(** The enums: C65 and C66. *)
Definition mp_untagged_ok (st : style) (vs : list (vkind * ty)) (v : val) : Prop :=
  exists i k t u, v = UVar i u /\ nth_error vs i = Some (k, t) /\ kind_ok k t /\ wf t /\ strict t /\ hastype t u /\ told_apart st t /\
    (k = KStruct -> st <> SArray) /\ apart (firstn i vs) (written Bin (match st with SArray => Arr | _ => Obj end) t).
Definition mp_tagged_ok (st : style) (tag : bytes) (vs : list (bytes * option (list (bytes * fattr * ty)))) (v : val) : Prop :=
  st <> SIndexMap /\ names_ok (map fst vs) /\ exists i f u, v = UVar i u /\ nth_error vs i = Some f /\ wf (with_tag tag (variant_fields f)) /\
    strict (TStruct (variant_fields f)) /\ told_apart st (TStruct (variant_fields f)) /\ variant_hastype f u.
Definition ordinary (t : ty) (v : val) : Prop := wf t /\ hastype t v.
Definition mp_made (st : style) : xty -> val -> Prop := made_of ordinary ordinary (mp_untagged_ok st) (mp_tagged_ok st).
Definition mp_image : xty -> val -> val := ximage nullish (collapse nullish) (collapse nullish).

Section Js.
Context (good32 good64 : Z -> Prop) (bytes_too : Prop).
Definition js_untagged_ok (vs : list (vkind * ty)) (v : val) : Prop :=
  exists i k t u, v = UVar i u /\ nth_error vs i = Some (k, t) /\ kind_ok k t /\ wf t /\ strict t /\ hastype t u /\ text_keys bytes_too t /\
    all_floats good32 good64 (trace t u) /\ apart (firstn i vs) (written Arr Obj t).
Definition js_tagged_ok (tag : bytes) (vs : list (bytes * option (list (bytes * fattr * ty)))) (v : val) : Prop :=
  names_ok (map fst vs) /\ exists i f u, v = UVar i u /\ nth_error vs i = Some f /\ wf (with_tag tag (variant_fields f)) /\
    strict (TStruct (variant_fields f)) /\ text_keys bytes_too (TStruct (variant_fields f)) /\ variant_hastype f u /\
    all_floats good32 good64 (tagged_trace tag vs v).
Definition js_ordinary (t : ty) (v : val) : Prop := wf t /\ hastype t v /\ no_newtype_keys t.
Definition js_key (t : ty) (v : val) : Prop := wf t /\ hastype t v /\ forall u, t <> TNewtype u.
Definition js_made : xty -> val -> Prop := made_of js_ordinary js_key js_untagged_ok js_tagged_ok.
Definition js_image : xty -> val -> val := ximage json_null json_image (fun _ v => v).
End Js.

(** No field inside is left out when written. *)
Fixpoint xplain (x : xty) : Prop :=
  match x with
  | XTy t => plain t
  | XUntagged vs => all_list (fun f => plain (snd f)) vs
  | XTagged _ vs => all_list (fun f => plain (TStruct (variant_fields f))) vs
  | XOption x | XSeq x | XNewtype x => xplain x
  | XTuple xs => all_list xplain xs
  | XMap k x => plain k /\ xplain x
  | XStruct fs => all_list (fun f => xplain (snd f)) fs
  | XEnum vs => all_list (fun f => match snd f with Some x => xplain x | None => True end) vs
  end.

(** The keys of all maps inside can be written as JSON keys (C39). *)
Fixpoint xgood_keys (x : xty) : Prop :=
  match x with
  | XTy t => good_keys t
  | XUntagged vs => all_list (fun f => good_keys (snd f)) vs
  | XTagged _ vs => all_list (fun f => good_keys (TStruct (variant_fields f))) vs
  | XOption x | XSeq x | XNewtype x => xgood_keys x
  | XTuple xs => all_list xgood_keys xs
  | XMap k x => key_type k /\ xgood_keys x
  | XStruct fs => all_list (fun f => xgood_keys (snd f)) fs
  | XEnum vs => all_list (fun f => match snd f with Some x => xgood_keys x | None => True end) vs
  end.

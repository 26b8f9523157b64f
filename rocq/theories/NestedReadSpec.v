(** Specification: what types with buffered enums inside are read from (C76). *)
From Verif Require Import Prelude Utf8Spec SerdeSer FloatOps MpSpec Types MpTypeSpec JsonSpec JsonTypeSpec JsonAnySpec Content BufferSpec Nested.

(** Types that can be declared: names differ, kinds of variants fit. *)
Fixpoint xwf (x : xty) : Prop :=
  match x with
  | XTy t => wf t
  | XUntagged vs => Forall (fun f => kind_ok (fst f) (snd f) /\ wf (snd f)) vs
  | XTagged _ vs => NoDup (map fst vs) /\ Forall (fun f => match snd f with Some fs => wf (TStruct fs) | None => True end) vs
  | XOption x | XSeq x | XNewtype x => xwf x
  | XTuple xs => all_list xwf xs
  | XMap k x => wf k /\ xwf x
  | XStruct fs => names_ok (map fst fs) /\ all_list (fun f => xwf (snd f)) fs
  | XEnum vs => names_ok (map fst vs) /\ all_list (fun f => match snd f with Some x => xwf x | None => True end) vs
  end.
(** The fields of a struct: those given, and [None] for options that are not. *)
Definition optional (x : xty) : Prop := (exists y, x = XOption y) \/ (exists t, x = XTy (TOption t)).
Fixpoint xall_fields (fs : list (bytes * xty)) (got : list (option val)) (l : list val) : Prop :=
  match fs, got, l with
  | [], [], [] => True
  | f :: fs, g :: got, v :: l => match g with Some u => u = v | None => optional (snd f) /\ v = UNone end /\ xall_fields fs got l
  | _, _, _ => False
  end.

(** No internally tagged enum inside. *)
Fixpoint no_tags (x : xty) : Prop :=
  match x with
  | XTy _ | XUntagged _ => True
  | XTagged _ _ => False
  | XOption x | XSeq x | XMap _ x | XNewtype x => no_tags x
  | XTuple xs => all_list no_tags xs
  | XStruct fs => all_list (fun f => no_tags (snd f)) fs
  | XEnum vs => all_list (fun f => match snd f with Some x => no_tags x | None => True end) vs
  end.

Section Mp.
Context (fo : float_ops).
(** The messages of a type, given those of the untagged and the tagged enums inside. *)
Section Form.
Context (pu : list (vkind * ty) -> val -> bytes -> Prop) (pt : bytes -> list (bytes * option (list (bytes * fattr * ty))) -> val -> bytes -> Prop).
Fixpoint xform (x : xty) (v : val) (bs : bytes) {struct x} : Prop :=
  match x, v with
  | XTy t, v => adm fo t v bs
  | XUntagged vs, v => pu vs v bs
  | XTagged tag vs, v => pt tag vs v bs
  | XOption _, UNone => bs = [0xc0]
  | XOption x, USome v => xform x v bs /\ bs <> [0xc0]
  | XSeq x, USeq l => exists h b, bs = h ++ b /\ arr_hdr (zlen l) h /\ seq_enc (map (xform x) l) b
  | XTuple xs, USeq l => exists h b, bs = h ++ b /\ arr_hdr (zlen xs) h /\ length l = length xs /\ seq_enc (zip (fun p v => p v) (map xform xs) l) b
  | XMap k x, UMap l => exists h b, bs = h ++ b /\ map_hdr (zlen l) h /\
      seq_enc (map (fun e b => exists y z, b = y ++ z /\ adm fo k (fst e) y /\ xform x (snd e) z) l) b
  | XStruct fs, USeq l =>
    (exists h b, bs = h ++ b /\ arr_hdr (zlen fs) h /\ length l = length fs /\ seq_enc (zip (fun p v => p v) (map (fun f => xform (snd f)) fs) l) b) \/
    (exists n h b got, bs = h ++ b /\ map_hdr n h /\
       entries (map fst fs) (map (fun f => xform (snd f)) fs) (map (fun _ => None) fs) n b got /\ xall_fields fs got l)
  | XNewtype x, v => xform x v bs
  | XEnum vs, UVar i v =>
    match nth_error (map (fun f => option_map xform (snd f)) vs) i with
    | Some None => v = UUnit /\ ident_enc (map fst vs) i bs
    | Some (Some p) => exists k b, bs = 0x81 :: k ++ b /\ ident_enc (map fst vs) i k /\ p v b
    | None => False
    end
  | _, _ => False
  end.
End Form.
(** [xadm x v bs]: [bs] is an encoding of the value [v] of type [x].  Enums read through a
    buffer are what C75 makes of the message. *)
Definition xadm : xty -> val -> bytes -> Prop := xform
  (fun vs v bs => exists i w m c, v = UVar i w /\ mp_fmt m bs /\ denotes m (inl c) /\ no_number_keys c /\ first_variant fo vs i w c)
  (fun tag vs v bs => exists i w m c, v = UVar i w /\ mp_fmt m bs /\ denotes m (inl c) /\ no_number_keys c /\ tagged_as fo tag vs i w c).
(** [xgot x v bs]: where [v] may come from: the same, but of the enums it is only said that
    each is one whole message and, of an untagged one without numbers as keys, which variant. *)
Definition xgot : xty -> val -> bytes -> Prop := xform
  (fun vs v bs => exists m c, mp_fmt m bs /\ denotes m (inl c) /\ exists i w, v = UVar i w /\ (i < length vs)%nat /\ (no_number_keys c -> first_variant fo vs i w c))
  (fun tag vs v bs => exists m c, mp_fmt m bs /\ denotes m (inl c) /\ exists i w, v = UVar i w /\ (i < length vs)%nat).
End Mp.

Section Js.
Context (fo : float_ops) (any_f32 : bool) (f32_of f64_of : bytes -> option Z) (key_ws : bytes -> Prop) (bytes_of : bytes -> bytes -> Prop).
Local Notation float_of := (if any_f32 then f32_of else f64_of).
Section Form.
Context (pu : list (vkind * ty) -> val -> jv -> Prop) (pt : bytes -> list (bytes * option (list (bytes * fattr * ty))) -> val -> jv -> Prop).
Fixpoint jform (x : xty) (v : val) (d : jv) {struct x} : Prop :=
  match x, v with
  | XTy t, v => reads_as key_ws f32_of f64_of bytes_of t v d
  | XUntagged vs, v => pu vs v d
  | XTagged tag vs, v => pt tag vs v d
  | XOption _, UNone => d = JNull
  | XOption x, USome v => jform x v d /\ d <> JNull
  | XSeq x, USeq l => exists ds, d = JArr ds /\ Forall2 (jform x) l ds
  | XTuple xs, USeq l => exists ds, d = JArr ds /\ all3 (fun p v d => p v d) (map jform xs) l ds
  | XMap k x, UMap l => exists ms, d = JObj ms /\ Forall2 (fun e m => key_as key_ws k (fst e) (fst m) /\ jform x (snd e) (snd m)) l ms
  | XStruct fs, USeq l =>
    (exists ds, d = JArr ds /\ all3 (fun p v d => p v d) (map (fun f => jform (snd f)) fs) l ds) \/
    (exists ms got, d = JObj ms /\ obj_fields (map fst fs) (map (fun f => jform (snd f)) fs) (map (fun _ => None) fs) ms got /\ xall_fields fs got l)
  | XNewtype x, v => jform x v d
  | XEnum vs, UVar i v =>
    match nth_error (map (fun f => (fst f, option_map jform (snd f))) vs) i with
    | Some (n, None) => v = UUnit /\ exists raw, d = JStr raw /\ literal raw n
    | Some (n, Some p) => exists raw d', d = JObj [(raw, d')] /\ literal raw n /\ p v d'
    | None => False
    end
  | _, _ => False
  end.
End Form.
(** [xreads x v d]: the document [d] represents the value [v] of type [x]. *)
Definition xreads : xty -> val -> jv -> Prop := jform
  (fun vs v d => exists i w c, v = UVar i w /\ any_as any_f32 float_of c d /\ first_variant fo vs i w c)
  (fun tag vs v d => exists i w c, v = UVar i w /\ any_as any_f32 float_of c d /\ tagged_as fo tag vs i w c).
(** [xcame x v d]: where [v] may come from; of a tagged enum it is only said that it is one
    whole document. *)
Definition xcame : xty -> val -> jv -> Prop := jform
  (fun vs v d => exists i w c, v = UVar i w /\ any_as any_f32 float_of c d /\ first_variant fo vs i w c)
  (fun tag vs v d => exists i w c, v = UVar i w /\ any_as any_f32 float_of c d /\ (i < length vs)%nat).
End Js.

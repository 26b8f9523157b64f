(** Properties: MessagePack decoding on 32-bit targets. *)
From Verif Require Import Prelude Utf8Spec SerdeSer SerdeDe MpSpec MpDe MpDeTop FloatOps Types TypeSize MpTypeSpec MpWidthSpec
  PropsMpDe PropsMpTyped.
From Verif Require MpWidth MpWidthTypes MpWidthTop.

(** C54: two targets of 32 bits or more give the same outcome, whether or not their
    builds check for overflow, unless a value with a huge announced length may be
    skipped (C18 shows what happens then). *)
Theorem C54_msgpack_targets_agree : forall ar ar' fo U fuel (p : deser U mp_de_error) input,
  arch32up ar -> arch32up ar' -> slice_of ar input -> slice_of ar' input -> never_skips p \/ no_huge_lengths input ->
  mp_from_slice ar fo fuel p input = mp_from_slice ar' fo fuel p input /\
  mp_from_slice_split_tail ar fo fuel p input = mp_from_slice_split_tail ar' fo fuel p input.
Proof. exact MpWidth.width_targets. Qed.
Print Assumptions C54_msgpack_targets_agree.

(** C54: types without structs never skip, nor does the self-describing type. *)
Theorem C54_msgpack_never_skips : forall E (e : E) t, no_struct t -> never_skips (denote e t).
Proof. exact (fun E e t => MpWidthTypes.denote_ok e t). Qed.
Print Assumptions C54_msgpack_never_skips.
Theorem C54_msgpack_any_never_skips : forall E (e : E), never_skips (any e).
Proof. exact (fun E e => MpWidthTypes.any_ok e). Qed.
Print Assumptions C54_msgpack_any_never_skips.

(** C54: so decoding decides (C53) on 32-bit targets too. *)
Theorem C54_msgpack_decides_32bit : forall ar fo t input fuel,
  usize_max ar = 2 ^ 32 - 1 -> wf t -> slice_of ar input -> no_struct t \/ no_huge_lengths input ->
  (10 * type_size t + 3 * length input <= fuel)%nat ->
  (exists s v bs tail, mp_from_slice ar fo fuel (denote DeserializeError t) input = Done s (Ok (v, zlen bs)) /\ input = bs ++ tail /\ adm fo t v bs) \/
  (exists s e, mp_from_slice ar fo fuel (denote DeserializeError t) input = Done s (Err e) /\ forall v bs tail, input = bs ++ tail -> ~ adm fo t v bs).
Proof. exact (fun ar fo t input fuel A => MpWidthTop.narrow_decides ar fo A t input fuel). Qed.
Print Assumptions C54_msgpack_decides_32bit.

Theorem C54_msgpack_any_terminates_32bit : forall ar fo input fuel,
  usize_max ar = 2 ^ 32 - 1 -> slice_of ar input -> (6 + 3 * length input <= fuel)%nat ->
  exists s r, mp_from_slice ar fo fuel (any DeserializeError) input = Done s r.
Proof. exact (fun ar fo input fuel A => MpWidthTop.narrow_any ar fo A input fuel). Qed.
Print Assumptions C54_msgpack_any_terminates_32bit.

(** C27: decoding into a self-describing type decides: the value denoted by the message
    at the front of the input, or an error and there is no such message. *)
Theorem C27_msgpack_self_describing_decides : forall ar fo input fuel,
  arch32up ar -> slice_of ar input -> slice64 input -> (6 + 3 * length input <= fuel)%nat ->
  (exists s v m bs tail, mp_from_slice ar fo fuel (any DeserializeError) input = Done s (Ok (v, zlen bs)) /\
     input = bs ++ tail /\ mp_fmt m bs /\ denotes m (inl v)) \/
  (exists s e, mp_from_slice ar fo fuel (any DeserializeError) input = Done s (Err e) /\
     forall m v bs tail, input = bs ++ tail -> mp_fmt m bs -> ~ denotes m (inl v)).
Proof. exact MpWidthTop.any_decides. Qed.
Print Assumptions C27_msgpack_self_describing_decides.

(** The inputs of C18, asked for as bytes or as anything: an error on a 32-bit target
    with overflow checks.  A struct on an input without huge lengths. *)
Definition huge : bytes := [0x92; 0xc6; 0xff; 0xff; 0xff; 0xfa].
Example C54_case_huge : slice_of (x32 true) huge /\ no_struct (TSeq TBytes) /\
  match mp_from_slice (x32 true) no_floats 80 (denote DeserializeError (TSeq TBytes)) huge with Done _ r => r = Err UnexpectedEof | _ => False end /\
  match mp_from_slice (x32 true) no_floats 80 (any DeserializeError) huge with Done _ r => r = Err UnexpectedEof | _ => False end.
Proof.
  split; [split; [repeat (apply Forall_cons; [unfold is_byte; lia|]); apply Forall_nil|unfold zlen; cbn; lia]|].
  split; [exact I|]. split; vm_compute; reflexivity.
Qed.
Example C54_case_struct : wf pt_ty /\ no_huge_lengths pt_bytes /\
  match mp_from_slice (x32 true) no_floats 100 (denote DeserializeError pt_ty) pt_bytes with
  | Done _ r => r = Ok (USeq [UInt 7; UNone], zlen pt_bytes) | _ => False end.
Proof.
  split; [|split; [|vm_compute; reflexivity]].
  - shown.
  - intros a c h z n E Hc. exfalso. assert (H : In c pt_bytes) by (rewrite E; apply in_or_app; right; left; reflexivity).
    cbn in H, Hc. lia.
Qed.

(** Different values are written differently (C70). *)
From Verif Require Import Prelude PreludeFacts Utf8Spec SerdeSer SerdeDe Arch MpSpec MpSer MpErrMap MpSerFacts ContentFacts MpDe MpDeTop FloatOps Types MpTypeSpec
  MpTypedTop MpUnique.
Ltac Zify.zify_post_hook ::= Z.div_mod_to_equations.
From Verif Require Import JsonSpec JsonTypeSpec JsonSer JsonErrMap JsonDe JsonCases.

Theorem outputs_prefix_code cfg fl x out cfg' fl' x' k : sval_ok x -> 2 ^ 32 - 1 <= cfg_usize_max cfg -> sval_ok x' -> 2 ^ 32 - 1 <= cfg_usize_max cfg' ->
  mp_to_vec cfg fl x = Ok out -> mp_to_vec cfg' fl' x' = Ok (out ++ k) -> k = [] /\ mp_doc (style_of fl) x = mp_doc (style_of fl') x'.
Proof.
  intros H C H' C' E E'. destruct (to_vec_ok_documented cfg fl x out H C E) as (m & D & F). destruct (to_vec_ok_documented cfg' fl' x' _ H' C' E') as (m' & D' & F').
  destruct (prefix_code m m' out k F F') as [-> ->]. split; congruence.
Qed.

Theorem typed_prefix_code cfg fl cfg' fl' t v v' out k : 2 ^ 32 - 1 <= cfg_usize_max cfg -> 2 ^ 32 - 1 <= cfg_usize_max cfg' -> wf t -> hastype t v -> hastype t v' ->
  mp_to_vec cfg fl (trace t v) = Ok out -> mp_to_vec cfg' fl' (trace t v') = Ok (out ++ k) -> k = [] /\ collapse nullish t v = collapse nullish t v'.
Proof.
  intros C C' W H H' E E'. pose proof (typed_sval_ok t W v H) as S1. pose proof (typed_sval_ok t W v' H') as S2.
  destruct (outputs_prefix_code _ _ _ _ _ _ _ _ S1 C S2 C' E E') as [-> _]. split; [auto|]. rewrite app_nil_r in E'.
  set (ar := {| usize_max := 2 ^ 32 + 2 * zlen out; overflow_checks := true |}).
  assert (A : arch32up ar) by (unfold arch32up, ar, zlen; cbn [usize_max]; lia).
  assert (Sl : slice_of ar (out ++ [])).
  { rewrite app_nil_r. split; [|unfold ar, zlen; cbn [usize_max]; lia]. destruct (to_vec_ok_documented cfg fl _ out S1 C E) as (m & _ & F). apply (proj1 fmt_bytes m out F). }
  set (fo := {| f32_to_f64 := fun z => z; f64_to_f32 := fun z => z; int_to_f32 := fun z => z; int_to_f64 := fun z => z |}).
  destruct (typed_round_trip ar fo A cfg fl t v out [] W H E Sl) as [N1 H1]. destruct (typed_round_trip ar fo A cfg' fl' t v' out [] W H' E' Sl) as [N2 H2].
  destruct (H1 (N1 + N2)%nat ltac:(lia)) as [s1 E1], (H2 (N1 + N2)%nat ltac:(lia)) as [s2 E2]. rewrite E1 in E2. congruence.
Qed.

Theorem json_injective fl fp enc dec t v v' out : law32 fl fp -> law64 fl fp -> printer_ok fp -> In (enc, dec) flavours ->
  wf t -> no_newtype_keys t -> hastype t v -> hastype t v' ->
  js_to_string fp enc (trace t v) = Ok out -> js_to_string fp enc (trace t v') = Ok out -> json_image t v = json_image t v'.
Proof.
  intros L32 L64 P F W K H H' E E'. set (ar := {| usize_max := 3 * zlen out; overflow_checks := true |}).
  assert (Z : dec = Base64Decoder -> 3 * zlen ([] ++ out ++ []) <= usize_max ar) by (intros _; rewrite app_nil_r; cbn; lia).
  destruct (round_trip_image ar fl fp false enc dec t v out [] [] L32 L64 P F W H K E (Forall_nil _) (Forall_nil _) Z) as [N1 H1].
  destruct (round_trip_image ar fl fp false enc dec t v' out [] [] L32 L64 P F W H' K E' (Forall_nil _) (Forall_nil _) Z) as [N2 H2].
  destruct (H1 (N1 + N2)%nat ltac:(lia)) as [s1 E1], (H2 (N1 + N2)%nat ltac:(lia)) as [s2 E2]. rewrite E1 in E2. congruence.
Qed.
Theorem json_no_prefix_code : exists fp enc v v' out k, hastype (TInt U8) v /\ hastype (TInt U8) v' /\ k <> [] /\
  js_to_string fp enc (trace (TInt U8) v) = Ok out /\ js_to_string fp enc (trace (TInt U8) v') = Ok (out ++ k).
Proof.
  exists bits_fp, ArrayByteEncoder, (UInt 1), (UInt 12), [49], [50]. split; [split; cbn; lia|]. split; [split; cbn; lia|]. split; [discriminate|]. split; vm_compute; reflexivity.
Qed.

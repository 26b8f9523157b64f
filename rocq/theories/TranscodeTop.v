(** Typed values through a program that turns JSON into MessagePack (C73). *)
From Verif Require Import Prelude PreludeFacts Utf8Spec SerdeSer SerdeDe FloatOps Arch MpSpec MpSer MpSerFacts MpSerProofs MpDe MpDeTop MpErrMap Types TypesFacts
  MpTypeSpec MpTypedTop ContentFacts Base64Spec JsonSpec JsonTypeSpec JsonSer JsonErrMap JsonTypedSer JsonDe JsonAnySpec Transcode TranscodeSpec TranscodeFacts TranscodeTyped MpUnique MpFaultSpec.
From Verif Require MpBlameTop.

Local Notation prog t := (denote DeserializeError t).

Theorem shortest_read ar fo t v m b tail : arch32up ar -> wf t -> hastype t v -> mp_doc SNameMap (trace t v) = Some m ->
  mp_fmt m b -> (forall b', mp_fmt m b' -> (length b <= length b')%nat) -> slice_of ar (b ++ tail) ->
  exists N, forall fuel, (N <= fuel)%nat -> exists s, mp_from_slice ar fo fuel (prog t) (b ++ tail) = Done s (Ok (collapse nullish t v, zlen b)).
Proof.
  intros A W H E F M Sl. apply (typed_accepts ar fo A t _ b tail W); [|exact Sl].
  exact (proj1 (all_read fo t W v H m b E (conj F M))).
Qed.

Theorem json_to_typed ar fo fl (any_f32 : bool) dec cfg fp enc t v out w1 w2 fv tail : let float_of := if any_f32 then f32_from_str fl else f64_from_str fl in
  arch32up ar -> wf t -> hastype t v -> json_native (trace t v) ->
  all_floats (fun b => finite32 b /\ number_as any_f32 float_of (UF32 b) (format_f32 fp b)) (fun b => finite64 b /\ number_as any_f32 float_of (UF64 b) (format_f64 fp b)) (trace t v) ->
  2 ^ 32 - 1 <= cfg_usize_max cfg -> enc <> PassThroughByteEncoder -> printer_ok fp ->
  js_to_string fp enc (trace t v) = Ok out -> any_ws w1 -> any_ws w2 ->
  (dec = Base64Decoder -> 3 * zlen (w1 ++ out ++ w2) <= usize_max ar) ->
  exists w b, mp_to_vec cfg fv (value_trace w) = Ok b /\
    (exists N, forall fuel, (N <= fuel)%nat -> exists s, js_from_mut_slice ar fl any_f32 dec fuel (any JDeserializeError) (w1 ++ out ++ w2) = Done s (Ok w)) /\
    (slice_of ar (b ++ tail) ->
     exists N, forall fuel, (N <= fuel)%nat -> exists s, mp_from_slice ar fo fuel (prog t) (b ++ tail) = Done s (Ok (collapse nullish t v, zlen b))).
Proof.
  intros float_of A W H Nt F C Ne P J W1 W2 R. destruct (typed_strings t W v H) as [St Mt]. pose proof (typed_sval_ok t W v H) as O.
  destruct (typed_succeeds fo cfg StructMapStr t v W H ltac:(left; discriminate)) as [b0 E0].
  destruct (json_to_msgpack ar fl any_f32 dec cfg fp enc (trace t v) b0 out w1 w2 O St Mt Nt F C Ne P E0 J W1 W2 R) as (w & HB & HR).
  destruct (HB fv) as (b & m & Eb & Fb0 & Fb & L). exists w, b. split; [exact Eb|]. split; [exact HR|]. intros Sl.
  pose proof (to_vec_documented cfg StructMapStr (trace t v) O C) as D. cbn [style_of] in D.
  destruct (mp_doc SNameMap (trace t v)) as [m'|] eqn:Em; [|destruct D as [e D]; congruence]. destruct D as (b1 & D0 & Fm & Sh). assert (b1 = b0) by congruence. subst b1.
  assert (m' = m) by (rewrite <- (app_nil_r b0) in Fm; symmetry; exact (proj1 (prefix_code m m' b0 [] Fb0 Fm))). subst m'. eapply shortest_read; eauto. intros b' Hb'. rewrite L. auto.
Qed.

Theorem long_header ar fo vs l b tail : arch32up ar -> wf (TEnum vs) -> mp_fmt (VMap l) b -> (forall x, b <> 0x81 :: x) -> slice_of ar (b ++ tail) ->
  exists N, forall fuel, (N <= fuel)%nat -> exists s, mp_from_slice ar fo fuel (prog (TEnum vs)) (b ++ tail) = Done s (Err ExpectedIdentifier).
Proof.
  intros A W F Nb Sl. destruct (MpBlameTop.family_right _ _ F) as (c & r & -> & Fc). cbn [family_of_value] in Fc.
  change ((c :: r) ++ tail) with ([c] ++ (r ++ tail)). apply (MpBlameTop.fault_named ar fo A); [exact W| |exact Sl].
  apply X_kind.
  - destruct Sl as [Sl _]. inversion Sl. assumption.
  - cbn [refuses]. unfold ident_start. rewrite Fc. destruct (c =? 0x81) eqn:E; [|reflexivity]. apply Z.eqb_eq in E. subst. destruct (Nb r). reflexivity.
Qed.

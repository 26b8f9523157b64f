(** Decoding never returns more than a constant per byte read (C62). *)
From Verif Require Import Prelude PreludeFacts SerdeSer SerdeDe FloatOps MpSpec MpDe MpDeTop Types MpTypeSpec MpSound SizeSpec MpSize.
From Verif Require Import Base64Spec JsonSpec JsonTypeSpec JsonDe JsonAnySpec JsonSize.
From Verif Require MpAnySound JsonSoundTop JsonAny.

Theorem mp_typed_size ar fo fuel t input s v n : arch64 ar -> wf t -> slice64 input ->
  mp_from_slice ar fo fuel (denote DeserializeError t) input = Done s (Ok (v, n)) ->
  Z.of_nat (val_size v) <= Z.of_nat (per_byte t) * n /\ 1 <= n <= zlen input.
Proof.
  intros A W S E. destruct (typed_sound ar fo A _ _ _ _ _ _ W S E) as (bs & tail & -> & <- & H).
  pose proof (adm_size _ _ _ _ H). pose proof (adm_len _ _ _ _ H). unfold zlen in *. rewrite app_length. lia.
Qed.
Theorem mp_any_size ar fo fuel input s v n : arch32up ar -> slice_of ar input ->
  mp_from_slice ar fo fuel (any DeserializeError) input = Done s (Ok (v, n)) ->
  Z.of_nat (val_size v) <= n <= zlen input.
Proof.
  intros A S E. destruct (MpAnySound.any_sound_top ar fo _ _ _ _ _ A S E) as (m & bs & tail & -> & <- & H & H').
  pose proof (proj1 denotes_size _ _ H _ H'). unfold zlen in *. rewrite app_length. lia.
Qed.
Theorem js_typed_size ar fl any_f32 dec fuel t input s v :
  f32_from_str fl [] = None -> f64_from_str fl [] = None ->
  wf t -> all_bytes input -> (dec = Base64Decoder -> 3 * zlen input <= usize_max ar) ->
  js_from_mut_slice ar fl any_f32 dec fuel (denote JDeserializeError t) input = Done s (Ok v) ->
  Z.of_nat (val_size v) <= Z.of_nat (per_byte t) * zlen input.
Proof.
  intros F1 F2 W B R E.
  destruct (proj1 (JsonSoundTop.decoding_exact ar fl any_f32 dec t v input F1 F2 W B R) (ex_intro _ _ (ex_intro _ _ E))) as (d & w1 & text & w2 & -> & _ & _ & T & H).
  apply reads_size in H; [|intros raw x Hx; destruct dec; [exact (body_len _ _ _ Hx)|exact (hex_len _ _ Hx)|exact (base64_len _ _ Hx)]].
  apply least_text in T. unfold zlen. rewrite !app_length. nia.
Qed.
Theorem js_any_size ar fl any_f32 dec fuel input s v :
  all_bytes input -> (dec = Base64Decoder -> 3 * zlen input <= usize_max ar) ->
  js_from_mut_slice ar fl any_f32 dec fuel (any JDeserializeError) input = Done s (Ok v) ->
  Z.of_nat (val_size v) <= zlen input.
Proof.
  intros B R E.
  destruct (proj1 (JsonAny.self_describing_exact ar fl any_f32 dec v input B R) (ex_intro _ _ (ex_intro _ _ E))) as (d & w1 & text & w2 & -> & _ & _ & T & H).
  apply any_size in H. apply least_text in T. unfold zlen. rewrite !app_length. lia.
Qed.

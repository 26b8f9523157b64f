(** Exactly which texts JSON decoding accepts (C46, C51, C47). *)
From Verif Require Import Prelude PreludeFacts Utf8 Utf8Spec SerdeDe SerdeSer MpSpec Base64Spec
  JsonSpec JsonTypeSpec JsonDe JsonDeSafe JsonView JsonTok JsonMeth JsonEats JsonTyped
  Types TypesFacts MpTypeSpec JsonSound JsonTypedTop.

Local Notation prog t := (denote JDeserializeError t).

Section Top.
Context (ar : arch) (fl : float_parser) (any_f32 : bool) (dec : byte_decoder).

Lemma sound_top p (P : val -> jv -> Prop) fuel input s v :
  sde ar fl any_f32 dec p P -> all_bytes input -> (dec = Base64Decoder -> 3 * zlen input <= usize_max ar) ->
  js_from_mut_slice ar fl any_f32 dec fuel p input = Done s (Ok v) ->
  exists d w1 text w2, input = w1 ++ text ++ w2 /\ any_ws w1 /\ any_ws w2 /\ loose_text d text /\ P v d.
Proof.
  intros H B R E.
  unfold js_from_mut_slice, dbind in E. destruct (jr_de _ _ _ _) as [s0 [u|e]| |] eqn:E0; try discriminate.
  destruct (end_spec ar fl any_f32 dec fuel p input s0 u R E0) as (Hb & Hnb).
  assert (K : blank (unparsed s0) /\ u = v).
  { assert (D : {blank (unparsed s0)} + {~ blank (unparsed s0)}).
    { apply Forall_dec. intros c. unfold is_ws. destruct (Z.eq_dec c 32), (Z.eq_dec c 9), (Z.eq_dec c 10), (Z.eq_dec c 13); (left; tauto) || (right; tauto). }
    destruct D as [D|D].
    - split; auto. specialize (Hb D). unfold js_from_mut_slice, dbind in Hb. rewrite E0 in Hb. congruence.
    - destruct (Hnb D) as (s' & X). unfold js_from_mut_slice, dbind in X. rewrite E0 in X. congruence. }
  destruct K as (K & ->).
  destruct (H fuel (j_from_mut_slice input) s0 v) as (bs & H1 & _ & w & d & b & -> & Hw & Ht & Hp); auto.
  - split; [cbn; lia|]. exact R.
  - exists d, w, b, (unparsed s0). change (unparsed (j_from_mut_slice input)) with input in H1. rewrite <- app_assoc in H1. auto.
Qed.

Local Notation reads := (reads_as any_ws (f32_from_str fl) (f64_from_str fl) (bytes_of dec)).
Theorem from_slice_exact t v input : f32_from_str fl [] = None -> f64_from_str fl [] = None ->
  wf t -> all_bytes input -> (dec = Base64Decoder -> 3 * zlen input <= usize_max ar) ->
  ((exists fuel s, js_from_mut_slice ar fl any_f32 dec fuel (prog t) input = Done s (Ok v)) <->
   (exists d w1 text w2, input = w1 ++ text ++ w2 /\ any_ws w1 /\ any_ws w2 /\ loose_text d text /\ reads t v d)).
Proof.
  intros F1 F2 W B R. split.
  - intros (fuel & s & E). eapply sound_top; eauto. apply denote_sound; auto.
  - intros (d & w1 & text & w2 & -> & W1 & W2 & T & H).
    destruct (from_slice_reads ar fl any_f32 dec any_ws (fun w H => H) t v d text w1 w2 W H T W1 W2 R) as [N HN].
    destruct (HN N (le_n N)) as [s E]. eauto.
Qed.

Theorem skip_exact input : all_bytes input -> (dec = Base64Decoder -> 3 * zlen input <= usize_max ar) ->
  ((exists fuel s, js_from_mut_slice ar fl any_f32 dec fuel ignored input = Done s (Ok UUnit)) <->
   (exists d w1 text w2, input = w1 ++ text ++ w2 /\ any_ws w1 /\ any_ws w2 /\ loose_text d text /\ skippable d)).
Proof.
  intros B R. split.
  - intros (fuel & s & E). eapply (sound_top ignored skip_text); eauto. apply sde_ignored.
  - intros (d & w1 & text & w2 & -> & W1 & W2 & T & H).
    destruct (accepts_top ar fl any_f32 dec ignored d UUnit text w1 w2) as [N HN]; auto.
    { apply ignored_accepts. auto. }
    destruct (HN N (le_n N)) as [s E]. eauto.
Qed.

(** C47: whatever the value type, a map with newtype keys can only be read empty. *)
Theorem newtype_keys_only_empty k t fuel input s v : f32_from_str fl [] = None -> f64_from_str fl [] = None ->
  wf (TMap (TNewtype k) t) -> all_bytes input -> (dec = Base64Decoder -> 3 * zlen input <= usize_max ar) ->
  js_from_mut_slice ar fl any_f32 dec fuel (prog (TMap (TNewtype k) t)) input = Done s (Ok v) ->
  v = UMap [] /\ exists w1 w2 w3, input = w1 ++ [123] ++ w2 ++ [125] ++ w3 /\ any_ws w1 /\ any_ws w2 /\ any_ws w3.
Proof.
  intros F1 F2 W B R E.
  apply (sound_top _ (reads (TMap (TNewtype k) t))) in E; auto; [|apply denote_sound; auto].
  destruct E as (d & w1 & text & w2 & -> & W1 & W2 & T & H). destruct v; try contradiction.
  destruct H as (ms & -> & H). destruct H as [|e m l ms [Hk _] _]; [|destruct Hk].
  split; auto. inversion T as [| | | | | | |w Hw|l b Hm]; subst.
  - exists w1, w, w2. cbn. rewrite <- app_assoc. auto.
  - inversion Hm.
Qed.
End Top.

Theorem decoding_exact ar fl any_f32 dec t v input : f32_from_str fl [] = None -> f64_from_str fl [] = None ->
  wf t -> all_bytes input -> (dec = Base64Decoder -> 3 * zlen input <= usize_max ar) ->
  ((exists fuel s, js_from_mut_slice ar fl any_f32 dec fuel (prog t) input = Done s (Ok v)) <->
   (exists d w1 text w2, input = w1 ++ text ++ w2 /\ any_ws w1 /\ any_ws w2 /\ loose_text d text /\
      reads_as any_ws (f32_from_str fl) (f64_from_str fl)
        (match dec with NopeDecoder => bytes_as_string | HexDecoder => hex_bytes | Base64Decoder => bytes_as_base64 end) t v d)).
Proof.
  replace (match dec with NopeDecoder => bytes_as_string | HexDecoder => hex_bytes | Base64Decoder => bytes_as_base64 end)
    with (bytes_of dec); [apply from_slice_exact|]. destruct dec; reflexivity.
Qed.

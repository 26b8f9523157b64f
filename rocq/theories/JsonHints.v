(** No size hints in JSON (C61). *)
From Verif Require Import Prelude PreludeFacts SerdeSer SerdeDe Types TypesFacts HintSpec.
From Verif Require Import Utf8Spec JsonSpec JsonTypeSpec JsonDe JsonView JsonEats JsonTyped JsonTypedTop.

Section Json.
Context (ar : arch) (fl : float_parser) (any_f32 : bool) (dec : byte_decoder).
Local Notation accepts := (accepts ar fl any_f32 dec).
Local Notation kaccepts := (kaccepts ar fl any_f32 dec).
Local Notation feeds := (feeds ar fl any_f32 dec).
Local Notation feedm := (feedm ar fl any_f32 dec).
Local Notation den := (denote JDeserializeError).

Lemma watch_feeds seed l ds : Forall2 (fun v d => accepts seed d v) l ds -> forall acc, feeds (watch seed acc) ds (USeq (rev acc ++ uncounted l)).
Proof.
  induction 1 as [|v d l ds Hv _ IH]; intros acc; rewrite (sfrob_eq (watch _ _)); cbn [sfrob watch]; apply FS_hint.
  - apply FS_end. apply FS_ret.
  - eapply FS_next; [exact Hv|]. specialize (IH (USeq [UNone; v] :: acc)). cbn [rev] in IH. rewrite <- app_assoc in IH. exact IH.
Qed.
Lemma watch_feedm kseed vseed l ms : Forall2 (fun e m => kaccepts kseed (fst m) (fst e) /\ accepts vseed (snd m) (snd e)) l ms ->
  forall acc, feedm (watch_map kseed vseed acc) ms (USeq (rev acc ++ uncounted_map l)).
Proof.
  induction 1 as [|[x y] [raw d] l ms [Hk Hv] _ IH]; intros acc; rewrite (mfrob_eq (watch_map _ _ _)); cbn [mfrob watch_map]; apply FM_hint.
  - apply FM_end. apply FM_ret.
  - eapply FM_nexth; [exact Hk|reflexivity|reflexivity|exact Hv|]. specialize (IH (USeq [UNone; x; UNone; y] :: acc)). cbn [rev] in IH. rewrite <- app_assoc in IH. exact IH.
Qed.

Context (key_ws : bytes -> Prop) (Hkw : forall w, key_ws w -> any_ws w).
Local Notation reads := (reads_as key_ws (f32_from_str fl) (f64_from_str fl) (bytes_of dec)).
Theorem seq_hints t l d text w1 w2 : wf t -> reads (TSeq t) (USeq l) d -> loose_text d text -> any_ws w1 -> any_ws w2 ->
  (dec = Base64Decoder -> 3 * zlen (w1 ++ text ++ w2) <= usize_max ar) ->
  exists N, forall fuel, (N <= fuel)%nat -> exists s,
    js_from_mut_slice ar fl any_f32 dec fuel (request DSeq (v_seq JDeserializeError (watch (den t) []))) (w1 ++ text ++ w2) = Done s (Ok (USeq (uncounted l))).
Proof.
  intros W (ds & -> & H). apply accepts_top. apply (proj1 (accepts_req ar fl any_f32 dec _ _ _ _)); intros tx w r Hb Hw Hr; cbn [js_method].
  apply (seq_eats ar fl any_f32 dec _ ds); auto. apply (watch_feeds (den t) l ds) with (acc := []).
  clear - H W Hkw. induction H as [|v d l ds H _ IH]; constructor; [apply (typed_accepts ar fl any_f32 dec key_ws); auto|exact IH].
Qed.
Theorem map_hints kt vt l d text w1 w2 : wf kt -> wf vt -> reads (TMap kt vt) (UMap l) d -> loose_text d text -> any_ws w1 -> any_ws w2 ->
  (dec = Base64Decoder -> 3 * zlen (w1 ++ text ++ w2) <= usize_max ar) ->
  exists N, forall fuel, (N <= fuel)%nat -> exists s,
    js_from_mut_slice ar fl any_f32 dec fuel (request DMap (v_map JDeserializeError (watch_map (den kt) (den vt) []))) (w1 ++ text ++ w2) = Done s (Ok (USeq (uncounted_map l))).
Proof.
  intros Wk Wv (ms & -> & H). apply accepts_top. apply (proj1 (accepts_req ar fl any_f32 dec _ _ _ _)); intros tx w r Hb Hw Hr; cbn [js_method].
  apply (map_eats ar fl any_f32 dec _ ms); auto. apply (watch_feedm (den kt) (den vt) l ms) with (acc := []).
  clear - H Wk Wv Hkw. induction H as [|[x y] [raw d] l ms [H1 H2] _ IH]; constructor; [|auto].
  split; [apply (key_reads ar fl any_f32 dec key_ws); auto|apply (typed_accepts ar fl any_f32 dec key_ws); auto].
Qed.

Lemma hint_eq k f input :
  js_from_mut_slice ar fl any_f32 dec (S (S f)) (request DSeq (v_seq JDeserializeError (SHint k))) input =
  js_from_mut_slice ar fl any_f32 dec (S f) (request DSeq (v_seq JDeserializeError (k None))) input.
Proof. reflexivity. Qed.
Lemma map_hint_eq k f input :
  js_from_mut_slice ar fl any_f32 dec (S (S f)) (request DMap (v_map JDeserializeError (MHint k))) input =
  js_from_mut_slice ar fl any_f32 dec (S f) (request DMap (v_map JDeserializeError (k None))) input.
Proof. reflexivity. Qed.
End Json.

(** The same with the readings of byte strings spelled out. *)
Lemma seq_hints_raw ar fl any_f32 dec t l d text w1 w2 : wf t ->
  reads_as no_ws (f32_from_str fl) (f64_from_str fl)
    (match dec with NopeDecoder => bytes_as_string | HexDecoder => hex_bytes | Base64Decoder => bytes_as_base64 end) (TSeq t) (USeq l) d ->
  raw_text d text -> any_ws w1 -> any_ws w2 ->
  (dec = Base64Decoder -> 3 * zlen (w1 ++ text ++ w2) <= usize_max ar) ->
  exists N, forall fuel, (N <= fuel)%nat -> exists s,
    js_from_mut_slice ar fl any_f32 dec fuel (request DSeq (v_seq JDeserializeError (watch (denote JDeserializeError t) []))) (w1 ++ text ++ w2)
    = Done s (Ok (USeq (uncounted l))).
Proof.
  intros W H T. apply (seq_hints ar fl any_f32 dec no_ws) with (d := d); auto; [intros w ->; constructor| |apply raw_loose; auto].
  destruct dec; exact H.
Qed.
Lemma map_hints_raw ar fl any_f32 dec kt vt l d text w1 w2 : wf kt -> wf vt ->
  reads_as no_ws (f32_from_str fl) (f64_from_str fl)
    (match dec with NopeDecoder => bytes_as_string | HexDecoder => hex_bytes | Base64Decoder => bytes_as_base64 end) (TMap kt vt) (UMap l) d ->
  raw_text d text -> any_ws w1 -> any_ws w2 ->
  (dec = Base64Decoder -> 3 * zlen (w1 ++ text ++ w2) <= usize_max ar) ->
  exists N, forall fuel, (N <= fuel)%nat -> exists s,
    js_from_mut_slice ar fl any_f32 dec fuel (request DMap (v_map JDeserializeError (watch_map (denote JDeserializeError kt) (denote JDeserializeError vt) []))) (w1 ++ text ++ w2)
    = Done s (Ok (USeq (uncounted_map l))).
Proof.
  intros Wk Wv H T. apply (map_hints ar fl any_f32 dec no_ws) with (d := d); auto; [intros w ->; constructor| |apply raw_loose; auto].
  destruct dec; exact H.
Qed.

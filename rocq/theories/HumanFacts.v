(** Types with two forms: both sides of a format choose the same one. *)
From Verif Require Import Prelude PreludeFacts Utf8 Utf8Spec Utf8Facts SerdeDe SerdeSer MpSpec Base64Spec MpSer MpDe MpDeView MpDeReads MpDeSafe MpDeTop MpTypedSer
  JsonSpec JsonTypeSpec JsonFacts JsonSer JsonErrMap JsonDe JsonDeSafe JsonStr JsonView JsonTok JsonMeth JsonEats Types TypesFacts MpTypeSpec MpTyped MpTypedTop
  JsonTyped JsonTypedTop JsonTypedSer JsonCases HumanReadable.

Section Mp.
Context (ar : arch) (fo : float_ops) (A32 : arch32up ar).
Local Notation frm h c := (forms DeserializeError h c).

Lemma forms_rde h c bs r : rde ar fo (denote DeserializeError c) bs r -> rde ar fo (frm h c) bs r.
Proof. intros H. apply ev_S. exact H. Qed.
Lemma forms_seq_rde h c l bs : wf c -> adm fo (TSeq c) (USeq l) bs -> rde ar fo (forms_seq DeserializeError h c) bs (Ok (USeq l)).
Proof.
  intros W (hd & b & -> & Hh & Hb). apply rde_request. eapply rme_seq; [cbn; auto|eauto|]. cbn.
  apply rsq_hint. apply (rsq_loop ar fo _ (adm fo c) l); auto. intros v x _ Hx. apply forms_rde. apply denote_reads; auto.
Qed.
Lemma seq_trace_compact h c xs : forms_seq_trace mp_human_readable h c xs = trace (TSeq c) (USeq (map snd xs)).
Proof. unfold forms_seq_trace, form_trace. cbn. unfold zlen. rewrite map_length, map_map. reflexivity. Qed.

Theorem mp_forms cfg fl h c x out tail : wf c -> hastype c (snd x) ->
  mp_to_vec cfg fl (form_trace mp_human_readable h c x) = Ok out -> slice_of ar (out ++ tail) ->
  exists N, forall fuel, (N <= fuel)%nat ->
    exists s, mp_from_slice ar fo fuel (frm h c) (out ++ tail) = Done s (Ok (collapse nullish c (snd x), zlen out)).
Proof.
  intros W H E Hs. destruct (typed_output fo cfg fl c (snd x) W H) as [(out' & E' & Ha & _)|(e & E')]; cbn in E; [|congruence].
  assert (out' = out) by congruence. subst out'.
  destruct (forms_rde h c out _ (denote_reads ar fo c W _ _ Ha)) as [N HN]. exists N. intros fuel Hf. eapply MpDeTop.from_slice_reads; eauto.
Qed.
Theorem mp_forms_seq cfg fl h c xs out tail : wf c -> Forall (fun x => hastype c (snd x)) xs -> zlen xs < 2 ^ 32 ->
  mp_to_vec cfg fl (forms_seq_trace mp_human_readable h c xs) = Ok out -> slice_of ar (out ++ tail) ->
  exists N, forall fuel, (N <= fuel)%nat ->
    exists s, mp_from_slice ar fo fuel (forms_seq DeserializeError h c) (out ++ tail)
      = Done s (Ok (USeq (map (fun x => collapse nullish c (snd x)) xs), zlen out)).
Proof.
  intros W H L E Hs. rewrite seq_trace_compact in E.
  assert (T : hastype (TSeq c) (USeq (map snd xs))).
  { split; [|unfold short, zlen in *; rewrite map_length; lia]. clear - H. induction H; constructor; auto. }
  destruct (typed_output fo cfg fl (TSeq c) _ W T) as [(out' & E' & Ha & _)|(e & E')]; [|congruence].
  assert (out' = out) by congruence. subst out'. cbn [collapse] in Ha. rewrite map_map in Ha.
  destruct (forms_seq_rde h c _ out W Ha) as [N HN]. exists N. intros fuel Hf. eapply MpDeTop.from_slice_reads; eauto.
Qed.
End Mp.

Section Js.
Context (ar : arch) (fl : float_parser) (fp : float_printer) (any_f32 : bool) (enc : byte_encoder) (dec : byte_decoder).
Local Notation frm h c := (forms JDeserializeError h c).

Lemma forms_accepts h c d v : accepts ar fl any_f32 dec (denote JDeserializeError h) d v -> accepts ar fl any_f32 dec (frm h c) d v.
Proof. intros H b w k Hb Hw Hk. apply eats_S. exact (H b w k Hb Hw Hk). Qed.
Lemma forms_feeds h c l ds : Forall2 (fun v d => accepts ar fl any_f32 dec (frm h c) d v) l ds ->
  forall acc, feeds ar fl any_f32 dec (seq_loop (frm h c) acc) ds (USeq (rev acc ++ l)).
Proof.
  induction 1 as [|v d l ds Hv _ IH]; intros acc; rewrite (sfrob_eq (seq_loop _ _)); cbn [sfrob seq_loop].
  - apply FS_end. rewrite app_nil_r. apply FS_ret.
  - eapply FS_next; [exact Hv|]. specialize (IH (v :: acc)). cbn [rev] in IH. rewrite <- app_assoc in IH. exact IH.
Qed.
Lemma forms_seq_accepts h c l d : wf h -> reads_as no_ws (f32_from_str fl) (f64_from_str fl) (bytes_of dec) (TSeq h) (USeq l) d -> accepts ar fl any_f32 dec (forms_seq JDeserializeError h c) d (USeq l).
Proof.
  intros W H. destruct H as (ds & -> & H). unfold forms_seq, request. apply (proj1 (accepts_req ar fl any_f32 dec _ _ _ _)).
  intros tx w r Hb Hw Hr. cbn [js_method]. apply (seq_eats ar fl any_f32 dec _ ds); auto. cbn. apply FS_hint.
  apply (forms_feeds h c l ds) with (acc := []). clear - H W. induction H; constructor; auto. apply forms_accepts. apply (JsonTyped.typed_accepts ar fl any_f32 dec no_ws); auto; intros ? ->; constructor.
Qed.
Lemma seq_trace_human h c xs : forms_seq_trace js_human_readable h c xs = trace (TSeq h) (USeq (map fst xs)).
Proof. unfold forms_seq_trace, form_trace. cbn. unfold zlen. rewrite map_length, map_map. reflexivity. Qed.

Theorem js_forms h c x out w1 w2 : law32 fl fp -> law64 fl fp -> printer_ok fp -> In (enc, dec) flavours ->
  wf h -> hastype h (fst x) -> no_newtype_keys h ->
  js_to_string fp enc (form_trace js_human_readable h c x) = Ok out -> any_ws w1 -> any_ws w2 ->
  (dec = Base64Decoder -> 3 * zlen (w1 ++ out ++ w2) <= usize_max ar) ->
  exists N, forall fuel, (N <= fuel)%nat ->
    exists s, js_from_mut_slice ar fl any_f32 dec fuel (frm h c) (w1 ++ out ++ w2) = Done s (Ok (json_image h (fst x))).
Proof.
  intros L32 L64 P F W H K E W1 W2 R. cbn in E.
  destruct (typed_text fl fp enc dec h (fst x) out (law_inverse32 _ _ L32) (law_inverse64 _ _ L64) (flavours_match _ _ F) P W H K E) as (j & [S _] & T).
  apply (accepts_top ar fl any_f32 dec _ (tok_doc j)); auto; [|apply raw_loose, canon_raw; exact T].
  apply forms_accepts. apply (JsonTyped.typed_accepts ar fl any_f32 dec no_ws); auto; intros ? ->; constructor.
Qed.
Theorem js_forms_seq h c xs out w1 w2 : law32 fl fp -> law64 fl fp -> printer_ok fp -> In (enc, dec) flavours ->
  wf h -> Forall (fun x => hastype h (fst x)) xs -> zlen xs < 2 ^ 32 -> no_newtype_keys h ->
  js_to_string fp enc (forms_seq_trace js_human_readable h c xs) = Ok out -> any_ws w1 -> any_ws w2 ->
  (dec = Base64Decoder -> 3 * zlen (w1 ++ out ++ w2) <= usize_max ar) ->
  exists N, forall fuel, (N <= fuel)%nat ->
    exists s, js_from_mut_slice ar fl any_f32 dec fuel (forms_seq JDeserializeError h c) (w1 ++ out ++ w2)
      = Done s (Ok (USeq (map (fun x => json_image h (fst x)) xs))).
Proof.
  intros L32 L64 P F W H L K E W1 W2 R. rewrite seq_trace_human in E.
  assert (Ty : hastype (TSeq h) (USeq (map fst xs))).
  { split; [|unfold short, zlen in *; rewrite map_length; lia]. clear - H. induction H; constructor; auto. }
  destruct (typed_text fl fp enc dec (TSeq h) _ out (law_inverse32 _ _ L32) (law_inverse64 _ _ L64) (flavours_match _ _ F) P W Ty K E) as (j & [S _] & T).
  apply (accepts_top ar fl any_f32 dec _ (tok_doc j)); auto; [|apply raw_loose, canon_raw; exact T].
  cbn [json_image] in S. rewrite <- (map_map fst (json_image h)). apply forms_seq_accepts; auto.
Qed.
End Js.

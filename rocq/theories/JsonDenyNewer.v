(** Structs that refuse unknown fields, in JSON: unknown members anywhere, fields added later (C77). *)
From Verif Require Import Prelude PreludeFacts Utf8 Utf8Spec Utf8Facts SerdeDe SerdeSer MpSpec Base64Spec
  JsonSpec JsonTypeSpec JsonFacts JsonSer JsonErrMap JsonSerFacts JsonDe JsonDeSafe JsonStr JsonView JsonTok JsonMeth JsonEats JsonTyped FloatOps
  Types TypesFacts MpTypeSpec TypeSize JsonTypedTop JsonTypedSer JsonFaultSpec JsonUnamb Deny DenySpec JsonDeny.
From Verif Require MpTypedSer.

Lemma known_named names ps got ms got' : known_members names ps got ms got' -> forall m, In m ms -> exists s, literal (fst m) s /\ In s names.
Proof.
  induction 1 as [|got i n p v raw d ms got' H1 H2 H3 H4 H5 H6 IH]; intros m Hm; [destruct Hm|]. destruct Hm as [<-|Hm]; [|auto]. cbn. exists n. split; auto. eapply nth_error_In; eauto.
Qed.
Lemma literal_one raw s s' : literal raw s -> literal raw s' -> s = s'.
Proof. intros L L'. pose proof (p_str_literal raw s [] L) as E. rewrite (p_str_literal raw s' [] L') in E. congruence. Qed.
Theorem js_denying_other ar fl any_f32 dec fs fuel ms m s text w1 w2 :
  f32_from_str fl [] = None -> f64_from_str fl [] = None -> wf (TStruct fs) ->
  loose_text (JObj ms) text -> In m ms -> literal (fst m) s -> ~ In s (map name_of fs) -> any_ws w1 -> any_ws w2 ->
  (dec = Base64Decoder -> 3 * zlen (w1 ++ text ++ w2) <= usize_max ar) -> (10 * type_size (TStruct fs) + 1 + 3 * length (w1 ++ text ++ w2) <= fuel)%nat ->
  exists st e, js_from_mut_slice ar fl any_f32 dec fuel (denying JDeserializeError fs) (w1 ++ text ++ w2) = Done st (Err e).
Proof.
  intros F1 F2 W T Hm L N W1 W2 R Hf. destruct (js_denying_ends ar fl any_f32 dec fs _ fuel R Hf) as (st & [u|e] & E); [exfalso|eauto].
  assert (B : all_bytes (w1 ++ text ++ w2)).
  { apply Forall_app. split; [apply ws_bytes; auto|]. apply Forall_app. split; [apply (proj1 text_bytes _ _ T)|apply ws_bytes; auto]. }
  destruct (js_denying_sound ar fl any_f32 dec fs fuel _ st u F1 F2 W B R E) as (l & d & u1 & t' & u2 & _ & E' & U1 & U2 & T' & H).
  destruct (run_split is_ws w1 u1 _ _ W1 U1 (text_no_ws _ _ _ T) (text_no_ws _ _ _ T') E') as [_ E1].
  destruct (proj1 unambiguous _ text T d t' w2 u2 T' E1) as (<- & _); [apply stops_end; auto|apply stops_end; auto|].
  destruct H as [(ds & H & _)|(ms' & got & H & K & _)]; [discriminate H|]. injection H as <-.
  destruct (known_named _ _ _ _ _ K m Hm) as (s' & L' & I). rewrite (literal_one _ _ _ L L') in N. auto.
Qed.
Section Ser.
Context (fp : float_printer) (enc : byte_encoder).
Lemma written_member fs : forall l js i f v, doc_fields (js_value fp enc) (zip MpTypedSer.item fs l) = Some js ->
  nth_error fs i = Some f -> nth_error l i = Some v -> skipped (attr_of f) v = false -> exists j, In (name_of f, j) js.
Proof.
  induction fs as [|f0 fs IH]; intros [|v0 l] js i f v E Hf Hv Hs; try (destruct i; discriminate).
  cbn [zip] in E. unfold MpTypedSer.item at 1 in E. destruct (skipped (attr_of f0) v0) eqn:Es; cbn [doc_fields] in E.
  - destruct i as [|i]; cbn in Hf, Hv; [congruence|]. apply (IH l js i f v); auto.
  - destruct (js_value fp enc (trace (snd f0) v0)) as [j|]; [|discriminate]. cbn in E. destruct (doc_fields _ (zip MpTypedSer.item fs l)) as [js'|] eqn:Ej; [|discriminate].
    injection E as <-. destruct i as [|i]; cbn in Hf, Hv; [injection Hf as <-; eexists; left; reflexivity|].
    destruct (IH l js' i f v Ej Hf Hv Hs) as [j' Hj]. exists j'. right. exact Hj.
Qed.
Theorem js_denying_newer ar fl any_f32 dec fs gs l out fuel w1 w2 : enc <> PassThroughByteEncoder -> printer_ok fp ->
  f32_from_str fl [] = None -> f64_from_str fl [] = None -> wf (TStruct fs) -> wf (TStruct (fs ++ gs)) -> hastype (TStruct (fs ++ gs)) (USeq l) ->
  (exists i f v, (length fs <= i)%nat /\ nth_error (fs ++ gs) i = Some f /\ nth_error l i = Some v /\ skipped (attr_of f) v = false) ->
  js_to_string fp enc (trace (TStruct (fs ++ gs)) (USeq l)) = Ok out -> any_ws w1 -> any_ws w2 ->
  (dec = Base64Decoder -> 3 * zlen (w1 ++ out ++ w2) <= usize_max ar) -> (10 * type_size (TStruct fs) + 1 + 3 * length (w1 ++ out ++ w2) <= fuel)%nat ->
  exists st e, js_from_mut_slice ar fl any_f32 dec fuel (denying JDeserializeError fs) (w1 ++ out ++ w2) = Done st (Err e).
Proof.
  intros Ne P F1 F2 W W' H (i & f & v & Hi & Ef & Ev & Es) E W1 W2 R Hf. destruct (typed_strings _ W' (USeq l) H) as [S M].
  pose proof (to_string_canon fp enc (trace (TStruct (fs ++ gs)) (USeq l)) Ne P S M) as C.
  destruct (js_value fp enc (trace (TStruct (fs ++ gs)) (USeq l))) as [j|] eqn:Ej; [|destruct C as (e & C & _); congruence].
  destruct C as (out' & C & T). assert (out' = out) by congruence. subst out'. clear C.
  cbn [trace] in Ej. rewrite MpTypedSer.zip_map in Ej. fold MpTypedSer.item in Ej. cbn in Ej.
  destruct (doc_fields (js_value fp enc) (zip MpTypedSer.item (fs ++ gs) l)) as [js|] eqn:Ed; [|discriminate]. injection Ej as <-.
  destruct (written_member _ _ _ _ _ _ Ed Ef Ev Es) as [j Hj].
  apply canon_raw, raw_loose in T. cbn [tok_doc] in T.
  destruct W' as [(Hd & Hu & _) _]. rewrite map_app in Hd, Hu.
  assert (En : nth_error (map name_of fs ++ map name_of gs) i = Some (name_of f)) by (rewrite <- map_app, nth_error_map, Ef; reflexivity).
  rewrite Forall_forall in Hu.
  eapply (js_denying_other ar fl any_f32 dec fs fuel _ (esc_text (name_of f), tok_doc j) (name_of f)); eauto.
  - apply in_map_iff. exists (name_of f, j). auto.
  - apply esc_literal. apply Hu. eapply nth_error_In; eauto.
  - intros Hin. rewrite nth_error_app2 in En by (rewrite map_length; lia). apply nth_error_In in En.
    clear - Hd En Hin. induction (map name_of fs) as [|x names IH]; cbn in *; [tauto|].
    inversion Hd; subst. destruct Hin as [->|Hin]; [apply H1; apply in_or_app; auto|auto].
Qed.
End Ser.

(** Structs that refuse unknown fields, in JSON: unknown keys, and what is written (C77). *)
From Verif Require Import Prelude PreludeFacts Utf8 Utf8Spec Utf8Facts SerdeDe SerdeSer MpSpec Base64Spec
  JsonSpec JsonTypeSpec JsonFacts JsonSer JsonErrMap JsonSerFacts JsonDe JsonDeSafe JsonStr JsonView JsonTok JsonMeth JsonEats JsonTyped FloatOps
  Types TypesFacts MpTypeSpec JsonTypedTop JsonTypedSer JsonFaultSpec JsonFaultLeaf JsonFault JsonFaultTyped JsonFaultTotal JsonFaultTop Deny DenySpec JsonDeny.
From Verif Require MpTyped MpTypedSer.
Ltac Zify.zify_post_hook ::= Z.div_mod_to_equations.

(** ** Unknown keys *)
Section Unknown.
Context (ar : arch) (fl : float_parser) (any_f32 : bool) (dec : byte_decoder) (fs : list (bytes * fattr * ty)) (W : wf (TStruct fs)).
Local Notation err := JDeserializeError.
Local Notation run := (js_run ar fl any_f32 dec).
Local Notation fails m l e := (gives ar dec m l (failed e)).
Local Notation reading p := (fun f => jr_de (run f) false p).
Local Notation mreach := (mreach ar fl any_f32 dec).
Local Notation names := (map name_of fs).
Local Notation loop := (deny_loop err names (map (fun f => denote err (snd f)) fs) (map absent_val fs)).
Lemma deny_reach got first l got' first' k : takes_known (f32_from_str fl) (f64_from_str fl) dec fs got first l got' first' k ->
  mreach (loop got) first l (loop got') first' k.
Proof.
  pose proof W as [[Hd _] _]. induction 1 as [got first l|got first l i f v raw m x y got' first' k Hi Hn Hf L Hb Ht _ IH]; [apply mreach_refl|].
  rewrite (mfrob_eq (loop got)); cbn [mfrob deny_loop].
  eapply mreach_trans; [eapply mkey_item; [exact Hi|apply (ident_key ar fl any_f32 dec true names i (name_of f) raw Hd); [rewrite nth_error_map, Hf; reflexivity|exact L]]|].
  cbv beta iota. rewrite nth_error_map, Hf, Hn. cbn [option_map].
  eapply mreach_trans; [eapply mval_item; [exact Hb|apply takes_eats; [apply (field_wf fs f W (nth_error_In _ _ Hf))|exact Ht]]|]. cbv beta iota. exact IH.
Qed.
Lemma deny_member_fails l : deny_member (f32_from_str fl) (f64_from_str fl) dec fs l -> fails (reading (denying err fs)) l err.
Proof.
  intros (r & got & first & k & raw & s & m & Hb & Ht & Hi & L & N). unfold denying, request. apply (proj1 (fails_req ar fl any_f32 dec _ _ _ _)). cbn [js_method].
  unfold j_deserialize_struct. eapply gives_ws; [exact Hb|]. cbn [Z.eqb Pos.eqb].
  eapply map_fails; [apply begins_here; reflexivity|]. cbn [mk_visitor v_struct on_map visit_map].
  apply (deny_reach _ _ _ _ _ _ Ht). rewrite (mfrob_eq (loop got)); cbn [mfrob deny_loop].
  eapply mkey_bad; [exact Hi| |reflexivity]. unfold ident, request. eapply key_refused; [exact I|exact L| |reflexivity]. cbn. rewrite MpTyped.find_name_none; auto.
Qed.
End Unknown.
Theorem js_deny_member ar fl any_f32 dec fs input : wf (TStruct fs) -> all_bytes input -> (dec = Base64Decoder -> 3 * zlen input <= usize_max ar) ->
  deny_member (f32_from_str fl) (f64_from_str fl) dec fs input ->
  exists N, forall fuel, (N <= fuel)%nat -> exists s, js_from_mut_slice ar fl any_f32 dec fuel (denying JDeserializeError fs) input = Done s (Err JDeserializeError).
Proof. intros W B R H. apply top_fails; auto. apply deny_member_fails; auto. Qed.

(** ** What is written *)
Fixpoint somes (l : list (option val)) : Z := match l with [] => 0 | Some _ :: l => 1 + somes l | None :: l => somes l end.
Lemma somes_set l v : forall i, nth_error l i = Some None -> somes (set_nth l i (Some v)) = 1 + somes l.
Proof.
  induction l as [|o l IH]; intros [|i] H; cbn in *; try discriminate; [injection H as ->; reflexivity|].
  rewrite (IH i H). destruct o; lia.
Qed.
Lemma somes_none {A} (l : list A) : somes (map (fun _ => None) l) = 0.
Proof. induction l; cbn; auto. Qed.
(** Only fields fill up: with as many members as fields, none is unknown. *)
Lemma fields_somes names ps got ms got' : obj_fields names ps got ms got' -> somes got' <= somes got + zlen ms.
Proof.
  unfold zlen. induction 1 as [|got i n p v raw d ms got' H H1 H2 H3 H4 H5 IH|]; cbn [length]; [lia| |lia]. rewrite (somes_set _ _ _ H) in IH. lia.
Qed.
Lemma all_known names ps got ms got' : obj_fields names ps got ms got' -> somes got' = somes got + zlen ms -> known_members names ps got ms got'.
Proof.
  induction 1 as [got|got i n p v raw d ms got' H1 H2 H3 H4 H5 H6 IH|got raw s d ms got' H1 H2 H3 H4 IH]; unfold zlen; cbn [length]; intros E; [constructor| |].
  - econstructor; eauto. apply IH. rewrite (somes_set _ _ _ H1). unfold zlen. lia.
  - apply fields_somes in H4. unfold zlen in H4. lia.
Qed.
Section Ser.
Context (ar : arch) (fl : float_parser) (fp : float_printer) (any_f32 : bool) (enc : byte_encoder) (dec : byte_decoder).
Local Notation doc := (js_value fp enc).
Local Notation reads := (reads_as no_ws (f32_from_str fl) (f64_from_str fl) (bytes_of dec)).
Lemma somes_gfield fs : forall l js, doc_fields doc (zip MpTypedSer.item fs l) = Some js -> length fs = length l -> somes (zip gfield fs l) = zlen js.
Proof.
  induction fs as [|f fs IH]; intros [|v l] js E Hl; cbn in Hl; try discriminate; cbn [zip] in *; [injection E as <-; reflexivity|].
  unfold MpTypedSer.item at 1 in E. unfold gfield at 1. destruct (skipped (attr_of f) v); cbn [doc_fields] in E; [apply IH; auto|].
  destruct (doc (trace (snd f) v)) as [j|]; [|discriminate]. cbn in E. destruct (doc_fields doc (zip MpTypedSer.item fs l)) as [js'|] eqn:Ej; [|discriminate].
  injection E as <-. cbn [somes]. rewrite (IH l js'); auto. unfold zlen. cbn [length]. lia.
Qed.
Lemma deny_written fs l j : inverse32 fp fl -> inverse64 fp fl -> matching enc dec -> wf (TStruct fs) -> no_newtype_keys (TStruct fs) -> hastype (TStruct fs) (USeq l) ->
  doc (trace (TStruct fs) (USeq l)) = Some j -> deny_doc reads fs (zip ifield fs l) (tok_doc j).
Proof.
  intros L32 L64 Hm [Hn Hw] Hk H E. cbn [hastype no_newtype_keys] in *. cbn [trace] in E. rewrite MpTypedSer.zip_map in E. fold MpTypedSer.item in E. cbn in E.
  destruct (doc_fields doc (zip MpTypedSer.item fs l)) as [js|] eqn:Ej; [|discriminate]. injection E as <-.
  assert (Hl : length fs = length l). { apply MpTypedSer.all2_length in H. rewrite map_length in H. auto. }
  right. exists (map (fun m : bytes * jv => (esc_text (fst m), tok_doc (snd m))) js), (zip gfield fs l). split; [reflexivity|]. split; [|apply all_fields_gfield; auto].
  apply all_known; [|rewrite somes_none; unfold zlen; rewrite map_length; apply somes_gfield; auto].
  apply (fields_doc fp fl enc dec fs Hn fs [] l [] js); auto.
  clear Hn Ej Hl. revert l H Hw Hk. induction fs as [|f fs' I]; intros [|v l] H Hw Hk; cbn in *; try tauto.
  destruct Hw as [[W1 _] W2], Hk as [K1 K2], H as [H1 H2]. split; [|auto]. intros _ j Ej. apply (typed_doc fp fl enc dec L32 L64 Hm (snd f)); auto.
Qed.
Theorem js_denying_round_trip fs l out w1 w2 : inverse32 fp fl -> inverse64 fp fl -> matching enc dec -> printer_ok fp ->
  wf (TStruct fs) -> hastype (TStruct fs) (USeq l) -> no_newtype_keys (TStruct fs) ->
  js_to_string fp enc (trace (TStruct fs) (USeq l)) = Ok out -> any_ws w1 -> any_ws w2 ->
  (dec = Base64Decoder -> 3 * zlen (w1 ++ out ++ w2) <= usize_max ar) ->
  exists N, forall fuel, (N <= fuel)%nat ->
    exists s, js_from_mut_slice ar fl any_f32 dec fuel (denying JDeserializeError fs) (w1 ++ out ++ w2) = Done s (Ok (json_image (TStruct fs) (USeq l))).
Proof.
  intros L32 L64 Hm P W H Hk E W1 W2 R. destruct (typed_strings (TStruct fs) W (USeq l) H) as [S M].
  pose proof (to_string_canon fp enc (trace (TStruct fs) (USeq l)) (matching_pass enc dec Hm) P S M) as C.
  destruct (js_value fp enc (trace (TStruct fs) (USeq l))) as [j|] eqn:Ej; [|destruct C as (e & C & _); congruence].
  destruct C as (out' & C & T). assert (out' = out) by congruence. subst out'.
  pose proof (deny_written fs l j L32 L64 Hm W Hk H Ej) as D. cbn [json_image]. rewrite MpTypedSer.zip_map.
  eapply accepts_top with (d := tok_doc j); auto; [|apply raw_loose, canon_raw; exact T].
  apply (denying_takes ar fl any_f32 dec no_ws); auto. intros w ->. constructor.
Qed.
End Ser.

(** ** Without the attribute *)
Lemma known_all names ps got ms got' : known_members names ps got ms got' -> obj_fields names ps got ms got'.
Proof. induction 1; econstructor; eauto. Qed.
Theorem js_denying_weaker ar fl any_f32 dec fs fuel input s u : f32_from_str fl [] = None -> f64_from_str fl [] = None -> wf (TStruct fs) -> all_bytes input ->
  (dec = Base64Decoder -> 3 * zlen input <= usize_max ar) ->
  js_from_mut_slice ar fl any_f32 dec fuel (denying JDeserializeError fs) input = Done s (Ok u) ->
  exists N, forall fuel', (N <= fuel')%nat -> exists s', js_from_mut_slice ar fl any_f32 dec fuel' (denote JDeserializeError (TStruct fs)) input = Done s' (Ok u).
Proof.
  intros F1 F2 W B R E. destruct (js_denying_sound ar fl any_f32 dec fs fuel input s u F1 F2 W B R E) as (l & d & w1 & text & w2 & -> & -> & W1 & W2 & T & H).
  eapply (from_slice_reads ar fl any_f32 dec any_ws); eauto.
  destruct H as [H|(ms & got & H1 & H2 & H3)]; [left; exact H|]. right. exists ms, got. split; auto. split; auto. apply known_all. exact H2.
Qed.
Theorem js_denying_one_value f32_of f64_of dec fs l l' d text : wf (TStruct fs) -> loose_text d text ->
  let from l := deny_doc (reads_as any_ws f32_of f64_of (byte_literal dec)) fs l d in from l -> from l' -> l = l'.
Proof.
  intros W T from H H'. set (fl := {| f32_from_str := f32_of; f64_from_str := f64_of |}).
  set (ar := {| usize_max := 3 * zlen text; overflow_checks := true |}).
  assert (R : dec = Base64Decoder -> 3 * zlen ([] ++ text ++ []) <= usize_max ar) by (intros _; cbn [app]; rewrite app_nil_r; cbn; lia).
  destruct (js_denying_takes ar fl false dec fs l d text [] [] W H T) as [K HK]; auto; try constructor.
  destruct (js_denying_takes ar fl false dec fs l' d text [] [] W H' T) as [K' HK']; auto; try constructor.
  destruct (HK (max K K')) as [s E]; [lia|]. destruct (HK' (max K K')) as [s' E']; [lia|]. congruence.
Qed.

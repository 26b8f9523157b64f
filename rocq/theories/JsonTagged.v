(** Internally tagged enums in JSON (C66). *)
From Verif Require Import Prelude PreludeFacts Utf8Spec Utf8 Utf8Facts SerdeSer SerdeDe FloatOps Arch MpSpec Base64Spec JsonSpec JsonTypeSpec JsonFacts JsonSer JsonErrMap
  JsonSerFacts JsonDe JsonTyped Types TypesFacts MpTypeSpec MpTyped MpTypedSer JsonTypedTop JsonTypedSer JsonAnySpec JsonAny JsonReadBack Content ContentSpec ContentFacts JsonContent MpTagged.

Lemma field_keys (f : sval -> option jv) fs : forall l js, doc_fields f (zip item fs l) = Some js -> Forall (fun m => In (fst m) (map name_of fs)) js.
Proof.
  induction fs as [|x fs IH]; intros [|v l] js E; try (cbn in E; injection E as <-; constructor; fail).
  assert (X : forall js : list (bytes * jv), Forall (fun m => In (fst m) (map name_of fs)) js -> Forall (fun m => In (fst m) (map name_of (x :: fs))) js).
  { intros u H. eapply Forall_impl; [|exact H]. cbn. auto. }
  cbn [zip] in E. unfold item at 1 in E. destruct (skipped (attr_of x) v); cbn [doc_fields] in E; [apply X; eauto|].
  destruct (f (trace (snd x) v)) as [j|]; [|discriminate]. cbn in E. destruct (doc_fields f (zip item fs l)) as [js'|] eqn:Ed; [|discriminate].
  injection E as <-. constructor; [left; reflexivity|]. apply X. eauto.
Qed.

Section Top.
Local Notation with_tag tag fs := (TStruct ((tag, FPlain, TStr) :: fs)).
Context (ar : arch) (fl : float_parser) (fo : float_ops) (any_f32 : bool) (dec : byte_decoder).
Local Notation float_of := (if any_f32 then f32_from_str fl else f64_from_str fl).

Theorem js_tagged_trip fp enc tag vs i f v out w1 w2 :
  enc <> PassThroughByteEncoder -> printer_ok fp -> names_ok (map fst vs) -> nth_error vs i = Some f -> wf (with_tag tag (variant_fields f)) ->
  strict (TStruct (variant_fields f)) -> variant_hastype f v -> text_keys (enc = ArrayByteEncoder) (TStruct (variant_fields f)) ->
  all_floats (good32 fo any_f32 float_of fp) (good64 fo any_f32 float_of fp) (tagged_trace tag vs (UVar i v)) ->
  js_to_string fp enc (tagged_trace tag vs (UVar i v)) = Ok out -> any_ws w1 -> any_ws w2 ->
  (dec = Base64Decoder -> 3 * zlen (w1 ++ out ++ w2) <= usize_max ar) ->
  exists N, forall fuel, (N <= fuel)%nat ->
    exists s, js_from_mut_slice ar fl any_f32 dec fuel (tagged fo JDeserializeError tag vs) (w1 ++ out ++ w2) = Done s (Ok (UVar i v)).
Proof.
  intros Ne P Nv En W S H T F E W1 W2 R. destruct (tagged_call tag vs i f v En H) as (l & Et & Hl & Hv). rewrite Et in E, F.
  assert (Hn : hastype TStr (UStr (fst f))).
  { destruct Nv as (_ & N2 & _). rewrite Forall_forall in N2. apply (N2 (fst f)). apply in_map. eapply nth_error_In; eauto. }
  assert (Hw : hastype (with_tag tag (variant_fields f)) (USeq (UStr (fst f) :: l))) by (split; [exact Hn|exact Hl]).
  destruct (typed_strings _ W _ Hw) as [St M].
  assert (F' : all_floats (fun b => finite32 b -> exists w, number_as any_f32 float_of w (format_f32 fp b))
             (fun b => finite64 b -> exists w, number_as any_f32 float_of w (format_f64 fp b)) (trace (with_tag tag (variant_fields f)) (USeq (UStr (fst f) :: l)))).
  { revert F. apply all_floats_mono; intros b [_ (w & Nw & _)] _; exists w; exact Nw. }
  destruct (js_read_back ar fl fp any_f32 enc dec _ out w1 w2 Ne P St M F' E W1 W2 R) as (j & w & D & V & N & HN).
  exists N. intros fuel Hf. destruct (HN fuel Hf) as [s Rs]. destruct (js_from_buffered ar fl any_f32 dec fuel (tagged_pick fo tag vs) _ _ _ Rs) as [s' Rs']. exists s'. unfold tagged. rewrite Rs'. clear Rs Rs' HN Hf.
  set (fs := variant_fields f) in *.
  (* the document is the tag and the document of the fields *)
  assert (Dt : exists js, js_value fp enc (trace (TStruct fs) (USeq l)) = Some (JObj js) /\ j = JObj ((tag, JStr (fst f)) :: js) /\ Forall (fun m => In (fst m) (map name_of fs)) js).
  { unfold js_value in *. cbn [trace struct_call js_doc map zip name_of attr_of fst snd skipped] in D |- *. rewrite zip_map in D |- *. fold item in D |- *. cbn [doc_fields] in D.
    cbn [js_doc omap2] in D. match type of D with context [doc_fields ?g ?y] => fold (doc_fields g y) in D; destruct (doc_fields g y) as [js|] eqn:Ej; [|discriminate] end.
    cbn in D. injection D as <-. exists js. split; [reflexivity|]. split; [reflexivity|]. eapply field_keys. exact Ej. }
  destruct Dt as (js & Dj & -> & Kj). inversion V as [| | | | |ws ? F2]; subst. inversion F2 as [|[k x] ? ws' ? [K V1] F3]; subst. cbn [fst snd] in K, V1. subst k. inversion V1; subst.
  assert (Fl : all_floats (good32 fo any_f32 float_of fp) (good64 fo any_f32 float_of fp) (trace (TStruct fs) (USeq l))) by (destruct F as [_ F]; exact F).
  assert (Ws : wf (TStruct fs)).
  { destruct W as [(N1 & N2 & N3) [_ W]]. split; [|exact W]. cbn [map] in *. inversion N1; inversion N2; subst. repeat split; auto. unfold short, zlen in *. cbn in N3. lia. }
  assert (B : from_content fo (TStruct fs) (UMap ws') = Some (USeq l)).
  { refine (proj1 (jcontent_back fo any_f32 float_of fp enc (TStruct fs) Ws S T (USeq l) (JObj js) (UMap ws') Hl Fl Dj _)). constructor. exact F3. }
  assert (Kw : Forall (fun e => exists nm, fst e = UStr nm /\ In nm (map name_of fs)) ws').
  { clear -F3 Kj. induction F3 as [|e m ws js [E _] _ IH]; constructor; inversion Kj; subst; eauto. }
  cbn [tagged_pick]. rewrite (split_tag tag (UStr (fst f)) ws' (map name_of fs)); auto.
  2:{ destruct W as [(N1 & _) _]. inversion N1; auto. }
  cbn [snd]. destruct f as [n [fs0|]]; cbn [fst snd variant_fields] in *.
  - rewrite (by_tag_struct fo vs i n fs0 _ l (proj1 Nv) En B). reflexivity.
  - rewrite (by_tag_unit fo vs i n _ (proj1 Nv) En); eauto.
Qed.
End Top.

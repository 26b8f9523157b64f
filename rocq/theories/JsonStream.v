(** Several JSON texts one after another (C64). *)
From Verif Require Import Prelude PreludeFacts Utf8Spec Writer WriterContract SerMonad SerdeSer SerSim SerdeDe JsonSpec JsonTypeSpec JsonFacts JsonSer JsonErrMap
  JsonSerFacts JsonSerRel JsonDe JsonDeSafe JsonView JsonEats JsonTyped JsonTypedTop JsonTypedSer JsonCases Types TypesFacts MpTypeSpec MpTypedSer Stream StreamProofs StreamSpec.

Local Notation prog t := (denote JDeserializeError t).

(** ** Reading *)
Section R.
Context (ar : arch) (fl : float_parser) (any_f32 : bool) (dec : byte_decoder) (key_ws : bytes -> Prop) (Hkw : forall w, key_ws w -> any_ws w).
Local Notation reads := (reads_as key_ws (f32_from_str fl) (f64_from_str fl) (bytes_of dec)).
Lemma read_texts l input : texts reads l input -> Forall (fun m => wf (fst m)) l ->
  exists N, forall fuel, (N <= fuel)%nat -> forall s, JsonView.inside ar dec s -> unparsed s = input ->
    js_read_each ar fl any_f32 dec fuel (map fst l) s = (map snd l, Finished []).
Proof.
  induction 1 as [w Hw|w t v d text k l Hw Hr Ht Hx _ IH]; intros F; cbn [map fst snd js_read_each].
  - exists O. intros fuel _ s [I _] U. unfold j_end. rewrite (whitespace_none s); auto. rewrite U. exact Hw.
  - inversion F; subst. destruct (IH ltac:(assumption)) as [N2 HN2].
    destruct (typed_accepts ar fl any_f32 dec key_ws Hkw t ltac:(assumption) v d Hr text w k Ht Hw Hx) as [N1 HN1].
    exists (N1 + N2)%nat. intros fuel Hf s I U. destruct (HN1 fuel ltac:(lia) s I U) as (s' & E & I' & U'). rewrite E.
    rewrite (HN2 fuel ltac:(lia) s' I' U'). reflexivity.
Qed.
Theorem texts_read l input : texts reads l input -> Forall (fun m => wf (fst m)) l -> (dec = Base64Decoder -> 3 * zlen input <= usize_max ar) ->
  exists N, forall fuel, (N <= fuel)%nat -> js_read_each ar fl any_f32 dec fuel (map fst l) (j_from_mut_slice input) = (map snd l, Finished []).
Proof.
  intros T F R. destruct (read_texts l input T F) as [N HN]. exists N. intros fuel Hf. apply HN; auto. split; [cbn; lia|]. exact R.
Qed.
End R.

(** ** Writing *)
Section W.
Context {W E : Type} (SW : SerWrite W E) (inv : W -> Prop) (content : W -> bytes) (law : lawful SW inv content) (fp : float_printer) (enc : byte_encoder).
Lemma js_write_one v w w' : displays_propagate v -> inv w -> js_to_writer SW fp enc w v = (w', Ok tt) ->
  inv w' /\ exists out, js_full fp enc v = Ok out /\ content w' = content w ++ out.
Proof.
  intros D I H. split; [|eapply js_to_writer_ok_bytes; eauto].
  destruct (js_ser_sim SW inv content law fp enc v D w [] I) as (o & _ & I' & _). unfold js_to_writer in H. rewrite H in I'. exact I'.
Qed.
Lemma js_write_lines vs : Forall displays_propagate vs -> forall w w', inv w -> js_write_each SW fp enc w vs = (w', Ok tt) ->
  exists outs, Forall2 (fun v out => js_full fp enc v = Ok out) vs outs /\ content w' = content w ++ concat (map (fun o => o ++ [10]) outs).
Proof.
  induction 1 as [|v vs D _ IH]; intros w w' I H; cbn [js_write_each] in H.
  - injection H as <-. exists []. split; [constructor|]. cbn. rewrite app_nil_r. reflexivity.
  - destruct (js_to_writer SW fp enc w v) as [w1 [[]|e]] eqn:E1; [|discriminate]. destruct (js_write_one v w w1 D I E1) as (I1 & out & F1 & C1).
    pose proof (law_byte _ _ _ law 10 w1) as B. cbn beta in B. destruct (sw_write_byte SW w1 10) as [w2 [[]|e]]; [|discriminate].
    destruct (B _ _ I1 eq_refl) as [I2 C2]. destruct (IH w2 w' I2 H) as (outs & F & C). exists (out :: outs). split; [constructor; auto|].
    cbn [map concat]. rewrite C, C2, C1, !app_assoc. reflexivity.
Qed.
End W.

Section Trip.
Context (ar : arch) (fl : float_parser) (fp : float_printer) (any_f32 : bool) (enc : byte_encoder) (dec : byte_decoder).
Lemma newline_extends d k : cannot_extend d (10 :: k).
Proof. destruct d; cbn; auto. unfold is_digit. lia. Qed.
Lemma full_string v out : enc <> PassThroughByteEncoder -> js_full fp enc v = Ok out -> js_to_string fp enc v = Ok out.
Proof. unfold js_full, js_to_string. intros N. destruct (js_to_writer VecWriter fp enc [] v) as [o [u|e]]; [|discriminate]. destruct enc; congruence. Qed.
Theorem lines_trip {W E} (SW : SerWrite W E) inv content : lawful SW inv content ->
  law32 fl fp -> law64 fl fp -> printer_ok fp -> In (enc, dec) flavours ->
  forall (l : list (ty * val)) w w', Forall (fun m => wf (fst m) /\ hastype (fst m) (snd m) /\ no_newtype_keys (fst m) /\ survives (fst m) (snd m)) l ->
  inv w -> js_write_each SW fp enc w (map (fun m => trace (fst m) (snd m)) l) = (w', Ok tt) ->
  exists out, content w' = content w ++ out /\
  ((dec = Base64Decoder -> 3 * zlen out <= usize_max ar) ->
   exists N, forall fuel, (N <= fuel)%nat -> js_read_each ar fl any_f32 dec fuel (map fst l) (j_from_mut_slice out) = (map snd l, Finished [])).
Proof.
  intros L L32 L64 P Fl l w w' F I H.
  destruct (js_write_lines SW inv content L fp enc _ ltac:(rewrite Forall_map; apply Forall_forall; intros; apply trace_propagates) w w' I H) as (outs & F2 & C).
  exists (concat (map (fun o => o ++ [10]) outs)). split; [exact C|]. intros R.
  assert (Ne : enc <> PassThroughByteEncoder) by (eapply matching_pass, flavours_match; eauto).
  apply (texts_read ar fl any_f32 dec no_ws); [intros x ->; constructor| |eapply Forall_impl; [|exact F]; intros m Hm; apply Hm|exact R].
  assert (G : forall w0, any_ws w0 -> texts (reads_as no_ws (f32_from_str fl) (f64_from_str fl) (bytes_of dec)) l (w0 ++ concat (map (fun o => o ++ [10]) outs))).
  2: { apply (G []). constructor. }
  clear - F F2 L32 L64 P Fl Ne. revert outs F2. induction F as [|[t v] l (Hw & Hv & Hk & Hs) _ IH]; intros outs F2 w0 W0; inversion F2; subst; cbn [map concat fst snd] in *.
  - rewrite app_nil_r. constructor. exact W0.
  - destruct (typed_text fl fp enc dec t v y (law_inverse32 _ _ L32) (law_inverse64 _ _ L64) (flavours_match _ _ Fl) P Hw Hv Hk) as (j & [S _] & T); [apply full_string; auto|].
    rewrite <- app_assoc. econstructor; [exact W0| |apply raw_loose, canon_raw; exact T|apply newline_extends|].
    + rewrite (proj2 (image_survives t v Hv) Hs) in S. exact S.
    + apply (IH _ ltac:(eassumption) [10]). constructor; [unfold is_ws; auto|constructor].
Qed.
End Trip.

(** The same with the readings of byte strings spelled out. *)
Theorem texts_reads ar fl any_f32 dec l input :
  texts (reads_as any_ws (f32_from_str fl) (f64_from_str fl)
    (match dec with NopeDecoder => bytes_as_string | HexDecoder => hex_bytes | Base64Decoder => bytes_as_base64 end)) l input ->
  Forall (fun m => wf (fst m)) l -> (dec = Base64Decoder -> 3 * zlen input <= usize_max ar) ->
  exists N, forall fuel, (N <= fuel)%nat -> js_read_each ar fl any_f32 dec fuel (map fst l) (j_from_mut_slice input) = (map snd l, Finished []).
Proof. intros T. apply (texts_read ar fl any_f32 dec any_ws); auto. destruct dec; exact T. Qed.

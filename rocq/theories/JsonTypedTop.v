(** Typed JSON at the entry points: every text of a value is read (C40), whole values
    are skipped (C44), round trips (C39, C49). *)
From Verif Require Import Prelude PreludeFacts Utf8 Utf8Spec Utf8Facts SerdeDe SerdeSer MpSpec Base64Spec Base64Facts
  JsonSpec JsonTypeSpec JsonFacts JsonSer JsonErrMap JsonSerFacts JsonDe JsonDeSafe JsonStr JsonView JsonTok JsonMeth JsonEats JsonTyped
  Types TypesFacts MpTypeSpec MpTyped MpTypedSer.
Ltac Zify.zify_post_hook ::= Z.div_mod_to_equations.

Local Notation prog t := (denote JDeserializeError t).

Lemma blank_extend d k : blank k -> cannot_extend d k.
Proof.
  intros H. destruct d; cbn; auto. destruct H as [|c k Hc Hk]; auto. unfold is_digit. unfold is_ws in *.
  cbn in Hc. lia.
Qed.

(** RFC 8259 texts are accepted texts. *)
Lemma quoted_loose raw t : quoted raw t -> loose_key raw t.
Proof. intros [-> H]. split; auto. exists [], raw. repeat split; auto. constructor. Qed.
Lemma raw_loose :
  (forall d b, raw_text d b -> loose_text d b) /\
  (forall l b, elements any_ws quoted quoted json_number l b -> elements any_ws quoted loose_key number_run l b) /\
  (forall l b, members any_ws quoted quoted json_number l b -> members any_ws quoted loose_key number_run l b).
Proof. apply jtext_mutind; intros; constructor; auto using quoted_loose, json_number_run. Qed.

Section Top.
Context (ar : arch) (fl : float_parser) (any_f32 : bool) (dec : byte_decoder).
Lemma accepts_top {U} (p : deser U js_de_error) d u text w1 w2 :
  accepts ar fl any_f32 dec p d u -> loose_text d text -> any_ws w1 -> any_ws w2 ->
  (dec = Base64Decoder -> 3 * zlen (w1 ++ text ++ w2) <= usize_max ar) ->
  exists N, forall fuel, (N <= fuel)%nat ->
    exists s, js_from_mut_slice ar fl any_f32 dec fuel p (w1 ++ text ++ w2) = Done s (Ok u).
Proof.
  intros A T W1 W2 R. destruct (A text w1 w2 T W1 (blank_extend d w2 W2)) as [N HN]. exists N. intros fuel Hf.
  destruct (HN fuel Hf (j_from_mut_slice (w1 ++ text ++ w2))) as (s & E & I & K).
  - split; [cbn; lia|]. exact R.
  - reflexivity.
  - exists s. apply (end_spec ar fl any_f32 dec fuel p _ s u R E). rewrite K. exact W2.
Qed.

Context (key_ws : bytes -> Prop) (Hkw : forall w, key_ws w -> any_ws w).
Local Notation reads := (reads_as key_ws (f32_from_str fl) (f64_from_str fl) (bytes_of dec)).
Theorem from_slice_reads t v d text w1 w2 : wf t -> reads t v d -> loose_text d text -> any_ws w1 -> any_ws w2 ->
  (dec = Base64Decoder -> 3 * zlen (w1 ++ text ++ w2) <= usize_max ar) ->
  exists N, forall fuel, (N <= fuel)%nat ->
    exists s, js_from_mut_slice ar fl any_f32 dec fuel (prog t) (w1 ++ text ++ w2) = Done s (Ok v).
Proof. intros W H. apply accepts_top. apply (typed_accepts _ _ _ _ key_ws); auto. Qed.

(** ** Skipping *)
Lemma string_quoted pairs s t : json_string pairs s t -> exists raw, quoted raw t /\ (pairs = false -> literal raw s).
Proof.
  intros (raw & -> & V & B). exists raw. split; [split; [auto|apply (body_span _ _ _ B)]|].
  intros ->. split; auto. apply (str_body_utf8 _ _ _ B). auto.
Qed.
Lemma unread : 
  (forall d b, jtext any_ws (json_string true) (json_string false) json_number d b ->
     exists d', raw_text d' b /\ skippable d' /\ (forall k, cannot_extend d k -> cannot_extend d' k)) /\
  (forall l b, elements any_ws (json_string true) (json_string false) json_number l b ->
     exists l', elements any_ws quoted quoted json_number l' b /\ all_list skippable l') /\
  (forall l b, members any_ws (json_string true) (json_string false) json_number l b ->
     exists l', members any_ws quoted quoted json_number l' b /\
       all_list (fun m => (exists s, literal (fst m) s) /\ skippable (snd m)) l').
Proof.
  apply jtext_mutind; intros.
  - exists JNull. repeat split; auto. constructor.
  - exists (JBool true). repeat split; auto. constructor.
  - exists (JBool false). repeat split; auto. constructor.
  - exists (JNum tok). repeat split; auto; [constructor; auto|]. cbn. eapply number_head; eauto.
  - match goal with X : json_string _ _ _ |- _ => destruct (string_quoted _ _ _ X) as (raw & Q & _) end. exists (JStr raw). repeat split; auto. constructor. auto.
  - exists (JArr []). repeat split; auto. constructor. auto.
  - destruct H as (l' & H1 & H2). exists (JArr l'). repeat split; auto. constructor. auto.
  - exists (JObj []). repeat split; auto. constructor. auto.
  - destruct H as (l' & H1 & H2). exists (JObj l'). repeat split; auto. constructor. auto.
  - destruct H as (d' & H1 & H2 & _). exists [d']. split; [constructor; auto|cbn; auto].
  - destruct H as (d' & H1 & H2 & _), H0 as (l' & H3 & H4). exists (d' :: l'). split; [constructor; auto|cbn; auto].
  - destruct H as (d' & H1 & H2 & _). match goal with X : json_string _ _ _ |- _ => destruct (string_quoted _ _ _ X) as (raw & Q & L) end. exists [(raw, d')].
    split; [constructor; auto|cbn; eauto].
  - destruct H as (d' & H1 & H2 & _), H0 as (l' & H3 & H4). match goal with X : json_string _ _ _ |- _ => destruct (string_quoted _ _ _ X) as (raw & Q & L) end. exists ((raw, d') :: l').
    split; [constructor; auto|cbn; eauto].
Qed.

Theorem ignored_skips d b w k s : jtext any_ws (json_string true) (json_string false) json_number d b -> any_ws w -> cannot_extend d k ->
  (j_index s <= length (j_input s))%nat -> (dec = Base64Decoder -> 3 * zlen (j_input s) <= usize_max ar) ->
  unparsed s = w ++ b ++ k ->
  exists N, forall fuel, (N <= fuel)%nat ->
    exists s', jr_de (js_run ar fl any_f32 dec fuel) false ignored s = Done s' (Ok UUnit) /\ unparsed s' = k.
Proof.
  intros T W X I R E. destruct (proj1 unread d b T) as (d' & T' & S & C).
  destruct (ignored_accepts ar fl any_f32 dec d' S b w k (proj1 raw_loose _ _ T') W (C k X)) as [N HN]. exists N. intros fuel Hf.
  destruct (HN fuel Hf s) as (s' & H & _ & K); eauto. split; auto.
Qed.
End Top.

(** The same with the readings of byte strings spelled out. *)
Theorem interoperability ar fl any_f32 dec t v d text w1 w2 : wf t ->
  reads_as no_ws (f32_from_str fl) (f64_from_str fl)
    (match dec with NopeDecoder => bytes_as_string | HexDecoder => hex_bytes | Base64Decoder => bytes_as_base64 end) t v d ->
  raw_text d text -> any_ws w1 -> any_ws w2 ->
  (dec = Base64Decoder -> 3 * zlen (w1 ++ text ++ w2) <= usize_max ar) ->
  exists N, forall fuel, (N <= fuel)%nat ->
    exists s, js_from_mut_slice ar fl any_f32 dec fuel (prog t) (w1 ++ text ++ w2) = Done s (Ok v).
Proof.
  intros W H T. apply (from_slice_reads ar fl any_f32 dec no_ws) with (d := d); auto; [intros w ->; constructor| |apply raw_loose; auto]. replace (bytes_of dec) with
    (match dec with NopeDecoder => bytes_as_string | HexDecoder => hex_bytes | Base64Decoder => bytes_as_base64 end); [exact H|].
  destruct dec; reflexivity.
Qed.

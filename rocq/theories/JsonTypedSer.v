(** The documents the JSON serializer writes for typed values represent these values
    (C39, C49). *)
From Verif Require Import Prelude PreludeFacts Utf8 Utf8Spec Utf8Facts SerdeDe SerdeSer MpSpec Base64Spec Base64Facts
  JsonSpec JsonTypeSpec JsonFacts JsonSer JsonErrMap JsonSerFacts JsonDe JsonDeSafe JsonStr JsonView JsonTok JsonMeth JsonEats JsonTyped
  Types TypesFacts MpTypeSpec MpTyped MpTypedSer JsonTypedTop.
Ltac Zify.zify_post_hook ::= Z.div_mod_to_equations.

(** ** The literals in a text *)
Fixpoint tok_doc (d : jv) : jv :=
  match d with
  | JStr s => JStr (esc_text s)
  | JArr l => JArr (map tok_doc l)
  | JObj l => JObj (map (fun m => (esc_text (fst m), tok_doc (snd m))) l)
  | d => d
  end.
Lemma canon_quoted s t : canon s t -> quoted (esc_text s) t.
Proof.
  intros [V ->]. split; [auto|]. apply (body_span false _ s). apply esc_text_body, valid_utf8_bytes, V.
Qed.
Lemma no_any w : no_ws w -> any_ws w.
Proof. intros ->. constructor. Qed.
Lemma canon_raw :
  (forall d b, jtext no_ws canon canon json_number d b -> raw_text (tok_doc d) b) /\
  (forall l b, elements no_ws canon canon json_number l b -> elements any_ws quoted quoted json_number (map tok_doc l) b) /\
  (forall l b, members no_ws canon canon json_number l b ->
     members any_ws quoted quoted json_number (map (fun m => (esc_text (fst m), tok_doc (snd m))) l) b).
Proof. apply jtext_mutind; intros; cbn [tok_doc map fst snd]; constructor; auto using canon_quoted, no_any. Qed.

(** ** What typed values are *)
Lemma typed_strings t : wf t -> forall v, hastype t v -> strings_ok (trace t v) /\ maps_ok (trace t v).
Proof.
  induction t as [ |k| | | | | | | |t IH|t IH|t IH|ts IH|ts IH|kt vt IHk IHv|fs IH|vs IH] using ty_ind'; intros Hw v H;
    try (destruct v; cbn [hastype] in H; try tauto; cbn; tauto).
  - destruct v; cbn [hastype] in H; try tauto; cbn; auto.
  - apply (IH Hw v H).
  - destruct v; cbn [hastype] in H; try tauto. destruct H as [H _]. cbn [trace strings_ok maps_ok].
    induction H as [|x l H _ I]; cbn; auto. destruct (IH Hw x H). cbn in I. tauto.
  - destruct v; cbn [hastype] in H; try tauto. destruct Hw as [Hw _]. cbn [trace strings_ok maps_ok].
    revert l H. induction IH as [|t ts Ht _ I]; intros [|x l] H; cbn in H; try tauto; cbn; auto.
    destruct Hw as [W1 W2], H as [H1 H2]. specialize (Ht W1 x H1). specialize (I W2 l H2). tauto.
  - destruct v; cbn [hastype] in H; try tauto. destruct Hw as [Hw _]. cbn [trace strings_ok maps_ok].
    revert l H. induction IH as [|t ts Ht _ I]; intros [|x l] H; cbn in H; try tauto; cbn; auto.
    destruct Hw as [W1 W2], H as [H1 H2]. specialize (Ht W1 x H1). specialize (I W2 l H2). tauto.
  - destruct v; cbn [hastype] in H; try tauto. destruct H as [H _], Hw as [W1 W2]. cbn [trace strings_ok maps_ok].
    induction H as [|[x y] l [H1 H2] _ I]; cbn; auto. specialize (IHk W1 _ H1). specialize (IHv W2 _ H2). cbn in IHk, IHv, I. tauto.
  - destruct v; cbn [hastype] in H; try tauto. destruct Hw as [(_ & Hn & _) Hw]. cbn [trace strings_ok maps_ok]. unfold struct_call. cbn [strings_ok maps_ok].
    revert l H. induction IH as [|f fs Hf _ I]; intros [|x l] H; cbn in H; try tauto; cbn; auto.
    destruct Hw as [[W1 _] W2], H as [H1 H2]. cbn in Hn. inversion Hn as [|? ? [N1 _] N2]; subst.
    specialize (I N2 W2 l H2). destruct (skipped (attr_of f) x); [tauto|]. specialize (Hf W1 x H1). tauto.
  - destruct v; cbn [hastype] in H; try tauto. destruct Hw as [(_ & Hn & _) Hw]. cbn [trace].
    rewrite nth_error_map in *. destruct (nth_error vs i) as [[[n k] ct]|] eqn:E; cbn [option_map] in *; [|tauto].
    cbn [name_of attr_of fst snd] in *. assert (V : valid_utf8 n).
    { rewrite Forall_forall in Hn. apply (Hn n). apply in_map_iff. exists (n, k, ct). split; auto. eapply nth_error_In; eauto. }
    assert (A : wf ct /\ kind_ok k ct). { apply nth_error_In in E. apply (all_list_In' _ _ Hw _ E). }
    assert (B : strings_ok (trace ct v) /\ maps_ok (trace ct v)).
    { apply nth_error_In in E. rewrite Forall_forall in IH. apply (IH _ E); [apply A|exact H]. }
    unfold variant_call. destruct k; [cbn; tauto|cbn; tauto| |].
    + destruct ct; try (cbn in A; tauto). destruct v; cbn in H; try tauto. cbn in *. tauto.
    + destruct ct; try (cbn in A; tauto). destruct v; cbn in H; try tauto. cbn in *. tauto.
Qed.

Section Doc.
Context (fp : float_printer) (fl : float_parser) (enc : byte_encoder) (dec : byte_decoder).
Definition inverse32 : Prop := forall b, 0 <= b < 2 ^ 32 -> finite32 b -> f32_from_str fl (format_f32 fp b) = Some (f32_image b).
Definition inverse64 : Prop := forall b, 0 <= b < 2 ^ 64 -> finite64 b -> f64_from_str fl (format_f64 fp b) = Some (f64_image b).
Definition matching : Prop :=
  match enc with
  | ArrayByteEncoder => True
  | HexStrByteEncoder => dec = HexDecoder
  | Base64ByteEncoder => dec = Base64Decoder
  | PassThroughByteEncoder => False
  end.
Context (L32 : inverse32) (L64 : inverse64) (Hm : matching).
Local Notation reads := (reads_as no_ws (f32_from_str fl) (f64_from_str fl) (bytes_of dec)).
Local Notation doc := (js_value fp enc).

Lemma int_lit_dec k z : in_ikind k z -> int_lit k z (dec_text z).
Proof.
  intros H. split; auto. unfold dec_text. destruct (Z.ltb_spec z 0) as [L|L].
  - destruct (dec_nat_spec (- z)) as [P E]; [lia|]. exists true, (dec_nat (- z)). split; [auto|]. split; [auto|]. split; [lia|].
    intros _. unfold in_ikind in H. lia.
  - destruct (dec_nat_spec z L) as [P E]. exists false, (dec_nat z). split; [auto|]. split; [auto|]. split; [lia|]. discriminate.
Qed.
Lemma esc_literal s : valid_utf8 s -> literal (esc_text s) s.
Proof. intros V. split; auto. apply esc_text_body, valid_utf8_bytes, V. Qed.
Lemma dec_text_plain z : Forall plain_byte (dec_text z).
Proof.
  unfold dec_text. destruct (Z.ltb_spec z 0) as [L|L].
  - destruct (dec_nat_spec (- z)) as [[[_ D] _] _]; [lia|]. constructor; [unfold plain_byte; lia|].
    eapply Forall_impl; [|exact D]. unfold is_digit, plain_byte. lia.
  - destruct (dec_nat_spec z L) as [[[_ D] _] _]. eapply Forall_impl; [|exact D]. unfold is_digit, plain_byte. lia.
Qed.
Lemma hex_text_bytes s : all_bytes s -> hex_bytes (hex_text s) s.
Proof.
  induction 1 as [|b s Hb Hs IH]; [constructor|]. unfold is_byte in Hb. cbn [hex_text flat_map app].
  replace b with (b / 16 * 16 + b mod 16) at 3 by lia. constructor; [apply hex_upper_digit; lia|apply hex_upper_digit; lia|exact IH].
Qed.

Lemma bytes_reads s j : all_bytes s -> bytes_doc_of enc s = Some j -> reads TBytes (UBytes s) (tok_doc j) /\ j <> JNull.
Proof.
  intros Hb H. unfold matching in Hm. destruct enc; cbn in H; try contradiction; injection H as <-; (split; [|discriminate]).
  - right. exists (map dec_text s). cbn [tok_doc]. rewrite !map_map. split; [reflexivity|].
    induction Hb as [|b s Hb Hs IH]; constructor; auto. apply int_lit_dec. unfold is_byte in Hb. unfold in_ikind. cbn. lia.
  - left. exists (hex_text s). cbn [tok_doc]. rewrite esc_text_plain. 2:{ eapply Forall_impl; [|apply hex_text_plain; auto]. cbn. tauto. }
    split; [auto|]. rewrite Hm. cbn. apply hex_text_bytes. auto.
  - left. exists (b64_text s). cbn [tok_doc]. rewrite esc_text_plain. 2:{ eapply Forall_impl; [|apply b64_text_plain; auto]. cbn. tauto. }
    split; [auto|]. rewrite Hm. cbn. exists (b64_digits s), 0%nat. rewrite b64_bytes_digits by auto. cbn. rewrite app_nil_r. split; [auto|].
    split; auto. apply b64_digits_range. auto.
Qed.

Lemma key_reads_back k v raw : wf k -> hastype k v -> (forall t, k <> TNewtype t) -> key_doc (trace k v) = Some raw -> key_as no_ws k v (esc_text raw).
Proof.
  intros Hw H Hk E. destruct k; try (exfalso; exact (Hk _ eq_refl)); destruct v; cbn in H; try tauto; cbn in E; try discriminate; try (injection E as <-); cbn.
  - exists []. split; [reflexivity|]. destruct b; reflexivity.
  - exists [], (dec_text z). rewrite esc_text_plain by apply dec_text_plain. split; [reflexivity|]. split; [auto|]. apply int_lit_dec; auto.
  - split; auto. apply esc_literal. apply valid_utf8_char. auto.
  - apply esc_literal. tauto.
  - rewrite nth_error_map in *. destruct (nth_error vs i) as [[[n kd] ct]|] eqn:En; cbn [option_map] in *; [|tauto].
    cbn [name_of attr_of fst snd] in *. destruct Hw as [(_ & Hn & _) Hw].
    assert (V : valid_utf8 n).
    { rewrite Forall_forall in Hn. apply (Hn n). apply in_map_iff. exists (n, kd, ct). split; auto. eapply nth_error_In; eauto. }
    assert (A : wf ct /\ kind_ok kd ct). { apply nth_error_In in En. apply (all_list_In' _ _ Hw _ En). }
    unfold variant_call in E. destruct kd.
    + cbn in E. injection E as <-. destruct ct; cbn in A; try tauto. destruct v; cbn in H; try tauto. split; auto. exists n. split; auto. apply esc_literal; auto.
    + discriminate.
    + destruct (trace ct v); discriminate.
    + destruct (trace ct v); discriminate.
Qed.

(** ** Structs *)
Definition ifield (f : bytes * fattr * ty) (v : val) : val := if skipped (attr_of f) v then v else json_image (snd f) v.
Definition gfield (f : bytes * fattr * ty) (v : val) : option val := if skipped (attr_of f) v then None else Some (json_image (snd f) v).
Definition field_ok (f : bytes * fattr * ty) (v : val) : Prop :=
  skipped (attr_of f) v = false -> forall j, doc (trace (snd f) v) = Some j -> reads (snd f) (json_image (snd f) v) (tok_doc j).
Local Notation keyed := (map (fun m : bytes * jv => (esc_text (fst m), tok_doc (snd m)))).

Lemma all_fields_gfield fs : forall l, length fs = length l -> all_fields fs (zip gfield fs l) (zip ifield fs l).
Proof.
  induction fs as [|f fs IH]; intros [|v l] H; cbn in H; try discriminate; cbn; auto. split; [|apply IH; lia].
  unfold gfield, ifield. destruct (skipped (attr_of f) v) eqn:Es; auto. unfold absent_ok.
  rewrite (skipped_eq f v Es). auto.
Qed.
Lemma fields_doc fs : names_ok (map name_of fs) -> forall fs2 fs1 l g1 js, fs = fs1 ++ fs2 -> length g1 = length fs1 ->
  all2 field_ok fs2 l -> doc_fields doc (zip item fs2 l) = Some js ->
  obj_fields (map name_of fs) (map (fun f => reads (snd f)) fs) (g1 ++ map (fun _ => None) fs2) (keyed js) (g1 ++ zip gfield fs2 l).
Proof.
  intros Hn. induction fs2 as [|f fs2 IH]; intros fs1 [|v l] g1 js Hfs Hg H E; cbn [all2] in H; try tauto.
  - cbn in E. injection E as <-. constructor.
  - destruct H as [Hf H]. cbn [zip map] in *. unfold item at 1 in E. unfold gfield at 1. unfold field_ok in Hf.
    destruct (skipped (attr_of f) v) eqn:Es; cbn [doc_fields] in E.
    + specialize (IH (fs1 ++ [f]) l (g1 ++ [None]) js). rewrite <- !app_assoc in IH. apply IH; auto. rewrite !app_length. cbn. lia.
    + destruct (doc (trace (snd f) v)) as [j|] eqn:Ej; [|discriminate]. cbn in E.
      destruct (doc_fields doc (zip item fs2 l)) as [js'|] eqn:Ejs; [|discriminate]. injection E as <-. cbn [map fst snd].
      eapply (OF_field _ _ _ (length fs1)).
      * rewrite <- Hg. apply nth_error_mid.
      * rewrite nth_error_map, Hfs, nth_error_mid. reflexivity.
      * rewrite nth_error_map, Hfs, nth_error_mid. reflexivity.
      * apply esc_literal. destruct Hn as (_ & Hn & _). rewrite Forall_forall in Hn. apply (Hn (name_of f)).
        apply in_map. rewrite Hfs. apply in_or_app. right. left. auto.
      * apply Hf; auto.
      * rewrite <- Hg, set_nth_app. specialize (IH (fs1 ++ [f]) l (g1 ++ [Some (json_image (snd f) v)]) js').
        rewrite <- !app_assoc in IH. rewrite <- !app_assoc. apply IH; auto. rewrite !app_length. cbn. lia.
Qed.

(** ** Values *)
Definition shows (t : ty) (v : val) (j : jv) : Prop :=
  reads t (json_image t v) (tok_doc j) /\ (json_null t v = true <-> j = JNull).
Lemma shows_null t v j : json_null t v = false -> shows t v j -> tok_doc j <> JNull.
Proof. intros E [_ H] T. destruct j; try discriminate. rewrite E in H. destruct H as [_ H]. discriminate (H eq_refl). Qed.

Lemma tuple_doc ts : forall l js,
  Forall (fun t => wf t -> no_newtype_keys t -> forall v j, hastype t v -> doc (trace t v) = Some j -> shows t v j) ts ->
  all_list wf ts -> all_list no_newtype_keys ts ->
  all2 (fun h v => h v) (map hastype ts) l ->
  doc_list doc (zip (fun f v => f v) (map trace ts) l) = Some js ->
  all3 (fun p v d => p v d) (map reads ts) (zip (fun f v => f v) (map json_image ts) l) (map tok_doc js).
Proof.
  induction ts as [|t ts I]; intros [|v l] js IH Hw Hk H E; cbn in H; try tauto; cbn [map zip doc_list] in *.
  - injection E as <-. exact Logic.I.
  - inversion IH as [|? ? I1 I2]; subst. destruct Hw as [W1 W2], Hk as [K1 K2], H as [H1 H2].
    destruct (doc (trace t v)) as [j|] eqn:Ej; [|discriminate]. cbn in E.
    destruct (doc_list doc _) as [js'|] eqn:Ejs; [|discriminate]. injection E as <-. cbn [map all3]. split; [|eauto].
    apply I1; auto.
Qed.
Lemma struct_doc fs l js :
  Forall (fun f => wf (snd f) -> no_newtype_keys (snd f) -> forall v j, hastype (snd f) v -> doc (trace (snd f) v) = Some j -> shows (snd f) v j) fs ->
  wf (TStruct fs) -> no_newtype_keys (TStruct fs) -> hastype (TStruct fs) (USeq l) ->
  doc_fields doc (zip (fun f v => f v) (map (fun f v => (name_of f, if skipped (attr_of f) v then None else Some (trace (snd f) v))) fs) l) = Some js ->
  reads (TStruct fs) (json_image (TStruct fs) (USeq l)) (JObj (keyed js)).
Proof.
  intros IH [Hn Hw] Hk H E. cbn [hastype no_newtype_keys] in *. rewrite zip_map in E. fold item in E.
  cbn [json_image reads_as]. rewrite zip_map. fold ifield.
  assert (Hl : length fs = length l). { apply all2_length in H. rewrite map_length in H. auto. }
  right. exists (keyed js), (zip gfield fs l). split; auto. split; [|apply all_fields_gfield; auto].
  apply (fields_doc fs Hn fs [] l [] js); auto.
  clear Hn E Hl. revert l H. induction IH as [|f fs Hf _ I]; intros [|v l] H; cbn in *; try tauto.
  destruct Hw as [[W1 _] W2], Hk as [K1 K2], H as [H1 H2]. split; [|auto]. intros _ j Ej. apply Hf; auto.
Qed.

Theorem typed_doc t : wf t -> no_newtype_keys t -> forall v j, hastype t v -> doc (trace t v) = Some j -> shows t v j.
Proof.
  induction t as [ |k| | | | | | | |t IH|t IH|t IH|ts IH|ts IH|kt vt IHk IHv|fs IH|vs IH] using ty_ind'; intros Hw Hk v j H E.
  11:{ exact (IH Hw Hk v j H E). }
  all: destruct v; cbn [hastype] in H; try tauto; cbn [trace] in E.
  - injection E as <-. split; [reflexivity|]. cbn. split; discriminate.
  - injection E as <-. split; [|cbn; split; discriminate]. exists (dec_text z). split; auto. apply int_lit_dec. auto.
  - injection E as <-. unfold shows, f32_num. cbn [json_image json_null reads_as]. unfold f32_image.
    destruct (Z.eqb_spec (bits / 2 ^ 23 mod 256) 255) as [F|F]; cbn [float_jv tok_doc].
    + split; [auto|tauto].
    + split; [|split; discriminate]. left. eexists. split; [reflexivity|]. rewrite L32 by auto. unfold f32_image.
      destruct (Z.eqb_spec (bits / 2 ^ 23 mod 256) 255); [contradiction|]. reflexivity.
  - injection E as <-. unfold shows, f64_num. cbn [json_image json_null reads_as]. unfold f64_image.
    destruct (Z.eqb_spec (bits / 2 ^ 52 mod 2048) 2047) as [F|F]; cbn [float_jv tok_doc].
    + split; [auto|tauto].
    + split; [|split; discriminate]. left. eexists. split; [reflexivity|]. rewrite L64 by auto. unfold f64_image.
      destruct (Z.eqb_spec (bits / 2 ^ 52 mod 2048) 2047); [contradiction|]. reflexivity.
  - injection E as <-. split; [|cbn; split; discriminate]. cbn. eexists. split; [reflexivity|]. split; auto. apply esc_literal, valid_utf8_char. auto.
  - injection E as <-. split; [|cbn; split; discriminate]. cbn. eexists. split; [reflexivity|]. apply esc_literal. tauto.
  - destruct (bytes_reads b j (proj1 H) E) as [R N]. split; [exact R|]. cbn. split; [discriminate|tauto].
  - injection E as <-. split; cbn; tauto.
  - injection E as <-. split; cbn; tauto.
  - injection E as <-. split; cbn; tauto.
  - specialize (IH Hw Hk v j H E). unfold shows. cbn [json_image json_null]. destruct (json_null t v) eqn:N.
    + destruct IH as [_ J]. rewrite (proj1 J N). split; cbn; tauto.
    + split; [|rewrite <- N; apply IH]. cbn [reads_as]. split; [apply IH|]. eapply shows_null; eauto.
  - cbn in E. destruct (doc_list _ _) as [js|] eqn:Ejs; [|discriminate]. injection E as <-. split; [|cbn; split; discriminate].
    cbn [json_image tok_doc reads_as]. eexists. split; [reflexivity|]. destruct H as [H _]. revert js Ejs.
    induction H as [|v l Hv _ I]; intros js Ejs; cbn in Ejs.
    + injection Ejs as <-. constructor.
    + destruct (doc (trace t v)) as [jx|] eqn:Ej; [|discriminate]. cbn in Ejs.
      destruct (doc_list _ _) as [js'|] eqn:Ejs'; [|discriminate]. injection Ejs as <-. constructor; [apply IH; auto|auto].
  - cbn in E. destruct (doc_list _ _) as [js|] eqn:Ejs; [|discriminate]. injection E as <-. split; [|cbn; split; discriminate].
    cbn [json_image tok_doc reads_as]. eexists. split; [reflexivity|]. apply tuple_doc; auto. apply Hw.
  - cbn in E. destruct (doc_list _ _) as [js|] eqn:Ejs; [|discriminate]. injection E as <-. split; [|cbn; split; discriminate].
    cbn [json_image tok_doc reads_as]. eexists. split; [reflexivity|]. apply tuple_doc; auto. apply Hw.
  - cbn in E. destruct (doc_entries _ _) as [js|] eqn:Ejs; [|discriminate]. injection E as <-. split; [|cbn; split; discriminate].
    cbn [json_image tok_doc reads_as]. eexists. split; [reflexivity|]. destruct H as [H _], Hw as [W1 W2], Hk as [K1 K2]. revert js Ejs.
    induction H as [|[x y] l [Hx Hy] _ I]; intros js Ejs; cbn in Ejs.
    + injection Ejs as <-. constructor.
    + destruct (key_doc (trace kt x)) as [raw|] eqn:Er; [|discriminate].
      destruct (doc (trace vt y)) as [jx|] eqn:Ej; [|discriminate]. cbn in Ejs.
      destruct (doc_entries _ _) as [js'|] eqn:Ejs'; [|discriminate]. injection Ejs as <-. cbn [map fst snd]. constructor; [|auto].
      cbn [fst snd]. split; [apply key_reads_back; auto|]. apply IHv; auto.
  - cbn in E. destruct (doc_fields _ _) as [js|] eqn:Ejs; [|discriminate]. injection E as <-. split; [|cbn; split; discriminate].
    apply struct_doc; auto.
  - rewrite nth_error_map in *. destruct (nth_error vs i) as [[[n kd] ct]|] eqn:En; cbn [option_map] in *; [|tauto].
    cbn [name_of attr_of fst snd] in *. destruct Hw as [(_ & Hn & _) Hw].
    assert (V : valid_utf8 n).
    { rewrite Forall_forall in Hn. apply (Hn n). apply in_map_iff. exists (n, kd, ct). split; auto. eapply nth_error_In; eauto. }
    pose proof (nth_error_In _ _ En) as Hin.
    assert (A : wf ct /\ kind_ok kd ct) by (apply (all_list_In' _ _ Hw _ Hin)).
    assert (B : no_newtype_keys ct) by (apply (all_list_In' _ _ Hk _ Hin)).
    rewrite Forall_forall in IH. specialize (IH _ Hin). cbn [snd] in IH. specialize (IH (proj1 A) B).
    unfold shows. cbn [json_image json_null reads_as]. rewrite !nth_error_map, En. cbn [option_map name_of attr_of fst snd].
    rewrite nth_error_map, En. cbn [option_map name_of attr_of fst snd].
    unfold variant_call in E. destruct kd.
    + injection E as <-. destruct ct; cbn in A; try tauto. destruct v; cbn in H; try tauto. split; [|split; discriminate].
      split; auto. eexists. split; [reflexivity|]. apply esc_literal; auto.
    + cbn in E. destruct (doc (trace ct v)) as [jx|] eqn:Ej; [|discriminate]. injection E as <-. split; [|split; discriminate].
      cbn. exists (esc_text n), (tok_doc jx). split; auto. split; [apply esc_literal; auto|]. apply IH; auto.
    + destruct ct; try (cbn in A; tauto). destruct v; try (cbn in H; tauto). cbn in E.
      destruct (doc_list _ _) as [js|] eqn:Ejs; [|discriminate]. injection E as <-. split; [|split; discriminate].
      cbn [tok_doc map fst snd]. exists (esc_text n), (JArr (map tok_doc js)). split; auto. split; [apply esc_literal; auto|].
      refine (proj1 (IH (USeq l0) (JArr js) H _)). cbn. rewrite Ejs. reflexivity.
    + destruct ct; try (cbn in A; tauto). destruct v; try (cbn in H; tauto). cbn in E.
      destruct (doc_fields _ _) as [js|] eqn:Ejs; [|discriminate]. injection E as <-. split; [|split; discriminate].
      cbn [tok_doc map fst snd]. exists (esc_text n), (tok_doc (JObj js)). split; auto. split; [apply esc_literal; auto|].
      refine (proj1 (IH (USeq l) (JObj js) H _)). cbn. rewrite Ejs. reflexivity.
Qed.
End Doc.

(** ** Round trips *)
Section RoundTrip.
Context (ar : arch) (fl : float_parser) (fp : float_printer) (any_f32 : bool) (enc : byte_encoder) (dec : byte_decoder).
Local Notation prog t := (denote JDeserializeError t).

Lemma matching_pass : matching enc dec -> enc <> PassThroughByteEncoder.
Proof. unfold matching. destruct enc; discriminate || tauto. Qed.

Lemma typed_text t v out : inverse32 fp fl -> inverse64 fp fl -> matching enc dec -> printer_ok fp -> wf t -> hastype t v -> no_newtype_keys t ->
  js_to_string fp enc (trace t v) = Ok out ->
  exists j, shows fl dec t v j /\ jtext no_ws canon canon json_number j out.
Proof.
  intros L32 L64 Hm P Hw H Hk E. destruct (typed_strings t Hw v H) as [S M].
  pose proof (to_string_canon fp enc (trace t v) (matching_pass Hm) P S M) as C.
  destruct (js_value fp enc (trace t v)) as [j|] eqn:Ej; [|destruct C as (e & C & _); congruence].
  destruct C as (out' & C & T). assert (out' = out) by congruence. subst out'. exists j. split; auto.
  eapply typed_doc; eauto.
Qed.

Theorem json_round_trip t v out w1 w2 : inverse32 fp fl -> inverse64 fp fl -> matching enc dec -> printer_ok fp ->
  wf t -> hastype t v -> no_newtype_keys t ->
  js_to_string fp enc (trace t v) = Ok out -> any_ws w1 -> any_ws w2 ->
  (dec = Base64Decoder -> 3 * zlen (w1 ++ out ++ w2) <= usize_max ar) ->
  exists N, forall fuel, (N <= fuel)%nat ->
    exists s, js_from_mut_slice ar fl any_f32 dec fuel (prog t) (w1 ++ out ++ w2) = Done s (Ok (json_image t v)).
Proof.
  intros L32 L64 Hm P Hw H Hk E W1 W2 R. destruct (typed_text t v out L32 L64 Hm P Hw H Hk E) as (j & [S _] & T).
  eapply (from_slice_reads ar fl any_f32 dec no_ws); eauto; [intros w ->; constructor|]. apply raw_loose, canon_raw. exact T.
Qed.

Theorem json_option t v out w1 w2 : inverse32 fp fl -> inverse64 fp fl -> matching enc dec -> printer_ok fp ->
  wf t -> hastype t v -> no_newtype_keys t ->
  js_to_string fp enc (trace t v) = Ok out -> any_ws w1 -> any_ws w2 ->
  (dec = Base64Decoder -> 3 * zlen (w1 ++ out ++ w2) <= usize_max ar) ->
  js_to_string fp enc (trace (TOption t) (USome v)) = Ok out /\
  exists w N, (w = UNone <-> out = [110; 117; 108; 108]) /\ (out <> [110; 117; 108; 108] -> w = USome (json_image t v)) /\
    forall fuel, (N <= fuel)%nat ->
      exists s, js_from_mut_slice ar fl any_f32 dec fuel (prog (TOption t)) (w1 ++ out ++ w2) = Done s (Ok w).
Proof.
  intros L32 L64 Hm P Hw H Hk E W1 W2 R. split; [exact E|].
  destruct (json_round_trip (TOption t) (USome v) out w1 w2 L32 L64 Hm P Hw H Hk E W1 W2 R) as [N HN].
  exists (json_image (TOption t) (USome v)), N. destruct (typed_text t v out L32 L64 Hm P Hw H Hk E) as (j & [_ S] & T).
  assert (X : j = JNull <-> out = [110; 117; 108; 108]).
  { split; [intros ->; inversion T; auto|]. intros ->. inversion T as [| | |tok Hn| s0 t0 [_ Q]| | | |]; subst; auto; try discriminate.
    destruct Hn as (sg & i & f & e & Eq & Hsg & [[Hi Hd] _] & _). exfalso. destruct i as [|c i]; [tauto|]. inversion Hd as [|? ? D _]; subst.
    unfold is_digit in D. destruct Hsg as [-> | ->]; cbn in Eq; injection Eq; intros; lia. }
  rewrite <- X, <- S. cbn [json_image]. destruct (json_null t v) eqn:En.
  - split; [tauto|]. split; [tauto|]. intros fuel Hf. destruct (HN fuel Hf) as (s & Hs). exists s. cbn [json_image] in Hs. rewrite En in Hs. exact Hs.
  - split; [split; discriminate|]. split; [auto|]. intros fuel Hf. destruct (HN fuel Hf) as (s & Hs). exists s. cbn [json_image] in Hs. rewrite En in Hs. exact Hs.
Qed.
End RoundTrip.

(** ** What survives *)
Lemma f32_image_id b : f32_image b = b <-> (finite32 b /\ b <> 0x80000000) \/ b = 0x7fc00000.
Proof.
  unfold f32_image, finite32. destruct (Z.eqb_spec (b / 2 ^ 23 mod 256) 255).
  - split; [intros <-; auto|]. intros [[? _]| ->]; [contradiction|reflexivity].
  - destruct (Z.eqb_spec b 0x80000000) as [-> | N].
    + split; [discriminate|]. intros [[_ ?]|?]; [contradiction|discriminate].
    + split; auto.
Qed.
Lemma f64_image_id b : f64_image b = b <-> (finite64 b /\ b <> 0x8000000000000000) \/ b = 0x7ff8000000000000.
Proof.
  unfold f64_image, finite64. destruct (Z.eqb_spec (b / 2 ^ 52 mod 2048) 2047).
  - split; [intros <-; auto|]. intros [[? _]| ->]; [contradiction|reflexivity].
  - destruct (Z.eqb_spec b 0x8000000000000000) as [-> | N].
    + split; [discriminate|]. intros [[_ ?]|?]; [contradiction|discriminate].
    + split; auto.
Qed.
Lemma map_id_iff {A} (f : A -> A) l : map f l = l <-> Forall (fun x => f x = x) l.
Proof.
  induction l as [|a l IH]; cbn; [split; auto|]. split.
  - intros [= H1 H2]. constructor; tauto.
  - intros H. inversion H; subst. f_equal; tauto.
Qed.
Lemma zip_id_iff {A} (P : A -> val -> Prop) (f : A -> val -> val) ts : forall l, length ts = length l ->
  (forall t v, In t ts -> In v l -> (f t v = v <-> P t v)) ->
  (zip f ts l = l <-> all2 P ts l).
Proof.
  induction ts as [|t ts IH]; intros [|v l] H K; cbn in *; try discriminate; [tauto|].
  injection H as H. specialize (IH l H ltac:(auto)). rewrite <- IH, <- (K t v) by auto. split; [intros [= ? ?]; auto|intros [-> ->]; auto].
Qed.
Lemma all2_map {A B C} (P : B -> C -> Prop) (g : A -> B) l : forall m, all2 P (map g l) m <-> all2 (fun a c => P (g a) c) l m.
Proof. induction l as [|a l IH]; intros [|b m]; cbn; try tauto. rewrite IH. tauto. Qed.
Lemma all2_In {A B} (P : A -> B -> Prop) (l : list A) : forall m, all2 P l m -> length l = length m.
Proof. apply all2_length. Qed.

Lemma zip_survives {A} (h : A -> val -> Prop) (P : A -> val -> Prop) (f : A -> val -> val) ts : forall l, all2 h ts l ->
  Forall (fun t => forall v, h t v -> (f t v = v <-> P t v)) ts ->
  (zip f ts l = l <-> all2 P ts l).
Proof.
  induction ts as [|t ts IH]; intros [|v l] H K; cbn in *; try tauto.
  inversion K as [|? ? K1 K2]; subst. destruct H as [H1 H2]. specialize (IH l H2 K2). rewrite <- IH, <- (K1 v H1).
  split; [intros [= ? ?]; auto|intros [E ->]; congruence].
Qed.

Theorem image_survives t : forall v, hastype t v -> (json_image t v = v <-> survives t v).
Proof.
  induction t as [ |k| | | | | | | |t IH|t IH|t IH|ts IH|ts IH|kt vt IHk IHv|fs IH|vs IH] using ty_ind'; intros v H;
    try (destruct v; cbn in H |- *; tauto).
  - destruct v; cbn in H; try tauto. cbn. rewrite <- f32_image_id. split; [intros [= ->]; auto|intros ->; auto].
  - destruct v; cbn in H; try tauto. cbn. rewrite <- f64_image_id. split; [intros [= ->]; auto|intros ->; auto].
  - destruct v; cbn in H; try tauto; cbn. destruct (json_null t v); [split; [discriminate|intros [? _]; discriminate]|].
    rewrite <- (IH v H). split; [intros [= E]; auto|intros [_ ->]; auto].
  - apply (IH v H).
  - destruct v; cbn in H; try tauto. destruct H as [H _]. cbn.
    assert (X : map (json_image t) l = l <-> Forall (survives t) l).
    { rewrite map_id_iff. rewrite !Forall_forall in *. split; intros K x Hx; [apply IH|apply IH]; auto. }
    rewrite <- X. split; [intros [= E]; auto|intros ->; auto].
  - destruct v; cbn in H; try tauto. cbn. rewrite zip_map, all2_map. apply all2_map in H.
    rewrite <- (zip_survives (fun t v => hastype t v) (fun t v => survives t v) (fun t v => json_image t v) ts l H IH).
    split; [intros [= E]; auto|intros ->; auto].
  - destruct v; cbn in H; try tauto. cbn. rewrite zip_map, all2_map. apply all2_map in H.
    rewrite <- (zip_survives (fun t v => hastype t v) (fun t v => survives t v) (fun t v => json_image t v) ts l H IH).
    split; [intros [= E]; auto|intros ->; auto].
  - destruct v; cbn in H; try tauto. destruct H as [H _]. cbn.
    assert (X : map (fun e => (fst e, json_image vt (snd e))) l = l <-> Forall (fun e => survives vt (snd e)) l).
    { rewrite map_id_iff. rewrite !Forall_forall in *. split; intros K [x y] Hx; specialize (H _ Hx); specialize (K _ Hx); cbn in *.
      - apply IHv; [tauto|]. congruence.
      - f_equal. apply IHv; tauto. }
    rewrite <- X. split; [intros [= E]; auto|intros ->; auto].
  - destruct v; cbn in H; try tauto. cbn. rewrite zip_map, all2_map. apply all2_map in H.
    rewrite <- (zip_survives (fun f v => hastype (snd f) v) (fun f v => skipped (attr_of f) v = true \/ survives (snd f) v)
       (fun f v => if skipped (attr_of f) v then v else json_image (snd f) v) fs l H).
    + split; [intros [= E]; auto|intros ->; auto].
    + eapply Forall_impl; [|exact IH]. intros f K v Hv. cbn in K. rewrite <- (K v Hv). destruct (skipped (attr_of f) v); [tauto|].
      split; auto. intros [?|?]; [discriminate|auto].
  - destruct v; cbn in H; try tauto. cbn. rewrite !nth_error_map in *. destruct (nth_error vs i) as [f|] eqn:E; cbn in *; [|tauto].
    rewrite Forall_forall in IH. rewrite <- (IH f (nth_error_In _ _ E) v H). split; [intros [= K]; auto|intros ->; auto].
Qed.

(** ** What can be written *)
Section Writable.
Context (fp : float_printer) (enc : byte_encoder) (He : enc <> PassThroughByteEncoder).
Local Notation doc := (js_value fp enc).

Lemma good_key k v : key_type k -> hastype k v -> exists raw, key_doc (trace k v) = Some raw.
Proof.
  intros Hk H. destruct k; try contradiction; destruct v; cbn in H; try tauto; cbn; eauto.
  rewrite nth_error_map in *. destruct (nth_error vs i) as [[[n kd] ct]|] eqn:En; cbn [option_map] in *; [|tauto].
  pose proof (all_list_In' _ _ Hk _ (nth_error_In _ _ En)) as A. cbn in A. subst kd. cbn. eauto.
Qed.
Lemma tuple_writes ts : forall l,
  Forall (fun t => wf t -> good_keys t -> forall v, hastype t v -> exists j, doc (trace t v) = Some j) ts ->
  all_list wf ts -> all_list good_keys ts -> all2 (fun h v => h v) (map hastype ts) l ->
  exists js, doc_list doc (zip (fun f v => f v) (map trace ts) l) = Some js.
Proof.
  induction ts as [|t ts I]; intros [|v l] IH Hw Hg H; cbn in H; try tauto; cbn [map zip doc_list]; eauto.
  inversion IH as [|? ? I1 I2]; subst. destruct Hw as [W1 W2], Hg as [G1 G2], H as [H1 H2].
  destruct (I1 W1 G1 v H1) as (j & ->), (I l I2 W2 G2 H2) as (js & ->). cbn. eauto.
Qed.
Theorem typed_writes t : wf t -> good_keys t -> forall v, hastype t v -> exists j, doc (trace t v) = Some j.
Proof.
  induction t as [ |k| | | | | | | |t IH|t IH|t IH|ts IH|ts IH|kt vt IHk IHv|fs IH|vs IH] using ty_ind'; intros Hw Hg v H.
  11:{ exact (IH Hw Hg v H). }
  all: destruct v; cbn [hastype] in H; try tauto; cbn [trace]; try (eexists; reflexivity).
  - unfold js_value. cbn [js_doc]. pose proof He as He2. revert He2. generalize enc as e. intros e. destruct e; cbn; intros He2; try (eexists; reflexivity). congruence.
  - apply (IH Hw Hg v H).
  - destruct H as [H _]. cbn. assert (X : exists js, doc_list doc (map (trace t) l) = Some js).
    { induction H as [|v l Hv _ (js & I)]; cbn; eauto. destruct (IH Hw Hg v Hv) as (j & E).
      change (js_value fp enc (trace t v)) with (doc (trace t v)). rewrite E, I. cbn. eauto. }
    destruct X as (js & X). rewrite X. cbn. eauto.
  - destruct (tuple_writes ts l IH (proj1 Hw) Hg H) as (js & X). cbn. rewrite X. cbn. eauto.
  - destruct (tuple_writes ts l IH (proj1 Hw) Hg H) as (js & X). cbn. rewrite X. cbn. eauto.
  - destruct H as [H _], Hw as [W1 W2], Hg as [G1 G2]. cbn.
    assert (X : exists js, doc_entries doc (flat_map (fun e => [(true, trace kt (fst e)); (false, trace vt (snd e))]) l) = Some js).
    { induction H as [|[x y] l [Hx Hy] _ (js & I)]; cbn; eauto. destruct (IHv W2 G2 y Hy) as (j & E), (good_key kt x G1 Hx) as (raw & R).
      cbn in Hx, Hy. rewrite R. rewrite E, I. cbn. eauto. }
    destruct X as (js & X). rewrite X. cbn. eauto.
  - destruct Hw as [_ Hw]. cbn in Hg. unfold struct_call. cbn.
    assert (X : exists js, doc_fields doc (zip (fun f v => f v)
      (map (fun f v => (name_of f, if skipped (attr_of f) v then None else Some (trace (snd f) v))) fs) l) = Some js).
    { revert l H. induction IH as [|f fs Hf _ I]; intros [|v l] H; cbn in *; try tauto; eauto.
      destruct Hw as [[W1 _] W2], Hg as [G1 G2], H as [H1 H2]. destruct (I W2 G2 l H2) as (js & Ejs), (Hf W1 G1 v H1) as (j & Ej).
      destruct (skipped (attr_of f) v); [eauto|]. rewrite Ej, Ejs. cbn. eauto. }
    destruct X as (js & X). rewrite X. cbn. eauto.
  - destruct Hw as [_ Hw]. cbn in Hg. rewrite nth_error_map in *. destruct (nth_error vs i) as [[[n kd] ct]|] eqn:En; cbn [option_map] in *; [|tauto].
    pose proof (nth_error_In _ _ En) as Hin. cbn [name_of attr_of fst snd] in *.
    assert (A : wf ct /\ kind_ok kd ct) by (apply (all_list_In' _ _ Hw _ Hin)).
    assert (B : good_keys ct) by (apply (all_list_In' _ _ Hg _ Hin)).
    rewrite Forall_forall in IH. destruct (IH _ Hin (proj1 A) B v H) as (j & Ej). cbn [snd] in Ej.
    unfold variant_call. destruct kd; [eexists; reflexivity| | |].
    + cbn. rewrite Ej. cbn. eauto.
    + destruct ct; try (cbn in A; tauto). destruct v; try (cbn in H; tauto). cbn in Ej |- *.
      destruct (doc_list _ _); [cbn; eauto|discriminate].
    + destruct ct; try (cbn in A; tauto). destruct v; try (cbn in H; tauto). cbn in Ej |- *.
      destruct (doc_fields _ _); [cbn; eauto|discriminate].
Qed.
Theorem typed_writable t v : printer_ok fp -> wf t -> good_keys t -> hastype t v -> exists out, js_to_string fp enc (trace t v) = Ok out.
Proof.
  intros P Hw Hg H. destruct (typed_writes t Hw Hg v H) as (j & E), (typed_strings t Hw v H) as [S M].
  pose proof (to_string_canon fp enc (trace t v) He P S M) as C. rewrite E in C. destruct C as (out & C & _). eauto.
Qed.
End Writable.

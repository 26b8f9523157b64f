(** What the JSON serializers write, read back through a self-describing type (C55). *)
From Verif Require Import Prelude PreludeFacts Utf8 Utf8Spec Utf8Facts SerdeDe SerdeSer MpSpec Base64Spec Base64Facts
  JsonSpec JsonTypeSpec JsonFacts JsonSer JsonErrMap JsonSerFacts JsonDe JsonDeSafe JsonTok JsonTyped
  Types TypesFacts MpTypeSpec JsonTypedTop JsonTypedSer JsonAnySpec JsonAny.

Section Back.
Context (any_f32 : bool) (float_of : bytes -> option Z).
Local Notation value := (value_as any_f32 float_of).
Local Notation anyv := (any_as any_f32 float_of).
Local Notation keyed := (map (fun m : bytes * jv => (esc_text (fst m), tok_doc (snd m)))).

Lemma canon_literal s t : canon s t -> literal (esc_text s) s.
Proof. intros [V _]. apply esc_literal. auto. Qed.
Lemma value_any :
  (forall d b, jtext no_ws canon canon json_number d b -> forall w, value w d -> anyv w (tok_doc d)) /\
  (forall l b, elements no_ws canon canon json_number l b -> forall ws, Forall2 value ws l -> Forall2 anyv ws (map tok_doc l)) /\
  (forall l b, members no_ws canon canon json_number l b ->
     forall ws, Forall2 (fun e m => fst e = UStr (fst m) /\ value (snd e) (snd m)) ws l ->
     Forall2 (fun e m => (exists s, fst e = UStr s /\ literal (fst m) s) /\ anyv (snd e) (snd m)) ws (keyed l)).
Proof.
  apply jtext_mutind.
  - intros w H. inversion H; subst. constructor.
  - intros w H. inversion H; subst. constructor.
  - intros w H. inversion H; subst. constructor.
  - intros tok _ w H. inversion H; subst. constructor. auto.
  - intros s t C w H. inversion H; subst. cbn. constructor. eapply canon_literal; eauto.
  - intros w0 _ w H. inversion H as [| | | |? ? F|]; subst. inversion F; subst. cbn. constructor. constructor.
  - intros l b _ IH w H. inversion H as [| | | |? ? F|]; subst. cbn [tok_doc]. constructor. auto.
  - intros w0 _ w H. inversion H as [| | | | |? ? F]; subst. inversion F; subst. cbn. constructor. constructor.
  - intros l b _ IH w H. inversion H as [| | | | |? ? F]; subst. cbn [tok_doc]. constructor. auto.
  - intros v b w1 w2 _ _ IH _ ws H. inversion H as [|? ? ? ? H1 H2]; subst. inversion H2; subst. cbn. constructor; auto.
  - intros v b l r w1 w2 _ _ IH _ _ IHl ws H. inversion H as [|? ? ? ? H1 H2]; subst. cbn. constructor; auto.
  - intros k kt v b w1 w2 w3 w4 _ C _ _ _ IH _ ws H. inversion H as [|? ? ? ? [H0 H1] H2]; subst. inversion H2; subst.
    cbn. constructor; [|constructor]. cbn [fst snd]. split; [|auto]. exists k. split; [exact H0|]. eapply canon_literal; eauto.
  - intros k kt v b l r w1 w2 w3 w4 _ C _ _ _ IH _ _ IHl ws H. inversion H as [|? ? ? ? [H0 H1] H2]; subst.
    cbn. constructor; [|auto]. cbn [fst snd]. split; [|auto]. exists k. split; [exact H0|]. eapply canon_literal; eauto.
Qed.

(** ** Every value has a reading when its floats have *)
Context (fp : float_printer) (enc : byte_encoder).
Definition reads32 (b : Z) : Prop := finite32 b -> exists w, number_as any_f32 float_of w (format_f32 fp b).
Definition reads64 (b : Z) : Prop := finite64 b -> exists w, number_as any_f32 float_of w (format_f64 fp b).
Local Notation doc := (js_value fp enc).
Local Notation good j := (exists w, value w j).

Lemma int_good k z : in_ikind k z -> good (JNum (dec_text z)).
Proof.
  intros H. assert (B : - 2 ^ 63 <= z < 2 ^ 64) by (unfold in_ikind in H; destruct k; cbn in H; lia).
  unfold dec_text. destruct (Z.ltb_spec z 0) as [L|L].
  - destruct (dec_nat_spec (- z)) as [[P _] E]; [lia|]. eexists. constructor. apply N_neg; [exact P|lia].
  - destruct (dec_nat_spec z L) as [[P _] E]. eexists. constructor. apply N_pos; [exact P|lia].
Qed.
Lemma bytes_good s j : all_bytes s -> bytes_doc_of enc s = Some j -> good j.
Proof.
  intros H E. destruct enc; cbn in E; try discriminate; injection E as <-; [|eexists; apply VA_str|eexists; apply VA_str].
  induction H as [|b s Hb _ IH]; [eexists; repeat constructor|].
  destruct IH as [w IH]. inversion IH as [| | | |ws ? F|]; subst.
  destruct (int_good U8 b) as [u U]; [unfold is_byte in Hb; unfold in_ikind; cbn; lia|].
  exists (USeq (u :: ws)). cbn. constructor. constructor; auto.
Qed.
Definition fine (v : sval) : Prop := strings_ok v -> all_floats reads32 reads64 v -> forall j, doc v = Some j -> good j.
Lemma list_good l : Forall fine l -> all_list strings_ok l -> all_list (all_floats reads32 reads64) l ->
  forall js, doc_list doc l = Some js -> exists ws, Forall2 value ws js.
Proof.
  induction 1 as [|v l Hv _ IH]; cbn; intros S F js E.
  - injection E as <-. exists []. constructor.
  - destruct (doc v) as [j|] eqn:Ej; [|discriminate]. fold (doc_list doc l) in E. destruct (doc_list doc l) as [js'|] eqn:Ejs; [|discriminate].
    injection E as <-. destruct (Hv (proj1 S) (proj1 F) j Ej) as [w W]. destruct (IH (proj2 S) (proj2 F) _ eq_refl) as [ws Ws].
    exists (w :: ws). constructor; auto.
Qed.
Definition kv (e : val * val) (m : bytes * jv) : Prop := fst e = UStr (fst m) /\ value (snd e) (snd m).
Lemma entries_good l : Forall (fun o => fine (snd o)) l -> all_list (fun o => strings_ok (snd o)) l ->
  all_list (fun o => all_floats reads32 reads64 (snd o)) l ->
  forall js, doc_entries doc l = Some js -> exists ws, Forall2 kv ws js.
Proof.
  intros H. remember (length l) as n eqn:Hn. revert l H Hn. induction n as [n IH] using lt_wf_ind. intros l H Hn S F js E.
  destruct l as [|[b k] l]; cbn in E.
  - injection E as <-. exists []. constructor.
  - destruct b; [|discriminate]. destruct l as [|[b v] l]; [discriminate|]. destruct b; [discriminate|].
    fold (doc_entries doc l) in E.
    destruct (key_doc k) as [raw|]; [|discriminate]. destruct (doc v) as [j|] eqn:Ej; [|discriminate].
    cbn in E. destruct (doc_entries doc l) as [js'|] eqn:Ejs; [|discriminate]. injection E as <-.
    inversion H as [|? ? _ H2]; subst. inversion H2 as [|? ? H3 H4]; subst. cbn in S, F, H3.
    destruct (H3 (proj1 (proj2 S)) (proj1 (proj2 F)) j Ej) as [w W].
    destruct (IH (length l)) with l js' as [ws Ws]; auto; try tauto; [cbn; lia|].
    exists ((UStr raw, w) :: ws). constructor; auto. split; auto.
Qed.
Lemma fields_good fs : Forall (fun f => forall v, snd f = Some v -> fine v) fs ->
  all_list (fun f => valid_utf8 (fst f) /\ match snd f with Some x => strings_ok x | None => True end) fs ->
  all_list (fun f => match snd f with Some x => all_floats reads32 reads64 x | None => True end) fs ->
  forall js, doc_fields doc fs = Some js -> exists ws, Forall2 kv ws js.
Proof.
  induction 1 as [|[k [v|]] fs Hf _ IH]; cbn; intros S F js E.
  - injection E as <-. exists []. constructor.
  - fold (doc_fields doc fs) in E. destruct (doc v) as [j|] eqn:Ej; [|discriminate]. cbn in E.
    destruct (doc_fields doc fs) as [js'|] eqn:Ejs; [|discriminate]. injection E as <-.
    destruct (Hf v eq_refl (proj2 (proj1 S)) (proj1 F) j Ej) as [w W]. destruct (IH (proj2 S) (proj2 F) _ eq_refl) as [ws Ws].
    exists ((UStr k, w) :: ws). constructor; auto. split; auto.
  - apply IH; tauto.
Qed.
Lemma obj_good js : (exists ws, Forall2 kv ws js) -> good (JObj js).
Proof. intros [ws H]. eexists. constructor. exact H. Qed.
Lemma arr_good js : (exists ws, Forall2 value ws js) -> good (JArr js).
Proof. intros [ws H]. eexists. constructor. exact H. Qed.
Lemma one_good n j : good j -> good (JObj [(n, j)]).
Proof. intros [w H]. apply obj_good. exists [(UStr n, w)]. constructor; [|constructor]. split; auto. Qed.

Lemma doc_good v : fine v.
Proof.
  induction v using sval_ind'; intros S F j E; unfold js_value in E; cbn [js_doc] in E; fold (js_value fp enc) in E;
    cbn [strings_ok] in S; cbn [all_floats] in F; try discriminate; try (injection E as <-; eexists; constructor; fail).
  - injection E as <-. eapply int_good; eauto.
  - injection E as <-. unfold f32_num. unfold reads32, finite32 in F. destruct (Z.eqb_spec (b / 2 ^ 23 mod 256) 255) as [X|X]; cbn.
    + eexists. constructor.
    + destruct (F X) as [w W]. exists w. constructor. auto.
  - injection E as <-. unfold f64_num. unfold reads64, finite64 in F. destruct (Z.eqb_spec (b / 2 ^ 52 mod 2048) 2047) as [X|X]; cbn.
    + eexists. constructor.
    + destruct (F X) as [w W]. exists w. constructor. auto.
  - eapply bytes_good; eauto.
  - apply IHv; auto.
  - apply IHv; auto.
  - destruct (doc v) as [x|] eqn:Ex; [|discriminate]. injection E as <-. apply one_good. apply IHv; tauto.
  - destruct (doc_list doc items) as [js|] eqn:Ex; [|discriminate]. injection E as <-. apply arr_good. eapply list_good; eauto.
  - destruct (doc_list doc items) as [js|] eqn:Ex; [|discriminate]. injection E as <-. apply arr_good. eapply list_good; eauto.
  - destruct (doc_list doc items) as [js|] eqn:Ex; [|discriminate]. injection E as <-. apply arr_good. eapply list_good; eauto.
  - destruct (doc_list doc items) as [js|] eqn:Ex; [|discriminate]. injection E as <-. apply one_good, arr_good.
    eapply list_good; eauto. tauto.
  - destruct (doc_entries doc ops) as [js|] eqn:Ex; [|discriminate]. injection E as <-. apply obj_good. eapply entries_good; eauto.
  - destruct (doc_fields doc fs) as [js|] eqn:Ex; [|discriminate]. injection E as <-. apply obj_good. eapply fields_good; eauto.
  - destruct (doc_fields doc fs) as [js|] eqn:Ex; [|discriminate]. injection E as <-. apply one_good, obj_good. eapply fields_good; eauto. tauto.
  - destruct (fmt_text a) as [t|]; [|discriminate]. injection E as <-. eexists. constructor.
Qed.
End Back.

Theorem js_read_back (ar : arch) (fl : float_parser) (fp : float_printer) (any_f32 : bool) enc dec v out w1 w2 :
  let float_of := if any_f32 then f32_from_str fl else f64_from_str fl in
  enc <> PassThroughByteEncoder -> printer_ok fp -> strings_ok v -> maps_ok v ->
  all_floats (fun b => finite32 b -> exists w, number_as any_f32 float_of w (format_f32 fp b))
             (fun b => finite64 b -> exists w, number_as any_f32 float_of w (format_f64 fp b)) v ->
  js_to_string fp enc v = Ok out -> any_ws w1 -> any_ws w2 ->
  (dec = Base64Decoder -> 3 * zlen (w1 ++ out ++ w2) <= usize_max ar) ->
  exists j w, js_value fp enc v = Some j /\ value_as any_f32 float_of w j /\
    exists N, forall fuel, (N <= fuel)%nat ->
      exists s, js_from_mut_slice ar fl any_f32 dec fuel (any JDeserializeError) (w1 ++ out ++ w2) = Done s (Ok w).
Proof.
  intros float_of Ne P S M F E W1 W2 R. pose proof (to_string_canon fp enc v Ne P S M) as C.
  destruct (js_value fp enc v) as [j|] eqn:Ej; [|destruct C as (e & C & _); congruence].
  destruct C as (out' & C & T). assert (out' = out) by congruence. subst out'.
  destruct (doc_good any_f32 float_of fp enc v S F j Ej) as [w W]. exists j, w. split; [auto|]. split; [exact W|].
  apply (self_describing_reads ar fl any_f32 dec w (tok_doc j)); auto.
  - apply (proj1 (value_any any_f32 float_of) j out T w W).
  - apply canon_raw. exact T.
Qed.

(** A whole number from 2^64 on, written without fraction and exponent, is refused. *)
Theorem js_big_number (ar : arch) (fl : float_parser) (any_f32 : bool) dec tok w : digits tok -> 2 ^ 64 <= dec_val tok ->
  (dec = Base64Decoder -> 3 * zlen tok <= usize_max ar) ->
  ~ exists fuel s, js_from_mut_slice ar fl any_f32 dec fuel (any JDeserializeError) tok = Done s (Ok w).
Proof.
  intros [Ne D] B R H. 
  assert (A : all_bytes tok). { eapply Forall_impl; [|exact D]. unfold is_digit, is_byte. lia. }
  apply (self_describing_exact ar fl any_f32 dec w tok A R) in H.
  destruct H as (d & u1 & text & u2 & E & U1 & U2 & T & V).
  rewrite E in D. apply Forall_app in D. destruct D as [D1 D]. apply Forall_app in D. destruct D as [Dt D2].
  assert (X : forall u, any_ws u -> Forall is_digit u -> u = []).
  { intros [|c u] Hu Hd; auto. inversion Hu; inversion Hd; subst. unfold is_ws, is_digit in *. lia. }
  rewrite (X u1 U1 D1), (X u2 U2 D2) in E. rewrite app_nil_r in E. cbn in E. subst text. clear X U1 U2 D1 D2.
  inversion T; subst; try (inversion Dt; unfold is_digit in *; lia).
  - inversion V as [| |? ? N| | |]; subst. inversion N as [? ? (c & Hc & Hx) _ _|? _ Hlt|? ? ?]; subst.
    + rewrite Forall_forall in Dt. specialize (Dt c Hc). unfold is_digit in Dt. lia.
    + lia.
    + inversion Dt; unfold is_digit in *. lia.
  - match goal with Q : quoted _ _ |- _ => destruct Q as [-> _] end. inversion Dt; unfold is_digit in *. lia.
Qed.

Theorem js_big_float (ar : arch) (fl : float_parser) (fp : float_printer) (any_f32 : bool) enc dec b w :
  0 <= b < 2 ^ 64 -> finite64 b -> digits (format_f64 fp b) -> 2 ^ 64 <= dec_val (format_f64 fp b) -> enc <> PassThroughByteEncoder ->
  (dec = Base64Decoder -> 3 * zlen (format_f64 fp b) <= usize_max ar) ->
  js_to_string fp enc (SF64 b) = Ok (format_f64 fp b) /\
  ~ exists fuel s, js_from_mut_slice ar fl any_f32 dec fuel (any JDeserializeError) (format_f64 fp b) = Done s (Ok w).
Proof.
  intros Hb F D B Ne R. split; [|apply js_big_number; auto].
  unfold js_to_string, js_to_writer. cbn [js_ser]. unfold js_f64. rewrite (finite64_b b Hb).
  unfold finite64 in F. destruct (Z.eqb_spec (b / 2 ^ 52 mod 2048) 2047); [contradiction|].
  cbn. destruct enc; try reflexivity. contradiction.
Qed.

(** JSON: adjacently tagged enums are read from every document that represents them (C71). *)
From Verif Require Import Prelude PreludeFacts Utf8 Utf8Spec Utf8Facts SerdeDe SerdeSer MpSpec Base64Spec
  JsonSpec JsonTypeSpec JsonFacts JsonSer JsonErrMap JsonSerFacts JsonDe JsonDeSafe JsonStr JsonView JsonTok JsonMeth JsonEats JsonTyped FloatOps Types TypesFacts MpTypeSpec MpTyped JsonTypedTop JsonTypedSer
  Content Adjacent AdjacentSpec.
Ltac Zify.zify_post_hook ::= Z.div_mod_to_equations.

Section A.
Context (ar : arch) (fl : float_parser) (fo : float_ops) (any_f32 : bool) (dec : byte_decoder).
Local Notation run := (js_run ar fl any_f32 dec).
Local Notation eats := (eats ar dec).
Local Notation accepts := (accepts ar fl any_f32 dec).
Local Notation kaccepts := (kaccepts ar fl any_f32 dec).
Local Notation feedm := (feedm ar fl any_f32 dec).
Local Notation err := JDeserializeError.
Context (key_ws : bytes -> Prop) (Hkw : forall w, key_ws w -> any_ws w).
Local Notation reads := (reads_as key_ws (f32_from_str fl) (f64_from_str fl) (bytes_of dec)).

Lemma feed_others names k ms u o : Forall (other_member names) o -> feedm (next_relevant err names k) ms u -> feedm (next_relevant err names k) (o ++ ms) u.
Proof.
  intros H F. induction H as [|[raw d] o (s & L & N & D) _ IH]; cbn [app]; auto. rewrite (mfrob_eq (next_relevant _ _ _)); cbn [mfrob next_relevant].
  eapply FM_next; [eapply unknown_key; eauto|reflexivity|apply ignored_accepts; auto|]. exact IH.
Qed.
Lemma feed_at names k i n raw d ms vseed vk y u : NoDup names -> nth_error names i = Some n -> literal raw n -> k (Some i) = MVal vseed vk ->
  accepts vseed d y -> feedm (vk (Ok y)) ms u -> feedm (next_relevant err names k) ((raw, d) :: ms) u.
Proof.
  intros. rewrite (mfrob_eq (next_relevant _ _ _)); cbn [mfrob next_relevant]. eapply FM_next; [eapply ident_key; eauto| | |]; eauto.
Qed.
Lemma feed_end names k u : feedm (k None) [] u -> feedm (next_relevant err names k) [] u.
Proof. intros. rewrite (mfrob_eq (next_relevant _ _ _)); cbn [mfrob next_relevant]. apply FM_end. auto. Qed.
Lemma feed_no_more names v o : Forall (other_member names) o -> feedm (no_more err names v) o v.
Proof. intros H. rewrite <- (app_nil_r o). apply feed_others; auto. apply feed_end, FM_ret. Qed.

Lemma content_accepts k t v d : wf t -> kind_ok k t -> content_doc reads k t v d -> accepts (content_seed err k t) d v.
Proof.
  intros W K H. destruct k; cbn [content_doc] in H; try (destruct t; cbn [content_seed]; apply (typed_accepts ar fl any_f32 dec key_ws Hkw); auto; fail).
  - destruct H as [-> ->]. replace (content_seed err KUnit t) with (request DAny (v_untagged_unit err)) by (destruct t; auto). unfold request.
    apply (proj1 (accepts_req ar fl any_f32 dec _ _ _ _)). intros tx w r Hb Hw Hr. cbn [js_method]. unfold j_deserialize_any. inversion Hb; subst. cbn [app]. apply eats_ws; auto. cbn [Z.eqb Pos.eqb].
    apply (unit_eats ar dec _ UUnit [110; 117; 108; 108] [] r); auto. constructor.
  - destruct t as [ | | | | | | | | | | | | | | |fs| ]; cbn [kind_ok] in K; try contradiction.
    cbn [content_seed]. destruct H as [H (ms & ->)]. destruct v; cbn [reads_as] in H; try contradiction. destruct H as [(ds & E & _)|(ms' & got & E & Ho & Hl)]; [discriminate|]. injection E as <-.
    unfold request. apply (proj1 (accepts_req ar fl any_f32 dec _ _ _ _)). intros tx w r Hb Hw Hr. cbn [js_method]. unfold j_deserialize_any.
    destruct (obj_text _ _ Hb) as (b' & Eb & _). rewrite Eb. cbn [app]. apply eats_ws; auto.
    replace (ascii_digit 123) with false by reflexivity. cbn [Z.eqb Pos.eqb orb].
    change (123 :: (b' ++ [125]) ++ r) with ([] ++ (123 :: b' ++ [125]) ++ r). rewrite <- Eb.
    apply (map_eats ar fl any_f32 dec _ ms); [|auto|constructor]. cbn [mk_visitor v_map on_map visit_map]. destruct W as [[Hnd _] W].
    eapply (struct_feeds ar fl any_f32 dec key_ws); eauto.
    + apply Forall_forall. intros f _ Wf v x Hx. apply (typed_accepts ar fl any_f32 dec key_ws Hkw); auto.
    + clear - W. induction fs as [|f fs IH]; [exact I|]. destruct W as [[W1 _] W2]. split; auto.
Qed.
Lemma tag_accepts vs i n k t a : names_ok (map name_of vs) -> nth_error vs i = Some (n, k, t) -> literal a n -> accepts (denote err (tag_ty vs)) (JStr a) (UVar i UUnit).
Proof.
  intros Hn E L. assert (Em : map name_of (map (fun f : bytes * vkind * ty => (name_of f, KUnit, TUnit)) vs) = map name_of vs) by (rewrite map_map; auto).
  apply (typed_accepts ar fl any_f32 dec key_ws Hkw).
  - cbn [tag_ty wf]. rewrite Em. split; auto. clear. induction vs; cbn; auto.
  - cbn [tag_ty reads_as]. rewrite !nth_error_map, E. cbn. split; eauto.
Qed.
Theorem adjacent_accepts tag content vs i v d : names_ok [tag; content] -> wf (TEnum vs) -> adjacent_doc reads tag content vs i v d ->
  accepts (adjacent fo err tag content vs) d (UVar i v).
Proof.
  intros [Hn _] [Hv Hw] H. unfold adjacent, request. apply (proj1 (accepts_req ar fl any_f32 dec _ _ _ _)). intros tx w r Hb Hsp Hr. cbn [js_method]. unfold j_deserialize_struct.
  assert (Ht : forall n k t, nth_error vs i = Some (n, k, t) -> wf t /\ kind_ok k t).
  { intros n k t E. apply (all_list_In _ _ Hw _ (nth_error_In _ _ E)). }
  destruct H as [n k t a d E La Hd|n k t o1 kt a o2 kc d o3 E O Lt La Lc Hd|n k t o1 kt a o2 E O Lt La Hd]; destruct (Ht _ _ _ E) as [W K].
  - destruct (arr_text _ _ Hb) as (b' & Eb & _). rewrite Eb. cbn [app]. apply eats_ws; auto. cbn [Z.eqb Pos.eqb].
    change (91 :: (b' ++ [93]) ++ r) with ([] ++ (91 :: b' ++ [93]) ++ r). rewrite <- Eb.
    apply (seq_eats ar fl any_f32 dec _ [JStr a; d]); [|auto|constructor]. cbn [mk_visitor v_struct on_seq visit_seq]. unfold adjacent_seq.
    eapply FS_next.
    + unfold ident, request. apply (proj1 (accepts_req ar fl any_f32 dec _ _ _ _)). intros tx' w' r' Hb' Hw' Hr'. cbn [js_method]. inversion Hb' as [| | | |? ? Q| | | |]; subst. destruct Q as [-> _]. cbn [app]. rewrite <- app_assoc.
      eapply str_eats; [exact La|auto|]. cbn. rewrite (find_name_spec (map name_of vs) (proj1 Hv) i n 0); [reflexivity|]. rewrite nth_error_map, E. reflexivity.
    + cbn [Nat.add]. cbn iota beta. rewrite E. eapply FS_next; [apply content_accepts; eauto|]. apply FS_ret.
  - destruct (obj_text _ _ Hb) as (b' & Eb & _). rewrite Eb. cbn [app]. apply eats_ws; auto. cbn [Z.eqb Pos.eqb].
    change (123 :: (b' ++ [125]) ++ r) with ([] ++ (123 :: b' ++ [125]) ++ r). rewrite <- Eb.
    apply Forall_app in O. destruct O as [O1 O]. apply Forall_app in O. destruct O as [O2 O3].
    eapply map_eats; [|exact Hb|constructor]. cbn [mk_visitor v_struct on_map visit_map]. unfold adjacent_map. cbv zeta.
    apply feed_others; auto. eapply (feed_at _ _ 0%nat tag); [exact Hn|reflexivity|exact Lt|reflexivity|eapply tag_accepts; eauto|]. cbn iota beta. rewrite E.
    apply feed_others; auto. eapply (feed_at _ _ 1%nat content); [exact Hn|reflexivity|exact Lc|reflexivity|apply content_accepts; eauto|]. cbn iota beta. apply feed_no_more. auto.
  - destruct (obj_text _ _ Hb) as (b' & Eb & _). rewrite Eb. cbn [app]. apply eats_ws; auto. cbn [Z.eqb Pos.eqb].
    change (123 :: (b' ++ [125]) ++ r) with ([] ++ (123 :: b' ++ [125]) ++ r). rewrite <- Eb.
    apply Forall_app in O. destruct O as [O1 O2].
    eapply map_eats; [|exact Hb|constructor]. cbn [mk_visitor v_struct on_map visit_map]. unfold adjacent_map. cbv zeta.
    apply feed_others; auto. eapply (feed_at _ _ 0%nat tag); [exact Hn|reflexivity|exact Lt|reflexivity|eapply tag_accepts; eauto|]. cbn iota beta. rewrite E.
    rewrite <- (app_nil_r o2). apply feed_others; auto. apply feed_end.
    destruct k; cbn [no_content] in Hd; try contradiction.
    + subst. destruct t; apply FM_ret.
    + destruct Hd as [-> [t' ->]]. apply FM_ret.
Qed.
End A.


(** ** Texts and round trips *)
Section T.
Context (ar : arch) (fl : float_parser) (fo : float_ops) (any_f32 : bool) (dec : byte_decoder).
Local Notation err := JDeserializeError.

Theorem js_adjacent_accepts tag content vs i v d text w1 w2 : names_ok [tag; content] -> wf (TEnum vs) ->
  adjacent_doc (reads_as no_ws (f32_from_str fl) (f64_from_str fl)
    (match dec with NopeDecoder => bytes_as_string | HexDecoder => hex_bytes | Base64Decoder => bytes_as_base64 end)) tag content vs i v d ->
  raw_text d text -> any_ws w1 -> any_ws w2 ->
  (dec = Base64Decoder -> 3 * zlen (w1 ++ text ++ w2) <= usize_max ar) ->
  exists N, forall fuel, (N <= fuel)%nat ->
    exists s, js_from_mut_slice ar fl any_f32 dec fuel (adjacent fo err tag content vs) (w1 ++ text ++ w2) = Done s (Ok (UVar i v)).
Proof.
  intros Hn W H T. apply accepts_top with (d := d); [|apply raw_loose; auto]. apply (adjacent_accepts ar fl fo any_f32 dec no_ws); auto; [intros w ->; constructor|]. replace (bytes_of dec) with
    (match dec with NopeDecoder => bytes_as_string | HexDecoder => hex_bytes | Base64Decoder => bytes_as_base64 end); [exact H|].
  destruct dec; reflexivity.
Qed.
Theorem js_adjacent_trip fp enc tag content vs i n k t v out w1 w2 : inverse32 fp fl -> inverse64 fp fl -> matching enc dec -> printer_ok fp ->
  names_ok [tag; content] -> wf (TEnum vs) -> nth_error vs i = Some (n, k, t) -> hastype t v -> no_newtype_keys t ->
  js_to_string fp enc (adjacent_trace tag content vs (UVar i v)) = Ok out -> any_ws w1 -> any_ws w2 ->
  (dec = Base64Decoder -> 3 * zlen (w1 ++ out ++ w2) <= usize_max ar) ->
  exists N, forall fuel, (N <= fuel)%nat ->
    exists s, js_from_mut_slice ar fl any_f32 dec fuel (adjacent fo err tag content vs) (w1 ++ out ++ w2) = Done s (Ok (UVar i (json_image t v))).
Proof.
  intros L32 L64 Hm P Hn [Hv Hw] E H Hk Eo W1 W2 R. pose proof (all_list_In _ _ Hw _ (nth_error_In _ _ E)) as [Wt Kt]. cbn [snd fst attr_of] in *.
  destruct (typed_strings t Wt v H) as [S1 M1]. set (x := adjacent_trace tag content vs (UVar i v)) in *.
  assert (U1 : valid_utf8 tag /\ valid_utf8 content). { destruct Hn as (_ & Hu & _). inversion Hu as [|? ? [U1 _] Hu']. inversion Hu' as [|? ? [U2 _] _]. auto. }
  assert (U : valid_utf8 n). { destruct Hv as (_ & W0 & _). rewrite Forall_forall in W0. apply W0. apply in_map_iff. exists (n, k, t). split; auto. eapply nth_error_In; eauto. }
  assert (Sx : strings_ok x /\ maps_ok x). { unfold x. cbn [adjacent_trace]. rewrite E. destruct k; cbn; tauto. }
  destruct Sx as [S M]. pose proof (to_string_canon fp enc x (matching_pass _ _ Hm) P S M) as C.
  destruct (js_value fp enc x) as [j|] eqn:Ej; [|destruct C as (e & C & _); congruence].
  destruct C as (out' & C & T). assert (out' = out) by congruence. subst out'.
  apply accepts_top with (d := tok_doc j); auto. 2:{ apply raw_loose, canon_raw. exact T. }
  apply (adjacent_accepts ar fl fo any_f32 dec no_ws); auto; [intros w ->; constructor|split; auto|].
  assert (D : k = KUnit \/ k <> KUnit) by (destruct k; auto; right; discriminate). destruct D as [->|N].
  - unfold x, js_value in Ej. cbn [adjacent_trace] in Ej. rewrite E in Ej. cbn in Ej. injection Ej as <-. cbn [tok_doc map fst snd].
    apply (AD_alone _ tag content vs i _ n KUnit t [] (esc_text tag) (esc_text n) []); auto; try apply esc_literal; try tauto; [constructor|]. destruct t; try contradiction. destruct v; try contradiction. reflexivity.
  - assert (Ex : x = SStruct 2 [(tag, Some (SUnitVariant (Z.of_nat i) n)); (content, Some (trace t v))]) by (unfold x; cbn [adjacent_trace]; rewrite E; destruct k; congruence).
    rewrite Ex in Ej. unfold js_value in Ej. cbn [js_doc doc_fields] in Ej.
    match type of Ej with context [js_doc ?a ?b ?c (trace t v)] => destruct (js_doc a b c (trace t v)) as [jt|] eqn:Et; [|discriminate] end. cbn in Ej. injection Ej as <-. cbn [tok_doc map fst snd].
    destruct (typed_doc fp fl enc dec L32 L64 Hm t Wt Hk v jt H Et) as [Sh _].
    apply (AD_object _ tag content vs i _ n k t [] (esc_text tag) (esc_text n) [] (esc_text content) (tok_doc jt) []); auto; try apply esc_literal; try tauto; [constructor|].
    destruct k; cbn [content_doc]; auto; [congruence|]. split; auto. destruct t; try contradiction. destruct v; try contradiction. cbn [trace] in Et. unfold struct_call in Et. cbn [js_doc] in Et.
    destruct (doc_fields _ _) as [l'|]; [|discriminate]. injection Et as <-. eexists. reflexivity.
Qed.
End T.

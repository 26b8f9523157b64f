(** Every fault of a JSON input read at a type gives the error it should. *)
From Verif Require Import Prelude PreludeFacts Utf8 Utf8Spec Utf8Facts SerdeDe SerdeSer MpSpec Base64Spec
  JsonSpec JsonTypeSpec JsonFacts JsonDe JsonDeSafe JsonStr JsonView JsonTok JsonMeth JsonEats JsonTyped
  Types TypesFacts MpTypeSpec MpTyped MpSerSim JsonSound JsonFaultSpec JsonFaultLeaf JsonFault.
Ltac Zify.zify_post_hook ::= Z.div_mod_to_equations.

Section Fault.
Context (ar : arch) (fl : float_parser) (any_f32 : bool) (dec : byte_decoder).
Local Notation M := (DM jde js_de_error).
Local Notation inside := (inside ar dec).
Local Notation run := (js_run ar fl any_f32 dec).
Local Notation eats := (eats ar dec).
Local Notation gives := (gives ar dec).
Local Notation fails m l e := (gives m l (failed e)).
Local Notation den := (denote JDeserializeError).
Local Notation deser := (deser val js_de_error).
Local Notation visitor := (visitor val js_de_error).
Local Notation sprog := (sprog val js_de_error).
Local Notation mprog := (mprog val js_de_error).
Local Notation reading p := (fun f => jr_de (run f) false p).
Local Notation keyed p := (fun f => jr_de (run f) true p).
Local Notation seqing p first := (fun f => jr_seq (run f) p first).
Local Notation mapping p first := (fun f => jr_map (run f) p first).
Local Notation sreach := (sreach ar fl any_f32 dec).
Local Notation mreach := (mreach ar fl any_f32 dec).
Local Notation reads := (reads_as any_ws (f32_from_str fl) (f64_from_str fl) (bytes_of dec)).
Local Notation takes := (takes (f32_from_str fl) (f64_from_str fl) dec).
Local Notation takes_entry := (takes_entry (f32_from_str fl) (f64_from_str fl) dec).
Local Notation takes_fields := (takes_fields (f32_from_str fl) (f64_from_str fl) dec).
Local Notation js_fault := (js_fault (f32_from_str fl) (f64_from_str fl) dec).

Lemma ends_num t d k : (forall i, leaf t <> TInt i) -> ends_here t d k -> cannot_extend d k.
Proof.
  intros N H. destruct d; cbn [ends_here cannot_extend] in *; auto. destruct (leaf t) eqn:E; auto. exfalso. eapply N; eauto.
Qed.
Lemma leaf_int t : (exists i, leaf t = TInt i) \/ (forall i, leaf t <> TInt i).
Proof. destruct (leaf t); try (right; intros i; discriminate). left. eauto. Qed.
Lemma takes_int_eats i t : leaf t = TInt i -> forall v d b w k, reads t v d -> loose_text d b -> any_ws w -> ends_here t d k ->
  eats (reading (den t)) v (w ++ b ++ k) k.
Proof.
  induction t as [|k0| | | | | | | |t IH|t IH|t IH|ts IH|ts IH|kt vt IHk IHv|fs IH|vs IH] using ty_ind'; intros E v d b w k H Hb Hw He; try discriminate.
  - cbn [leaf] in E. injection E as ->. cbn [reads_as] in H. destruct v; try contradiction. destruct H as (tok & -> & L). inversion Hb; subst.
    cbn [ends_here leaf] in He. cbn [denote request]. apply eats_S. cbn [js_run jr_de j_step_de]. eapply eats_post; [|reflexivity].
    cbn [js_method]. eapply eats_view; [apply view_m_int|]. intros _. unfold p_m_int.
    assert (T : takes_int i z (w ++ b ++ k) k) by (exists w, b; auto). apply int_ok in T. rewrite T. cbn [pbind]. cbn.
    rewrite (proj2 (in_ikindb_spec _ _) (proj1 L)). reflexivity.
  - cbn [leaf] in E. assert (He' : ends_here t d k) by (destruct d; exact He). clear He. cbn [reads_as] in H. destruct v; try contradiction.
    + subst d. inversion Hb; subst. cbn [denote request]. apply eats_S. cbn [js_run jr_de j_step_de]. eapply eats_post; [|reflexivity]. cbn [js_method]. unfold j_deserialize_option.
      cbn [app]. apply eats_ws; auto. cbn [Z.eqb Pos.eqb]. apply eats_eat1.
      eapply (eats_bind ar dec (fun _ => parse_token_content tok_ull)); [|apply eats_lift; reflexivity].
      eapply eats_view; [apply view_tok|]. intros _. apply tok_ull_app.
    + destruct H as [H Hn]. cbn [denote request]. apply eats_S. cbn [js_run jr_de j_step_de]. eapply eats_post; [|reflexivity]. cbn [js_method]. unfold j_deserialize_option.
      pose proof (IH E v d b [] k H Hb ltac:(constructor) He') as A. destruct (text_head _ _ Hb) as (c & b' & -> & Hs & _ & _ & _ & Hc). cbn [app] in A |- *. apply eats_ws; auto.
      replace (c =? 110) with false by (destruct (Z.eqb_spec c 110); [exfalso; auto|auto]).
      change (eats (reading (then_ (den t) (map_ok USome))) (USome v) (c :: b' ++ k) k).
      destruct (denote_req t) as (m & vis & E'). rewrite E' in *. cbn [then_].
      apply eats_S. cbn [js_run jr_de j_step_de]. eapply eats_post; [|reflexivity]. apply eats_unpost. apply eats_up in A. exact A.
  - cbn [leaf] in E. assert (He' : ends_here t d k) by (destruct d; exact He). clear He. cbn [reads_as] in H.
    cbn [denote request]. apply eats_S. cbn [js_run jr_de j_step_de]. eapply eats_post; [|reflexivity]. cbn [js_method]. unfold j_deserialize_newtype_struct.
    change (eats (reading (den t)) v (w ++ b ++ k) k). eapply IH; eauto.
Qed.
Lemma takes_eats t v l k : wf t -> takes t v l k -> eats (reading (den t)) v l k.
Proof.
  intros Hwf (w & d & b & -> & Hw & Hb & H & He). destruct (leaf_int t) as [[i E]|N]; [eapply takes_int_eats; eauto|].
  apply (typed_accepts ar fl any_f32 dec any_ws (fun w H => H) t Hwf v d H b w k Hb Hw). eapply ends_num; eauto.
Qed.

(** ** What is left is a part of the input *)
Lemma takes_tail t v l k : takes t v l k -> tail_of k l.
Proof. intros (w & d & b & -> & _). rewrite app_assoc. apply tail_app. Qed.
Lemma takes_entry_tail kt vt e l k : takes_entry kt vt e l k -> tail_of k l.
Proof.
  intros (raw & m & r & -> & _ & Hb & Ht). eapply tail_trans; [eapply takes_tail; exact Ht|]. eapply tail_trans; [eapply begins_tail1; exact Hb|apply quoted_tail].
Qed.
Lemma takes_fields_tail fs got first l got' first' k : takes_fields fs got first l got' first' k -> tail_of k l.
Proof.
  induction 1 as [got first l|got first l i f v raw m r y got' first' k Hi _ _ _ Hb Ht _ IH|got first l raw s m r y got' first' k Hi _ _ Hb Ht _ IH]; [apply tail_refl| |].
  - eapply tail_trans; [exact IH|]. eapply tail_trans; [eapply takes_tail; exact Ht|]. eapply tail_trans; [eapply begins_tail1; exact Hb|].
    eapply tail_trans; [apply quoted_tail|eapply item_tail; exact Hi].
  - eapply tail_trans; [exact IH|]. eapply tail_trans; [eapply skips_tail; exact Ht|]. eapply tail_trans; [eapply begins_tail1; exact Hb|].
    eapply tail_trans; [apply quoted_tail|eapply item_tail; exact Hi].
Qed.
Definition shortens (p : bytes -> bytes -> Prop) : Prop := forall x y, p x y -> tail_of y x.
Lemma map_shortens {A} (f : A -> bytes -> bytes -> Prop) l : (forall a, shortens (f a)) -> Forall shortens (map f l).
Proof. intros H. induction l; constructor; auto. Qed.
Lemma zip_shortens {A} (g : A -> ty) l : forall vs, Forall shortens (zip (fun (p : val -> bytes -> bytes -> Prop) v => p v) (map (fun a => takes (g a)) l) vs).
Proof. induction l as [|a l IH]; intros [|v vs]; cbn [map zip]; constructor; auto. intros x y. apply takes_tail. Qed.

(** ** Loops *)
Lemma seq_reach t vs : wf t -> forall acc first l first' k, walk 93 first (map (takes t) vs) l first' k ->
  sreach (seq_loop (den t) acc) first l (seq_loop (den t) (rev vs ++ acc)) first' k.
Proof.
  intros W. induction vs as [|v vs IH]; intros acc first l first' k H; cbn [map] in H.
  - apply walk_nil_inv in H. destruct H as [-> ->]. apply sreach_refl.
  - apply walk_cons_inv in H. destruct H as (x & y & Hi & Hp & Hw). rewrite (sfrob_eq (seq_loop (den t) acc)). cbn [sfrob seq_loop].
    eapply sreach_trans; [eapply snext_item; [exact Hi|apply takes_eats; eauto]|]. cbv beta iota. cbn [rev]. rewrite <- app_assoc. apply IH; auto.
Qed.
Lemma tuple_reach {A} (g : A -> ty) (h : A -> option val) rest l1 : Forall (fun a => wf (g a)) l1 -> forall vs acc first l first' k,
  length vs = length l1 -> walk 93 first (zip (fun (p : val -> bytes -> bytes -> Prop) v => p v) (map (fun a => takes (g a)) l1) vs) l first' k ->
  sreach (tuple_prog JDeserializeError (map (fun a => (den (g a), h a)) (l1 ++ rest)) acc) first l
    (tuple_prog JDeserializeError (map (fun a => (den (g a), h a)) rest) (rev vs ++ acc)) first' k.
Proof.
  induction 1 as [|a l1 Ha _ IH]; intros [|v vs] acc first l first' k L H; try discriminate; cbn [map zip] in H.
  - apply walk_nil_inv in H. destruct H as [-> ->]. apply sreach_refl.
  - apply walk_cons_inv in H. destruct H as (x & y & Hi & Hp & Hw). cbn [map app tuple_prog].
    eapply sreach_trans; [eapply snext_item; [exact Hi|apply takes_eats; eauto]|]. cbv beta iota. cbn [rev]. rewrite <- app_assoc. apply IH; auto.
Qed.
(** Fields left out at the end take their defaults. *)
Lemma tuple_defaults {A} (g : A -> ty) (h : A -> option val) rest l1 : Forall (fun a => h a <> None) l1 -> forall acc first k r,
  begins k 93 r -> exists acc' k', drop_ws k' = drop_ws k /\ sreach (tuple_prog JDeserializeError (map (fun a => (den (g a), h a)) (l1 ++ rest)) acc) first k
    (tuple_prog JDeserializeError (map (fun a => (den (g a), h a)) rest) acc') first k'.
Proof.
  induction 1 as [|a l1 Ha _ IH]; intros acc first k r Hb.
  - exists acc, k. split; auto. apply sreach_refl.
  - destruct (h a) as [v|] eqn:E; [|congruence]. assert (Hb' : begins (93 :: r) 93 r) by (apply begins_here; reflexivity).
    destruct (IH (v :: acc) first (93 :: r) r Hb') as (acc' & k' & D & R).
    exists acc', k'. split; [rewrite D; apply begins_drop in Hb, Hb'; congruence|]. cbn [map app tuple_prog]. rewrite E.
    eapply sreach_trans; [eapply snext_close; exact Hb|]. exact R.
Qed.
Lemma map_reach kt vt es : wf kt -> wf vt -> forall acc first l first' k, walk 125 first (map (takes_entry kt vt) es) l first' k ->
  mreach (map_loop (den kt) (den vt) acc) first l (map_loop (den kt) (den vt) (rev es ++ acc)) first' k.
Proof.
  intros Wk Wv. induction es as [|[u v] es IH]; intros acc first l first' k H; cbn [map] in H.
  - apply walk_nil_inv in H. destruct H as [-> ->]. apply mreach_refl.
  - apply walk_cons_inv in H. destruct H as (x & y & Hi & (raw & m & r & -> & Hk & Hb & Hv) & Hw). cbn [fst snd] in *. rewrite (mfrob_eq (map_loop (den kt) (den vt) acc)). cbn [mfrob map_loop].
    eapply mreach_trans; [eapply mkey_item; [exact Hi|exact (key_reads ar fl any_f32 dec any_ws (fun w H => H) kt u raw Wk Hk m)]|]. cbv beta iota.
    eapply mreach_trans; [eapply mval_item; [exact Hb|apply takes_eats; eauto]|]. cbv beta iota. cbn [rev]. rewrite <- app_assoc. apply IH; auto.
Qed.
Local Notation members fs := (struct_loop JDeserializeError (map name_of fs) (map (fun f => den (snd f)) fs) (map absent_val fs)).
Lemma struct_reach (fs : list (bytes * fattr * ty)) : Forall (fun f => wf (snd f)) fs -> NoDup (map name_of fs) -> forall got first l got' first' k,
  takes_fields fs got first l got' first' k -> mreach (members fs got) first l (members fs got') first' k.
Proof.
  intros W Hnd got first l got' first' k H.
  induction H as [got first l|got first l i f v raw m r y got' first' k Hi Hg Hf L Hb Ht _ IH|got first l raw s m r y got' first' k Hi L Hs Hb Ht _ IH]; [apply mreach_refl| |];
    rewrite (mfrob_eq (members fs got)); cbn [mfrob struct_loop].
  - eapply mreach_trans; [eapply mkey_item; [exact Hi|eapply (ident_key ar fl any_f32 dec false (map name_of fs) i (name_of f)); eauto; rewrite nth_error_map, Hf; reflexivity]|].
    cbv beta iota. rewrite nth_error_map, Hf, Hg. cbn [option_map].
    eapply mreach_trans; [eapply mval_item; [exact Hb|apply takes_eats; eauto]|]. { rewrite Forall_forall in W. apply W. eapply nth_error_In; eauto. }
    cbv beta iota. exact IH.
  - eapply mreach_trans; [eapply mkey_item; [exact Hi|eapply (unknown_key ar fl any_f32 dec (map name_of fs) s); eauto]|]. cbv beta iota.
    eapply mreach_trans; [eapply mval_item; [exact Hb|apply skips_eats; eauto]|]. cbv beta iota. exact IH.
Qed.

(** ** Identifiers and keys *)
Lemma ident_text strict ns l r e : begins l 34 r -> all_bytes r -> text_fault r e -> fails (reading (ident JDeserializeError strict ns)) l e.
Proof.
  intros Hb B H. apply (proj1 (fails_req ar fl any_f32 dec DIdentifier _ l e)). cbn [js_method].
  eapply fails_view; [apply view_m_str|]. intros _. unfold p_m_str. rewrite (p_ws_begins _ _ _ _ Hb). cbn [Z.eqb Pos.eqb]. apply str_err in H; auto. rewrite H. reflexivity.
Qed.
Lemma ident_unknown ns l raw s r : begins l 34 (raw ++ 34 :: r) -> literal raw s -> ~ In s ns -> fails (reading (ident JDeserializeError true ns)) l JDeserializeError.
Proof.
  intros Hb L H. apply (proj1 (fails_req ar fl any_f32 dec DIdentifier _ l _)). cbn [js_method].
  eapply fails_view; [apply view_m_str|]. intros _. unfold p_m_str. rewrite (p_ws_begins _ _ _ _ Hb). cbn [Z.eqb Pos.eqb]. rewrite (p_str_literal _ _ _ L). cbn. rewrite find_name_none; auto.
Qed.
Lemma ident_eats ns i n l raw r : NoDup ns -> nth_error ns i = Some n -> begins l 34 (raw ++ 34 :: r) -> literal raw n ->
  eats (reading (ident JDeserializeError true ns)) (UIdent (Some i)) l r.
Proof.
  intros Hnd Hn (w & -> & Hw & _) L. apply (ident_literal ar fl any_f32 dec true ns i n raw); auto.
Qed.
Lemma enum_ident_fails unit vs l e : fails (reading (ident JDeserializeError true (map name_of vs))) l e ->
  fails (fun f => jr_enum (run f) unit (enum_prog JDeserializeError (map name_of vs) (map (fun f => (attr_of f, den (snd f))) vs))) l e.
Proof.
  intros H. apply gives_S. cbn [js_run jr_enum j_step_enum enum_prog].
  apply (fails_try ar dec (fun f => u <-- jr_de (run f) false (ident JDeserializeError true (map name_of vs)) ;; _ <-- (if unit then dret tt else parse_key_colon) ;; dret u)).
  - apply (fails_bind ar dec (reading (ident JDeserializeError true (map name_of vs)))). exact H.
  - exists O. intros f _ s. exists s. reflexivity.
Qed.
(** A name alone where data is due. *)
Lemma enum_name_data vs i f l raw r : NoDup (map name_of vs) -> nth_error vs i = Some f -> attr_of f <> KUnit -> kind_ok (attr_of f) (snd f) ->
  begins l 34 (raw ++ 34 :: r) -> literal raw (name_of f) ->
  fails (fun f => jr_enum (run f) true (enum_prog JDeserializeError (map name_of vs) (map (fun f => (attr_of f, den (snd f))) vs))) l JInvalidType.
Proof.
  intros Hnd Hf Nk Ko Hb L. apply gives_S. cbn [js_run jr_enum j_step_enum enum_prog].
  eapply gives_try.
  - eapply eats_bind; [eapply (ident_eats (map name_of vs) i (name_of f)); eauto; rewrite nth_error_map, Hf; reflexivity|].
    eapply eats_bind; [apply eats_ret|apply eats_ret].
  - cbn iota beta. rewrite nth_error_map, Hf. cbn [option_map]. destruct f as [[n kd] c]. cbn [attr_of fst snd] in *.
    assert (P : forall {A} (post : result A js_de_error -> result val js_de_error), post (Err JInvalidType) = Err JInvalidType ->
      fails (fun _ => dpost post (dfail JInvalidType)) r JInvalidType).
    { intros A post E. apply (fails_post ar dec post (fun _ => dfail JInvalidType)); auto. apply fails_fail. }
    destruct kd; [congruence| | |].
    + cbn [j_run_variant]. apply P; auto.
    + destruct (denote_req c) as (m & v & E). rewrite E. cbn [j_run_variant]. apply P; auto.
    + destruct (denote_req c) as (m & v & E). rewrite E. cbn [j_run_variant]. apply P; auto.
Qed.
Lemma char_err raw s r l : begins l 34 (raw ++ 34 :: r) -> literal raw s -> (forall c, is_scalar c -> s <> utf8_char c) ->
  forall (v : visitor), p_m_char v l = Err JInvalidLength.
Proof.
  intros Hb L H v. unfold p_m_char. rewrite (p_ws_begins _ _ _ _ Hb). cbn [Z.eqb Pos.eqb]. rewrite (p_str_literal _ _ _ L). cbn [pbind].
  destruct (char_from_str s) as [c|] eqn:E; auto. apply char_from_str_spec in E. destruct E as [E1 E2]. exfalso. eapply H; eauto.
Qed.
Lemma char_text l r e : begins l 34 r -> all_bytes r -> text_fault r e -> forall (v : visitor), p_m_char v l = Err e.
Proof. intros Hb B H v. unfold p_m_char. rewrite (p_ws_begins _ _ _ _ Hb). cbn [Z.eqb Pos.eqb]. apply str_err in H; auto. rewrite H. reflexivity. Qed.
Lemma key_view t m v g q e : den t = DReq m v (fun r => r) -> views ar dec same (key_method (run 0) m v) g -> 
  (forall f, key_method (run f) m v = key_method (run 0) m v) -> g (34 :: q) = Err e -> fails (keyed (den t)) (34 :: q) e.
Proof.
  intros E V X H. rewrite E. apply gives_S. cbn [js_run jr_de j_step_de]. apply fails_post; [|auto].
  eapply gives_ext; [exact X|]. eapply fails_view; [exact V|]. auto.
Qed.
Lemma text_key_fails t q e : wf t -> text_key t -> all_bytes q -> text_fault q e -> fails (keyed (den t)) (34 :: q) e.
Proof.
  intros W Hk B H.
  assert (Hb : begins (34 :: q) 34 q) by (apply begins_here; reflexivity).
  destruct t; cbn [text_key] in Hk; try contradiction; cbn [denote]; unfold request; try (apply key_text; [exact I|auto..]).
  - apply gives_S. cbn [js_run jr_de j_step_de]. apply fails_post; [|auto]. cbn [key_method]. eapply fails_view; [apply view_m_char|]. intros _. eapply char_text; eauto.
  - apply gives_S. cbn [js_run jr_de j_step_de]. apply fails_post; [|auto]. cbn [key_method mk_visitor visit_enum v_enum on_enum]. apply enum_ident_fails. eapply ident_text; eauto.
Qed.
Lemma numkey_fails k q e : p_numkey k q = Err e -> fails (keyed (den (TInt k))) (34 :: q) e.
Proof.
  intros H. cbn [denote]. unfold request. apply gives_S. cbn [js_run jr_de j_step_de]. apply fails_post; [|auto]. cbn [key_method].
  apply (fails_bind ar dec (fun _ => parse_numkey k)). unfold parse_numkey. apply gives_eat1. eapply fails_view; [|intros _; exact H].
  apply (views_bind ar dec same same (parse_int k) _ (p_int k) (fun n => p_peek (fun c r => if c =? 34 then Ok (n, r) else Err JInvalidNumber))); [apply view_int|]. intros a. apply view_quote.
Qed.
Lemma boolkey_fails q e : p_key_bool (mk_visitor (v_bool JDeserializeError)) q = Err e -> fails (keyed (den TBool)) (34 :: q) e.
Proof.
  intros H. cbn [denote]. unfold request. apply gives_S. cbn [js_run jr_de j_step_de]. apply fails_post; [|auto]. cbn [key_method].
  unfold key_bool. apply gives_eat1. eapply fails_view; [|intros _; exact H].
  apply (views_bind ar dec same same (j_deserialize_bool _) _ (p_m_bool _) (fun n => p_peek (fun c r => if c =? 34 then Ok (n, r) else Err JInvalidType))); [apply view_m_bool|].
  intros a. apply view_quote.
Qed.
Lemma variant_kind vs i f : wf (TEnum vs) -> nth_error vs i = Some f -> wf (snd f) /\ kind_ok (attr_of f) (snd f).
Proof. intros [_ H] E. apply (all_list_In _ _ H f). eapply nth_error_In; eauto. Qed.
Lemma word_bool (b : bool) w k (v : visitor) u : any_ws w -> visit_bool v b = Ok u ->
  p_m_bool v (w ++ (if b then 116 :: rue else 102 :: alse) ++ k) = Ok (u, k).
Proof.
  intros Hw Hv. unfold p_m_bool. destruct b; cbn [app].
  - rewrite (p_ws_begins _ _ 116 (rue ++ k)) by (exists w; repeat split; auto; unfold is_ws; lia). cbn [Z.eqb Pos.eqb].
    assert (T : p_tok tok_rue (rue ++ k) = Ok (tt, k)) by (apply word_ok; reflexivity). rewrite T. cbn [pbind]. rewrite Hv. reflexivity.
  - rewrite (p_ws_begins _ _ 102 (alse ++ k)) by (exists w; repeat split; auto; unfold is_ws; lia). cbn [Z.eqb Pos.eqb].
    assert (T : p_tok tok_alse (alse ++ k) = Ok (tt, k)) by (apply word_ok; reflexivity). rewrite T. cbn [pbind]. rewrite Hv. reflexivity.
Qed.
Lemma key_fails t q e : wf t -> all_bytes q -> key_fault t q e -> fails (keyed (den t)) (34 :: q) e.
Proof.
  intros W B H. destruct H as [t l e Hk H|t raw s r Hk L|raw s r L H|vs raw s r L H|vs raw i f r Hf Nk L|k l e H|k w z tok Hw L|k w z tok c r Hw L He N|l e H|w b Hw|w b c r Hw N].
  - apply text_key_fails; auto.
  - destruct t; cbn [no_key] in Hk; try contradiction; cbn [denote]; unfold request; (eapply key_refused; [exact I|exact L|reflexivity|reflexivity]).
  - cbn [denote]. unfold request. apply gives_S. cbn [js_run jr_de j_step_de]. apply fails_post; [|auto]. cbn [key_method]. eapply fails_view; [apply view_m_char|].
    intros _. eapply char_err; eauto. apply begins_here. reflexivity.
  - cbn [denote]. unfold request. apply gives_S. cbn [js_run jr_de j_step_de]. apply fails_post; [|auto]. cbn [key_method mk_visitor visit_enum v_enum on_enum].
    apply enum_ident_fails. eapply ident_unknown; eauto. apply begins_here. reflexivity.
  - destruct (variant_kind _ _ _ W Hf) as [Wf Ko]. destruct W as [[Hnd _] _]. cbn [denote]. unfold request. apply gives_S. cbn [js_run jr_de j_step_de]. apply fails_post; [|auto]. cbn [key_method mk_visitor visit_enum v_enum on_enum].
    eapply enum_name_data; eauto. apply begins_here. reflexivity.
  - apply numkey_fails. unfold p_numkey. apply int_err in H. rewrite H. reflexivity.
  - apply numkey_fails. unfold p_numkey. assert (T : takes_int k z (w ++ tok) []) by (exists w, tok; rewrite app_nil_r; split; [auto|split; [auto|split; [auto|]]]; right; right; exact I).
    apply int_ok in T. rewrite T. reflexivity.
  - apply numkey_fails. unfold p_numkey. assert (T : takes_int k z (w ++ tok ++ c :: r) (c :: r)) by (exists w, tok; auto). apply int_ok in T. rewrite T.
    cbn [pbind p_peek]. replace (c =? 34) with false by lia. reflexivity.
  - apply boolkey_fails. unfold p_key_bool. apply (proj2 (bool_err (mk_visitor (v_bool JDeserializeError)) l e ltac:(intros x; eexists; reflexivity))) in H. rewrite H. reflexivity.
  - apply boolkey_fails. unfold p_key_bool. pose proof (word_bool b w [] (mk_visitor (v_bool JDeserializeError)) (UBool b) Hw eq_refl) as T. rewrite app_nil_r in T. rewrite T. reflexivity.
  - apply boolkey_fails. unfold p_key_bool. rewrite (word_bool b w (c :: r) (mk_visitor (v_bool JDeserializeError)) (UBool b) Hw eq_refl). cbn [pbind p_peek]. replace (c =? 34) with false by lia. reflexivity.
Qed.

(** ** Values *)
Lemma char_kind l c r (v : visitor) : begins l c r -> c <> 34 -> p_m_char v l = Err JExpectedString.
Proof. intros Hb N. unfold p_m_char. rewrite (p_ws_begins _ _ _ _ Hb). replace (c =? 34) with false by lia. reflexivity. Qed.
Lemma str_kind l c r (v : visitor) : begins l c r -> c <> 34 -> p_m_str v l = Err JExpectedString.
Proof. intros Hb N. unfold p_m_str. rewrite (p_ws_begins _ _ _ _ Hb). replace (c =? 34) with false by lia. reflexivity. Qed.
Lemma str_text l r e (v : visitor) : begins l 34 r -> all_bytes r -> text_fault r e -> p_m_str v l = Err e.
Proof. intros Hb B H. unfold p_m_str. rewrite (p_ws_begins _ _ _ _ Hb). cbn [Z.eqb Pos.eqb]. apply str_err in H; auto. rewrite H. reflexivity. Qed.
Local Ltac method := cbn [denote]; unfold request; apply (proj1 (fails_req ar fl any_f32 dec _ _ _ _)); cbn [js_method].

Lemma fields_wf fs : wf (TStruct fs) -> Forall (fun f => wf (snd f)) fs /\ NoDup (map name_of fs).
Proof. intros [[Hnd _] H]. split; auto. apply all_list_Forall in H. eapply Forall_impl; [|exact H]. intros f Hf. apply Hf. Qed.
Lemma shint_fails (k : option Z -> sprog) first l e : fails (seqing (k None) first) l e -> fails (seqing (SHint k) first) l e.
Proof. intros H. apply gives_S. exact H. Qed.
Lemma mhint_fails (k : option Z -> mprog) first l e : fails (mapping (k None) first) l e -> fails (mapping (MHint k) first) l e.
Proof. intros H. apply gives_S. exact H. Qed.
Lemma seq_kind (v : visitor) l c r : begins l c r -> c <> 91 -> fails (fun f => j_deserialize_seq (run f) v) l JExpectedArray.
Proof. intros Hb N. unfold j_deserialize_seq. eapply gives_ws; [exact Hb|]. replace (c =? 91) with false by lia. apply fails_fail. Qed.
Lemma map_kind (v : visitor) l c r : begins l c r -> c <> 123 -> fails (fun f => j_deserialize_map (run f) v) l JExpectedObject.
Proof. intros Hb N. unfold j_deserialize_map. eapply gives_ws; [exact Hb|]. replace (c =? 123) with false by lia. apply fails_fail. Qed.
Lemma struct_arr (v : visitor) l r e : begins l 91 r -> (forall l, begins l 91 r -> fails (fun f => j_deserialize_seq (run f) v) l e) ->
  fails (fun f => j_deserialize_struct (run f) v) l e.
Proof. intros Hb H. unfold j_deserialize_struct. eapply gives_ws; [exact Hb|]. cbn [Z.eqb Pos.eqb]. apply H. apply begins_here. reflexivity. Qed.
Lemma struct_obj (v : visitor) l r e : begins l 123 r -> fails (mapping (visit_map v) true) r e -> fails (fun f => j_deserialize_struct (run f) v) l e.
Proof. intros Hb H. unfold j_deserialize_struct. eapply gives_ws; [exact Hb|]. cbn [Z.eqb Pos.eqb]. eapply map_fails; [apply begins_here; reflexivity|exact H]. Qed.

(** Tuples and structs as arrays. *)
Section Array.
Context {A : Type} (g : A -> ty) (h : A -> option val) (v : visitor).
Local Notation prog l := (tuple_prog JDeserializeError (map (fun a => (den (g a), h a)) l) []).
Local Notation each l vs := (zip (fun (p : val -> bytes -> bytes -> Prop) v => p v) (map (fun a => takes (g a)) l) vs).
Lemma arr_gap l1 a l2 l r vs first k e : visit_seq v = prog (l1 ++ a :: l2) -> Forall (fun a => wf (g a)) l1 -> begins l 91 r -> length vs = length l1 ->
  walk 93 true (each l1 vs) r first k -> array_gap first k e -> fails (fun f => j_deserialize_seq (run f) v) l e.
Proof.
  intros E W Hb L Hw Hg. eapply seq_fails; [exact Hb|]. rewrite E. eapply tuple_reach; eauto. cbn [map tuple_prog]. apply snext_gap; auto.
Qed.
Lemma arr_elem l1 a l2 l r vs first k x e : visit_seq v = prog (l1 ++ a :: l2) -> Forall (fun a => wf (g a)) l1 -> begins l 91 r -> length vs = length l1 ->
  walk 93 true (each l1 vs) r first k -> item 93 first k x -> fails (reading (den (g a))) x e -> fails (fun f => j_deserialize_seq (run f) v) l e.
Proof.
  intros E W Hb L Hw Hi He. eapply seq_fails; [exact Hb|]. rewrite E. eapply tuple_reach; eauto. cbn [map tuple_prog]. eapply snext_elem; eauto.
Qed.
Lemma arr_few l1 ds a l2 l r vs first k k' : visit_seq v = prog (l1 ++ ds ++ a :: l2) -> Forall (fun a => wf (g a)) l1 -> begins l 91 r -> length vs = length l1 ->
  walk 93 true (each l1 vs) r first k -> begins k 93 k' -> Forall (fun a => h a <> None) ds -> h a = None -> fails (fun f => j_deserialize_seq (run f) v) l JDeserializeError.
Proof.
  intros E W Hb L Hw Hk Hd Ha. eapply seq_fails; [exact Hb|]. rewrite E. eapply tuple_reach; eauto.
  destruct (tuple_defaults g h (a :: l2) ds Hd (rev vs ++ []) first k k' Hk) as (acc' & k2 & D & R). apply R. cbn [map tuple_prog]. rewrite Ha.
  eapply snext_close; [apply begins_drop; rewrite D; apply begins_drop; exact Hk|]. cbv beta iota. apply sret_fail.
Qed.
Lemma arr_done l0 l r vs first k : visit_seq v = prog l0 -> Forall (fun a => wf (g a)) l0 -> length vs = length l0 -> walk 93 true (each l0 vs) r first k ->
  begins l 91 r -> eats (seqing (visit_seq v) true) (USeq vs) r k.
Proof.
  intros E W L Hw Hb. rewrite E. pose proof (tuple_reach g h [] l0 W vs [] true r first k L Hw) as R. rewrite app_nil_r in R. cbn [map tuple_prog] in R.
  replace (rev (rev vs ++ [])) with vs in R by (rewrite app_nil_r, rev_involutive; reflexivity).
  apply (R (fun o => exists s', o = Done s' (Ok (USeq vs)) /\ inside s' /\ unparsed s' = k)). apply (sret_eats ar fl any_f32 dec (USeq vs) first k).
Qed.
End Array.

Lemma finish_missing (fs : list (bytes * fattr * ty)) : forall i f got, length got = length fs -> nth_error fs i = Some f -> nth_error got i = Some None ->
  attr_of f = FPlain -> (forall t, snd f <> TOption t) -> finish got (map absent_val fs) = None.
Proof.
  induction fs as [|f0 fs IH]; intros i f got L Hf Hg Ha Ht; [destruct i; discriminate|]. destruct got as [|o got]; [discriminate|]. destruct i as [|i]; cbn in Hf, Hg.
  - injection Hf as ->. injection Hg as ->. cbn [map finish]. unfold absent_val at 1. rewrite Ha. destruct (snd f); auto. exfalso. eapply Ht; eauto.
  - cbn [map]. assert (E : finish got (map absent_val fs) = None) by (eapply IH; eauto). cbn [finish]. rewrite E. destruct o; [reflexivity|]. destruct (absent_val f0); reflexivity.
Qed.
Lemma set_nth_len {A} (l : list A) : forall i a, length (set_nth l i a) = length l.
Proof. induction l as [|b l IH]; intros [|i] a; cbn; auto. Qed.
Lemma takes_fields_len fs got first l got' first' k : takes_fields fs got first l got' first' k -> length got' = length got.
Proof. induction 1; auto. rewrite set_nth_len in *. auto. Qed.
Lemma member_known (fs : list (bytes * fattr * ty)) s : (exists i f, nth_error fs i = Some f /\ name_of f = s) \/ ~ In s (map name_of fs).
Proof.
  destruct (in_dec (list_eq_dec Z.eq_dec) s (map name_of fs)) as [Hi|Hi]; [left|auto]. apply in_map_iff in Hi. destruct Hi as (f & E & Hf). apply In_nth_error in Hf. destruct Hf as [i Hi]. eauto.
Qed.

Local Notation variants vs := (enum_prog JDeserializeError (map name_of vs) (map (fun f : bytes * vkind * ty => (attr_of f, den (snd f))) vs)).
Lemma variant_gives vs i f r raw m x P : wf (TEnum vs) -> begins r 34 (raw ++ 34 :: m) -> nth_error vs i = Some f -> literal raw (name_of f) -> begins m 58 x ->
  gives (fun g => j_run_variant (run g) false (match attr_of f, den (snd f) with
    | KUnit, _ => VUnit (fun r => match r with Ok _ => Ok (UVar i UUnit) | Err e => Err e end)
    | KNewtype, c => VNewtype c (map_ok (UVar i))
    | KTuple, DReq _ v post => VTuple v (fun r => map_ok (UVar i) (post r))
    | KStruct, DReq _ v post => VStruct v (fun r => map_ok (UVar i) (post r))
    | _, _ => VRet (bad JDeserializeError) end)) x P ->
  gives (fun f => jr_enum (run f) false (variants vs)) r P.
Proof.
  intros [[Hnd _] _] Hb Hf L Hc H. apply gives_S. cbn [js_run jr_enum j_step_enum enum_prog].
  eapply gives_try.
  - eapply eats_bind; [eapply (ident_eats (map name_of vs) i (name_of f)); eauto; rewrite nth_error_map, Hf; reflexivity|].
    eapply eats_bind; [apply eats_colon1; exact Hc|apply eats_ret].
  - cbn iota beta. rewrite nth_error_map, Hf. cbn [option_map]. eapply gives_ext; [|exact H]. intros g. cbv beta. destruct (attr_of f); try reflexivity; destruct (den (snd f)); reflexivity.
Qed.
Lemma variant_fails vs i f r raw m x e : wf (TEnum vs) -> begins r 34 (raw ++ 34 :: m) -> nth_error vs i = Some f -> literal raw (name_of f) -> begins m 58 x ->
  attr_of f <> KUnit -> fails (reading (den (snd f))) x e -> fails (fun f => jr_enum (run f) false (variants vs)) r e.
Proof.
  intros W Hb Hf L Hc Nk H. eapply variant_gives; eauto. destruct (variant_kind _ _ _ W Hf) as [_ Ko]. destruct f as [[n kd] ct]. cbn [attr_of fst snd] in *. destruct kd; [congruence| | |].
  - cbn [j_run_variant]. apply (fails_post ar dec (map_ok (UVar i)) (reading (den ct))); auto.
  - destruct ct; try contradiction. cbn [denote] in *. unfold request in *. cbn [j_run_variant].
    apply (proj2 (fails_req ar fl any_f32 dec DTuple _ x e)) in H. cbn [js_method] in H. apply fails_post; auto.
  - destruct ct; try contradiction. cbn [denote] in *. unfold request in *. cbn [j_run_variant].
    apply (proj2 (fails_req ar fl any_f32 dec DStruct _ x e)) in H. cbn [js_method] in H. apply fails_post; auto.
Qed.
Lemma eats_req m (v : visitor) u l k : eats (reading (DReq m v (fun r => r))) u l k -> eats (fun f => js_method ar fl any_f32 dec (run f) m v) u l k.
Proof. intros H. apply eats_unpost. apply eats_up in H. exact H. Qed.
Lemma variant_eats vs i f r raw m x v y : wf (TEnum vs) -> begins r 34 (raw ++ 34 :: m) -> nth_error vs i = Some f -> literal raw (name_of f) -> begins m 58 x ->
  attr_of f <> KUnit -> takes (snd f) v x y -> eats (fun f => jr_enum (run f) false (variants vs)) (UVar i v) r y.
Proof.
  intros W Hb Hf L Hc Nk H. destruct (variant_kind _ _ _ W Hf) as [Wf Ko]. apply (takes_eats (snd f) v x y Wf) in H.
  apply (variant_gives vs i f r raw m x (fun o => exists s', o = Done s' (Ok (UVar i v)) /\ inside s' /\ unparsed s' = y) W Hb Hf L Hc).
  match goal with |- JsonFault.gives _ _ ?g _ _ => change (eats g (UVar i v) x y) end.
  destruct f as [[n kd] ct]. cbn [attr_of fst snd] in *. destruct kd; [congruence| | |].
  - cbn [j_run_variant]. eapply eats_post; [exact H|reflexivity].
  - destruct ct; try contradiction. cbn [denote] in *. unfold request in *. cbn [j_run_variant]. eapply eats_post; [|reflexivity]. apply (eats_req DTuple) in H. exact H.
  - destruct ct; try contradiction. cbn [denote] in *. unfold request in *. cbn [j_run_variant]. eapply eats_post; [|reflexivity]. apply (eats_req DStruct) in H. exact H.
Qed.

Theorem js_fails t l e : js_fault t l e -> wf t -> all_bytes l -> fails (reading (den t)) l e.
Proof.
  assert (T1 : forall l c r, begins l c r -> all_bytes l -> all_bytes r) by (intros l0 c r Hb; apply tail_bytes; eapply begins_tail1; eauto).
  assert (TI : forall l o c r ps first close k x, begins l c r -> Forall shortens ps -> walk close o ps r first k -> item close first k x -> all_bytes l -> all_bytes x).
  { intros l0 o c r ps first close k x Hb Hs Hw Hi. apply tail_bytes. eapply tail_trans; [eapply item_tail; eauto|]. eapply tail_trans; [eapply walk_tail; eauto|eapply begins_tail1; eauto]. }
  assert (TF : forall l c r fs got o got' first k x, begins l c r -> takes_fields fs got o r got' first k -> item 125 first k x -> all_bytes l -> all_bytes x).
  { intros l0 c r fs got o got' first k x Hb Hw Hi. apply tail_bytes. eapply tail_trans; [eapply item_tail; eauto|]. eapply tail_trans; [eapply takes_fields_tail; eauto|eapply begins_tail1; eauto]. }
  assert (TQ : forall raw m c x, begins m c x -> all_bytes (34 :: raw ++ 34 :: m) -> all_bytes x).
  { intros raw m c x Hb. apply tail_bytes. eapply tail_trans; [eapply begins_tail1; eauto|apply quoted_tail]. }
  assert (SE : forall kt vt es, Forall shortens (map (takes_entry kt vt) es)) by (intros; apply map_shortens; intros a x y; apply takes_entry_tail).
  assert (ST : forall t vs, Forall shortens (map (takes t) vs)) by (intros; apply map_shortens; intros a x y; apply takes_tail).
  induction 1 as [
     l e H|k l e H|l e H|l e H|t l e Ht H
    |t l Ht Hw|t l c r Ht Hb N|t l r e Ht Hb H|l raw s r Hb L H
    |l Hw|l c r Hb N N'|l r e Hb H|l r e Hb H
    |t l Hw|t l r e Hb H|t l c r e Hb N H IH|t l e H IH
    |t l Hw|t l c r Hb N|t l r vs first k e Hb Hw Hg|t l r vs first k x e Hb Hw Hi H IH
    |T ts l Ht Hw|T ts l c r Ht Hb N|T ts1 t ts2 l r vs first k e Ht Hb L Hw Hg|T ts1 t ts2 l r vs first k x e Ht Hb L Hw Hi H IH
    |T ts1 t ts2 l r vs first k k' Ht Hb L Hw Hk|T ts l r vs first k Ht Hb L Hw Hk|T ts l r vs first k c k' Ht Hb L Hw Hk N
    |kt vt l Hw|kt vt l c r Hb N|kt vt l r es first k e Hb Hw Hg|kt vt l r es first k c q Hb Hw Hi N|kt vt l r es first k q e Hb Hw Hi H
    |kt vt l r es first k raw u m e Hb Hw Hi Hk H|kt vt l r es first k raw u m x e Hb Hw Hi Hk Hc H IH
    |fs l Hw|fs l c r Hb N N'
    |fs1 f fs2 l r vs first k e Hb L Hw Hg|fs1 f fs2 l r vs first k x e Hb L Hw Hi H IH|fs1 ds f fs2 l r vs first k k' Hb L Hw Hk Hd Ha
    |fs l r vs first k Hb L Hw Hk|fs l r vs first k c k' Hb L Hw Hk N
    |fs l r got first k e Hb Hw Hg|fs l r got first k c q Hb Hw Hi N|fs l r got first k q e Hb Hw Hi H|fs l r got first k raw m i f v Hb Hw Hi Hf L Hg
    |fs l r got first k raw s m e Hb Hw Hi L Hn H|fs l r got first k raw m i f x e Hb Hw Hi Hf L Hg Hc H IH|fs l r got first k raw s m x e Hb Hw Hi L Hn Hc H
    |fs l r got first k k' i f Hb Hw Hk Hf Hg Ha Ho
    |vs l Hw|vs l c r Hb N N'|vs l r e Hb H|vs l raw s r Hb L H|vs l raw i f r Hb Hf L Nk
    |vs l r Hb Hw|vs l r c q Hb Hb' N|vs l r q e Hb Hb' H|vs l r raw s m Hb Hb' L H|vs l r raw m i f e Hb Hb' Hf L H|vs l r raw m i f x Hb Hb' Hf L Hc Hk
    |vs l r raw m i f x e Hb Hb' Hf L Hc Nk H IH|vs l r raw m i f x v y Hb Hb' Hf L Hc Nk H Hy|vs l r raw m i f x v y c z Hb Hb' Hf L Hc Nk H Hy N]; intros W B.
  (* scalars *)
  - method. eapply fails_view; [apply view_m_bool|]. intros _. apply bool_err; auto. intros x. eexists. reflexivity.
  - method. eapply fails_view; [apply view_m_int|]. intros _. unfold p_m_int. apply int_err in H. rewrite H. reflexivity.
  - method. eapply fails_view; [apply view_m_f32|]. intros _. unfold p_m_f32. apply float_err in H. rewrite H. reflexivity.
  - method. eapply fails_view; [apply view_m_f64|]. intros _. unfold p_m_f64. apply float_err in H. rewrite H. reflexivity.
  - destruct Ht as [-> | ->]; method; (eapply fails_view; [apply view_m_unit|]; intros _; apply unit_err; auto; eexists; reflexivity).
  (* strings *)
  - destruct Ht as [-> | ->]; method; [eapply fails_view; [apply view_m_char|]|eapply fails_view; [apply view_m_str|]]; intros _; apply p_ws_end; auto.
  - destruct Ht as [-> | ->]; method; [eapply fails_view; [apply view_m_char|]|eapply fails_view; [apply view_m_str|]]; intros _; [eapply char_kind|eapply str_kind]; eauto.
  - destruct Ht as [-> | ->]; method; [eapply fails_view; [apply view_m_char|]|eapply fails_view; [apply view_m_str|]]; intros _; [eapply char_text|eapply str_text]; eauto.
  - method. eapply fails_view; [apply view_m_char|]. intros _. eapply char_err; eauto.
  (* byte strings *)
  - method. eapply fails_view; [apply view_m_bytes|]. intros _. unfold p_m_bytes, p_bytes. rewrite p_ws_end by auto. reflexivity.
  - method. eapply fails_view; [apply view_m_bytes|]. intros _. unfold p_m_bytes, p_bytes. rewrite (p_ws_begins _ _ _ _ Hb). replace (c =? 34) with false by lia. replace (c =? 91) with false by lia. reflexivity.
  - method. eapply fails_view; [apply view_m_bytes|]. intros F. unfold p_m_bytes, p_bytes. rewrite (p_ws_begins _ _ _ _ Hb). cbn [Z.eqb Pos.eqb].
    apply (proj2 (string_err ar dec r e ltac:(eauto) ltac:(eapply fits_mono; [exact F|]; pose proof (begins_length _ _ _ Hb); lia))) in H. rewrite H. reflexivity.
  - method. eapply fails_view; [apply view_m_bytes|]. intros F. unfold p_m_bytes, p_bytes. rewrite (p_ws_begins _ _ _ _ Hb). cbn [Z.eqb Pos.eqb].
    apply array_err in H. rewrite H. reflexivity.
  (* options and newtypes *)
  - method. unfold j_deserialize_option. apply fails_ws; auto.
  - method. unfold j_deserialize_option. eapply gives_ws; [exact Hb|]. cbn [Z.eqb Pos.eqb]. apply gives_eat1. apply (fails_bind ar dec (fun _ => parse_token_content tok_ull)).
    eapply fails_view; [apply view_tok|]. intros _. apply word_err; auto.
  - method. unfold j_deserialize_option. eapply gives_ws; [exact Hb|]. replace (c =? 110) with false by lia.
    change (fails (reading (then_ (den t) (map_ok USome))) (c :: r) e). assert (B' : all_bytes (c :: r)) by (eapply tail_bytes; [eapply begins_tail; eauto|auto]).
    specialize (IH W B'). destruct (denote_req t) as (m & vis & E). rewrite E in *. cbn [then_].
    apply gives_S. cbn [js_run jr_de j_step_de]. apply fails_post; [|reflexivity]. apply fails_unpost. apply gives_up in IH. exact IH.
  - method. unfold j_deserialize_newtype_struct. apply IH; auto.
  (* sequences *)
  - method. unfold j_deserialize_seq. apply fails_ws; auto.
  - method. eapply seq_kind; eauto.
  - method. eapply seq_fails; [exact Hb|]. apply shint_fails. eapply (seq_reach t vs W); [exact Hw|]. rewrite (sfrob_eq (seq_loop _ _)). cbn [sfrob seq_loop]. apply snext_gap; auto.
  - method. eapply seq_fails; [exact Hb|]. apply shint_fails. eapply (seq_reach t vs W); [exact Hw|]. rewrite (sfrob_eq (seq_loop _ _)). cbn [sfrob seq_loop].
    eapply snext_elem; [exact Hi| |reflexivity]. apply IH; auto. eapply TI; [exact Hb| |exact Hw|exact Hi|exact B]; (apply ST || apply SE).
  (* tuples *)
  - destruct Ht as [-> | ->]; method; unfold j_deserialize_seq; apply fails_ws; auto.
  - destruct Ht as [-> | ->]; method; eapply seq_kind; eauto.
  - assert (W' : Forall wf ts1) by (destruct Ht as [-> | ->]; destruct W as [W _]; apply all_list_Forall in W; apply Forall_app in W; apply W).
    destruct Ht as [-> | ->]; method; apply (arr_gap (fun t => t) (fun _ => None) _ ts1 t ts2 l r vs first k e); auto.
  - assert (W' : Forall wf ts1 /\ wf t) by (destruct Ht as [-> | ->]; destruct W as [W _]; apply all_list_Forall in W; apply Forall_app in W; destruct W as [W1 W2]; inversion W2; auto).
    destruct W' as [W' Wt]. assert (Bx : all_bytes x) by (eapply TI; [exact Hb|apply (zip_shortens (fun t => t))|exact Hw|exact Hi|exact B]).
    destruct Ht as [-> | ->]; method; eapply (arr_elem (fun t => t) (fun _ => None)); eauto; reflexivity.
  - assert (W' : Forall wf ts1) by (destruct Ht as [-> | ->]; destruct W as [W _]; apply all_list_Forall in W; apply Forall_app in W; apply W).
    destruct Ht as [-> | ->]; method; eapply (arr_few (fun t => t) (fun _ => None) _ ts1 []); eauto; reflexivity.
  - assert (W' : Forall wf ts) by (destruct Ht as [-> | ->]; destruct W as [W _]; apply all_list_Forall in W; apply W).
    destruct Ht as [-> | ->]; method; (eapply seq_open; [exact Hb|eapply (arr_done (fun t => t) (fun _ => None)); eauto; reflexivity|exact Hk]).
  - assert (W' : Forall wf ts) by (destruct Ht as [-> | ->]; destruct W as [W _]; apply all_list_Forall in W; apply W).
    destruct Ht as [-> | ->]; method; (eapply seq_many; [exact Hb|eapply (arr_done (fun t => t) (fun _ => None)); eauto; reflexivity|exact Hk|exact N]).
  (* maps *)
  - method. unfold j_deserialize_map. apply fails_ws; auto.
  - method. eapply map_kind; eauto.
  - destruct W as [Wk Wv]. method. eapply map_fails; [exact Hb|]. apply mhint_fails. eapply (map_reach kt vt es Wk Wv); [exact Hw|]. rewrite (mfrob_eq (map_loop _ _ _)). cbn [mfrob map_loop]. apply mkey_gap; auto.
  - destruct W as [Wk Wv]. method. eapply map_fails; [exact Hb|]. apply mhint_fails. eapply (map_reach kt vt es Wk Wv); [exact Hw|]. rewrite (mfrob_eq (map_loop _ _ _)). cbn [mfrob map_loop]. eapply mkey_kind; eauto.
  - destruct W as [Wk Wv]. method. eapply map_fails; [exact Hb|]. apply mhint_fails. eapply (map_reach kt vt es Wk Wv); [exact Hw|]. rewrite (mfrob_eq (map_loop _ _ _)). cbn [mfrob map_loop].
    eapply mkey_bad; [exact Hi| |reflexivity]. apply key_fails; auto. assert (Bx : all_bytes (34 :: q)) by (eapply TI; [exact Hb| |exact Hw|exact Hi|exact B]; (apply ST || apply SE)). inversion Bx; auto.
  - destruct W as [Wk Wv]. method. eapply map_fails; [exact Hb|]. apply mhint_fails. eapply (map_reach kt vt es Wk Wv); [exact Hw|]. rewrite (mfrob_eq (map_loop _ _ _)). cbn [mfrob map_loop].
    eapply mkey_item; [exact Hi|exact (key_reads ar fl any_f32 dec any_ws (fun w H => H) kt u raw Wk Hk m)|]. cbv beta iota. apply mval_colon; auto.
  - destruct W as [Wk Wv]. method. eapply map_fails; [exact Hb|]. apply mhint_fails. eapply (map_reach kt vt es Wk Wv); [exact Hw|]. rewrite (mfrob_eq (map_loop _ _ _)). cbn [mfrob map_loop].
    eapply mkey_item; [exact Hi|exact (key_reads ar fl any_f32 dec any_ws (fun w H => H) kt u raw Wk Hk m)|]. cbv beta iota. eapply mval_bad; [exact Hc| |reflexivity]. apply IH; auto.
    assert (Bx : all_bytes (34 :: raw ++ 34 :: m)) by (eapply TI; [exact Hb| |exact Hw|exact Hi|exact B]; (apply ST || apply SE)). eauto.
  (* structs *)
  - method. unfold j_deserialize_struct. apply fails_ws; auto.
  - method. unfold j_deserialize_struct. eapply gives_ws; [exact Hb|]. replace (c =? 123) with false by lia. replace (c =? 91) with false by lia. apply fails_fail.
  - destruct (fields_wf _ W) as [Wf _]. apply Forall_app in Wf. destruct Wf as [W1 W2]. method. eapply struct_arr; [exact Hb|]. clear l Hb B. intros l Hb.
    apply (arr_gap (fun f : bytes * fattr * ty => snd f) (fun f => default_of (attr_of f)) _ fs1 f fs2 l r vs first k e); auto.
  - destruct (fields_wf _ W) as [Wf _]. apply Forall_app in Wf. destruct Wf as [W1 W2]. inversion W2 as [|? ? Wx _]; subst.
    assert (Bx : all_bytes x) by (eapply TI; [exact Hb|apply (zip_shortens (fun f : bytes * fattr * ty => snd f))|exact Hw|exact Hi|exact B]).
    method. eapply struct_arr; [exact Hb|]. clear l Hb B. intros l Hb.
    apply (arr_elem (fun f : bytes * fattr * ty => snd f) (fun f => default_of (attr_of f)) _ fs1 f fs2 l r vs first k x e); auto.
  - destruct (fields_wf _ W) as [Wf _]. apply Forall_app in Wf. destruct Wf as [W1 W2]. method. eapply struct_arr; [exact Hb|]. clear l Hb B. intros l Hb.
    apply (arr_few (fun f : bytes * fattr * ty => snd f) (fun f => default_of (attr_of f)) _ fs1 ds f fs2 l r vs first k k'); auto; [|rewrite Ha; reflexivity].
    eapply Forall_impl; [|exact Hd]. intros a Hx. cbv beta in Hx |- *. destruct (attr_of a); [exfalso; apply Hx; reflexivity|discriminate].
  - destruct (fields_wf _ W) as [Wf _]. method. eapply struct_arr; [exact Hb|]. clear l Hb B. intros l Hb.
    eapply seq_open; [exact Hb|eapply (arr_done (fun f : bytes * fattr * ty => snd f) (fun f => default_of (attr_of f))); eauto; reflexivity|exact Hk].
  - destruct (fields_wf _ W) as [Wf _]. method. eapply struct_arr; [exact Hb|]. clear l Hb B. intros l Hb.
    eapply seq_many; [exact Hb|eapply (arr_done (fun f : bytes * fattr * ty => snd f) (fun f => default_of (attr_of f))); eauto; reflexivity|exact Hk|exact N].
  (* as objects *)
  - destruct (fields_wf _ W) as [Wf Hnd]. method. eapply struct_obj; [exact Hb|]. eapply (struct_reach fs Wf Hnd); [exact Hw|]. rewrite (mfrob_eq (members fs got)). cbn [mfrob struct_loop]. apply mkey_gap; auto.
  - destruct (fields_wf _ W) as [Wf Hnd]. method. eapply struct_obj; [exact Hb|]. eapply (struct_reach fs Wf Hnd); [exact Hw|]. rewrite (mfrob_eq (members fs got)). cbn [mfrob struct_loop]. eapply mkey_kind; eauto.
  - destruct (fields_wf _ W) as [Wf Hnd]. assert (Bx : all_bytes (34 :: q)) by (eapply TF; [exact Hb|exact Hw|exact Hi|exact B]). method. eapply struct_obj; [exact Hb|]. eapply (struct_reach fs Wf Hnd); [exact Hw|]. rewrite (mfrob_eq (members fs got)). cbn [mfrob struct_loop].
    eapply mkey_bad; [exact Hi| |reflexivity]. unfold ident, request. apply key_text; auto; [exact I|]. inversion Bx; auto.
  - destruct (fields_wf _ W) as [Wf Hnd]. method. eapply struct_obj; [exact Hb|]. eapply (struct_reach fs Wf Hnd); [exact Hw|]. rewrite (mfrob_eq (members fs got)). cbn [mfrob struct_loop].
    eapply mkey_item; [exact Hi|eapply (ident_key ar fl any_f32 dec false (map name_of fs) i (name_of f)); eauto; rewrite nth_error_map, Hf; reflexivity|].
    cbv beta iota. rewrite nth_error_map, Hf, Hg. cbn [option_map]. apply mret_fail.
  - destruct (fields_wf _ W) as [Wf Hnd]. method. eapply struct_obj; [exact Hb|]. eapply (struct_reach fs Wf Hnd); [exact Hw|]. rewrite (mfrob_eq (members fs got)). cbn [mfrob struct_loop].
    destruct (member_known fs s) as [(i & f & Hf & <-)|Hu].
    + eapply mkey_item; [exact Hi|eapply (ident_key ar fl any_f32 dec false (map name_of fs) i (name_of f)); eauto; rewrite nth_error_map, Hf; reflexivity|].
      cbv beta iota. rewrite nth_error_map, Hf. cbn [option_map].
      assert (Lg : length got = length fs) by (rewrite (takes_fields_len _ _ _ _ _ _ _ Hw), map_length; auto).
      assert (Li : (i < length got)%nat) by (rewrite Lg; apply nth_error_Some; congruence).
      destruct (nth_error got i) as [[v|]|] eqn:Eg; [exfalso; eapply Hn; eauto| |apply nth_error_Some in Li; congruence]. apply mval_colon; auto.
    + eapply mkey_item; [exact Hi|eapply (unknown_key ar fl any_f32 dec (map name_of fs) s); eauto|]. cbv beta iota. apply mval_colon; auto.
  - destruct (fields_wf _ W) as [Wf Hnd]. assert (Bx : all_bytes (34 :: raw ++ 34 :: m)) by (eapply TF; [exact Hb|exact Hw|exact Hi|exact B]). method. eapply struct_obj; [exact Hb|]. eapply (struct_reach fs Wf Hnd); [exact Hw|]. rewrite (mfrob_eq (members fs got)). cbn [mfrob struct_loop].
    eapply mkey_item; [exact Hi|eapply (ident_key ar fl any_f32 dec false (map name_of fs) i (name_of f)); eauto; rewrite nth_error_map, Hf; reflexivity|].
    cbv beta iota. rewrite nth_error_map, Hf, Hg. cbn [option_map]. eapply mval_bad; [exact Hc| |reflexivity]. apply IH; [|eauto].
    rewrite Forall_forall in Wf. apply Wf. eapply nth_error_In; eauto.
  - destruct (fields_wf _ W) as [Wf Hnd]. assert (Bx : all_bytes (34 :: raw ++ 34 :: m)) by (eapply TF; [exact Hb|exact Hw|exact Hi|exact B]). method. eapply struct_obj; [exact Hb|]. eapply (struct_reach fs Wf Hnd); [exact Hw|]. rewrite (mfrob_eq (members fs got)). cbn [mfrob struct_loop].
    eapply mkey_item; [exact Hi|eapply (unknown_key ar fl any_f32 dec (map name_of fs) s); eauto|]. cbv beta iota. eapply mval_bad; [exact Hc| |reflexivity]. apply skip_fails; eauto.
  - destruct (fields_wf _ W) as [Wf Hnd]. method. eapply struct_obj; [exact Hb|]. eapply (struct_reach fs Wf Hnd); [exact Hw|]. rewrite (mfrob_eq (members fs got)). cbn [mfrob struct_loop].
    eapply mkey_close; [exact Hk|]. cbv beta iota. rewrite (finish_missing fs i f got); auto; [apply mret_fail|]. rewrite (takes_fields_len _ _ _ _ _ _ _ Hw), map_length. auto.
  (* enums *)
  - method. unfold j_deserialize_enum. apply fails_ws; auto.
  - method. unfold j_deserialize_enum. eapply gives_ws; [exact Hb|]. replace (c =? 34) with false by lia. replace (c =? 123) with false by lia. apply fails_fail.
  - method. unfold j_deserialize_enum. eapply gives_ws; [exact Hb|]. cbn [Z.eqb Pos.eqb]. cbn [mk_visitor visit_enum v_enum on_enum]. apply enum_ident_fails. apply (ident_text true _ (34 :: r) r e); [apply begins_here; reflexivity|eauto|auto].
  - method. unfold j_deserialize_enum. eapply gives_ws; [exact Hb|]. cbn [Z.eqb Pos.eqb]. cbn [mk_visitor visit_enum v_enum on_enum]. apply enum_ident_fails. apply (ident_unknown _ (34 :: raw ++ 34 :: r) raw s r); [apply begins_here; reflexivity|auto|auto].
  - destruct (variant_kind _ _ _ W Hf) as [Wf Ko]. destruct W as [[Hnd _] _]. method. unfold j_deserialize_enum. eapply gives_ws; [exact Hb|]. cbn [Z.eqb Pos.eqb]. cbn [mk_visitor visit_enum v_enum on_enum].
    apply (enum_name_data vs i f (34 :: raw ++ 34 :: r) raw r); auto. apply begins_here. reflexivity.
  - method. unfold j_deserialize_enum. eapply gives_ws; [exact Hb|]. cbn [Z.eqb Pos.eqb]. apply gives_eat1. cbn [mk_visitor visit_enum v_enum on_enum].
    apply (fails_bind ar dec (fun f => jr_enum (run f) false _)). apply enum_ident_fails. apply (proj1 (fails_req ar fl any_f32 dec DIdentifier _ _ _)). cbn [js_method]. eapply fails_view; [apply view_m_str|]. intros _. apply p_ws_end; auto.
  - method. unfold j_deserialize_enum. eapply gives_ws; [exact Hb|]. cbn [Z.eqb Pos.eqb]. apply gives_eat1. cbn [mk_visitor visit_enum v_enum on_enum].
    apply (fails_bind ar dec (fun f => jr_enum (run f) false _)). apply enum_ident_fails. apply (proj1 (fails_req ar fl any_f32 dec DIdentifier _ _ _)). cbn [js_method]. eapply fails_view; [apply view_m_str|]. intros _. eapply str_kind; eauto.
  - method. unfold j_deserialize_enum. eapply gives_ws; [exact Hb|]. cbn [Z.eqb Pos.eqb]. apply gives_eat1. cbn [mk_visitor visit_enum v_enum on_enum].
    apply (fails_bind ar dec (fun f => jr_enum (run f) false _)). apply enum_ident_fails. eapply ident_text; eauto.
  - method. unfold j_deserialize_enum. eapply gives_ws; [exact Hb|]. cbn [Z.eqb Pos.eqb]. apply gives_eat1. cbn [mk_visitor visit_enum v_enum on_enum].
    apply (fails_bind ar dec (fun f => jr_enum (run f) false _)). apply enum_ident_fails. eapply ident_unknown; eauto.
  - destruct (variant_kind _ _ _ W Hf) as [Wf Ko]. destruct W as [[Hnd _] _]. method. unfold j_deserialize_enum. eapply gives_ws; [exact Hb|]. cbn [Z.eqb Pos.eqb]. apply gives_eat1. cbn [mk_visitor visit_enum v_enum on_enum].
    apply (fails_bind ar dec (fun f => jr_enum (run f) false _)). apply gives_S. cbn [js_run jr_enum j_step_enum enum_prog].
    apply (fails_try ar dec (fun f => u <-- jr_de (run f) false (ident JDeserializeError true (map name_of vs)) ;; _ <-- parse_key_colon ;; dret u)).
    + eapply (gives_bind ar dec (reading (ident JDeserializeError true (map name_of vs)))); [eapply (ident_eats (map name_of vs) i (name_of f)); eauto; rewrite nth_error_map, Hf; reflexivity|].
      apply (fails_bind ar dec (fun _ => parse_key_colon)). apply fails_colon; auto.
    + exists O. intros g _ s. exists s. reflexivity.
  - method. unfold j_deserialize_enum. eapply gives_ws; [exact Hb|]. cbn [Z.eqb Pos.eqb]. apply gives_eat1. cbn [mk_visitor visit_enum v_enum on_enum].
    apply (fails_bind ar dec (fun f => jr_enum (run f) false _)). eapply variant_gives; eauto. rewrite Hk. cbn [j_run_variant]. apply fails_lift. reflexivity.
  - assert (Bx : all_bytes x).
    { eapply tail_bytes; [|exact B]. eapply tail_trans; [eapply begins_tail1; exact Hc|]. eapply tail_trans; [apply quoted_tail|]. eapply tail_trans; [eapply begins_tail; exact Hb'|eapply begins_tail1; exact Hb]. }
    destruct (variant_kind _ _ _ W Hf) as [Wf Ko].
    method. unfold j_deserialize_enum. eapply gives_ws; [exact Hb|]. cbn [Z.eqb Pos.eqb]. apply gives_eat1. cbn [mk_visitor visit_enum v_enum on_enum].
    apply (fails_bind ar dec (fun f => jr_enum (run f) false _)). eapply variant_fails; eauto.
  - method. unfold j_deserialize_enum. eapply gives_ws; [exact Hb|]. cbn [Z.eqb Pos.eqb]. apply gives_eat1. cbn [mk_visitor visit_enum v_enum on_enum].
    eapply (gives_bind ar dec (fun f => jr_enum (run f) false _)); [eapply variant_eats; eauto|]. apply fails_ws; auto.
  - method. unfold j_deserialize_enum. eapply gives_ws; [exact Hb|]. cbn [Z.eqb Pos.eqb]. apply gives_eat1. cbn [mk_visitor visit_enum v_enum on_enum].
    eapply (gives_bind ar dec (fun f => jr_enum (run f) false _)); [eapply variant_eats; eauto|]. eapply gives_ws; [exact Hy|]. replace (c =? 125) with false by lia. apply fails_fail.
Qed.
End Fault.

(** JSON: objects that are refused as adjacently tagged enums (C71). *)
From Verif Require Import Prelude PreludeFacts Utf8 Utf8Spec Utf8Facts SerdeDe SerdeSer MpSpec Base64Spec
  JsonSpec JsonTypeSpec JsonAnySpec JsonFacts JsonDe JsonDeSafe JsonStr JsonView JsonTok JsonMeth JsonEats JsonTyped FloatOps
  Types TypesFacts MpTypeSpec MpTyped MpSerSim JsonSound JsonTypedTop JsonSoundTop JsonAny JsonFaultSpec JsonAnyFaultSpec JsonFaultLeaf JsonFault JsonFaultTyped JsonFaultTotal JsonFaultTop
  JsonAnyFault Content Adjacent AdjacentSpec AdjacentFaultSpec JsonAdjacent.
Ltac Zify.zify_post_hook ::= Z.div_mod_to_equations.

Section A.
Context (ar : arch) (fl : float_parser) (fo : float_ops) (any_f32 : bool) (dec : byte_decoder).
Local Notation M := (DM jde js_de_error).
Local Notation run := (js_run ar fl any_f32 dec).
Local Notation eats := (eats ar dec).
Local Notation fails m l e := (gives ar dec m l (failed e)).
Local Notation den := (denote JDeserializeError).
Local Notation err := JDeserializeError.
Local Notation visitor := (visitor val js_de_error).
Local Notation mprog := (mprog val js_de_error).
Local Notation reading p := (fun f => jr_de (run f) false p).
Local Notation keyed p := (fun f => jr_de (run f) true p).
Local Notation mapping p first := (fun f => jr_map (run f) p first).
Local Notation mreach := (mreach ar fl any_f32 dec).
Local Notation f32_of := (f32_from_str fl).
Local Notation f64_of := (f64_from_str fl).
Local Notation takes := (takes f32_of f64_of dec).
Local Notation js_fault := (js_fault f32_of f64_of dec).
Local Notation any_of := (if any_f32 then f32_of else f64_of).
Local Notation content_takes := (content_takes f32_of f64_of dec).
Local Notation content_fault := (content_fault f32_of f64_of dec).
Local Ltac method := unfold request; apply (proj1 (fails_req ar fl any_f32 dec _ _ _ _)); cbn [js_method].

(** ** The next key that counts *)
Lemma others_tail names first l first' k : others_in names first l first' k -> tail_of k l.
Proof.
  induction 1 as [|first l raw s m r y first' k Hi L Hs Hb Hk _ IH]; [apply tail_refl|].
  eapply tail_trans; [exact IH|]. eapply tail_trans; [eapply skips_tail; eauto|]. eapply tail_trans; [eapply begins_tail1; eauto|]. eapply tail_trans; [apply quoted_tail|]. eapply item_tail; eauto.
Qed.
Lemma key_next_tail names n first l m : key_next names n first l m -> tail_of m l.
Proof.
  intros (first' & k & raw & O & Hi & _). eapply tail_trans; [apply quoted_tail|]. eapply tail_trans; [eapply item_tail; eauto|]. eapply others_tail; eauto.
Qed.
Section Next.
Context (names : list bytes) (K : option nat -> mprog) (Hnd : NoDup names).
Local Notation next := (next_relevant err names K).
Lemma others_reach first l first' k : others_in names first l first' k -> mreach next first l next first' k.
Proof.
  induction 1 as [|first l raw s m r y first' k Hi L Hs Hb Hk _ IH]; [apply mreach_refl|].
  rewrite (mfrob_eq next) at 1. cbn [mfrob next_relevant].
  eapply mreach_trans; [eapply mkey_item; [exact Hi|eapply (unknown_key ar fl any_f32 dec names s); eauto]|]. cbv beta iota.
  eapply mreach_trans; [eapply mval_item; [exact Hb|apply skips_eats; eauto]|]. cbv beta iota. exact IH.
Qed.
Lemma next_reach i n first l m : nth_error names i = Some n -> key_next names n first l m -> mreach next first l (K (Some i)) false m.
Proof.
  intros E (first' & k & raw & O & Hi & L). eapply mreach_trans; [apply others_reach; exact O|]. rewrite (mfrob_eq next). cbn [mfrob next_relevant].
  eapply mreach_trans; [eapply mkey_item; [exact Hi|eapply (ident_key ar fl any_f32 dec false names i n); eauto]|]. apply mreach_refl.
Qed.
Lemma next_end first l : no_key_next names first l -> exists first' k, mreach next first l (K None) first' k.
Proof.
  intros (first' & k & r & O & Hk). exists first', (125 :: r). eapply mreach_trans; [apply others_reach; exact O|]. rewrite (mfrob_eq next). cbn [mfrob next_relevant].
  eapply mreach_trans; [eapply mkey_close; exact Hk|]. apply mreach_refl.
Qed.
Lemma next_fails first l e : all_bytes l -> key_next_fault names first l e -> fails (mapping next first) l e.
Proof.
  intros B H. destruct H as [first' k e O Hg|first' k c q O Hi N|first' k q e O Hi Ht|first' k raw s m e O Hi L Hs Hc|first' k raw s m x e O Hi L Hs Hb Hx];
    (apply (others_reach _ _ _ _ O); rewrite (mfrob_eq next); cbn [mfrob next_relevant]).
  - apply mkey_gap; auto.
  - eapply mkey_kind; eauto.
  - eapply mkey_bad; [exact Hi| |reflexivity]. apply key_text; auto; [exact Logic.I|].
    assert (Bx : all_bytes (34 :: q)) by (eapply tail_bytes; [eapply tail_trans; [eapply item_tail; eauto|eapply others_tail; eauto]|exact B]). inversion Bx; auto.
  - eapply mkey_item; [exact Hi|eapply (unknown_key ar fl any_f32 dec names s); eauto|]. cbv beta iota. apply mval_colon; auto.
  - eapply mkey_item; [exact Hi|eapply (unknown_key ar fl any_f32 dec names s); eauto|]. cbv beta iota. eapply mval_bad; [exact Hb| |reflexivity]. apply skip_fails; auto.
    eapply tail_bytes; [|exact B]. eapply tail_trans; [eapply begins_tail1; eauto|]. eapply tail_trans; [apply quoted_tail|]. eapply tail_trans; [eapply item_tail; eauto|eapply others_tail; eauto].
Qed.
End Next.

(** ** The values of the tag and the content *)
Lemma tags_wf (vs : list (bytes * vkind * ty)) : names_ok (map name_of vs) -> wf (tag_ty vs).
Proof.
  intros H. cbn [tag_ty wf]. rewrite map_map. change (map (fun x : bytes * vkind * ty => name_of (name_of x, KUnit, TUnit)) vs) with (map name_of vs).
  split; auto. clear. induction vs; cbn; auto.
Qed.
Lemma tags_nth vs i v l y : takes (tag_ty vs) (UVar i v) l y -> exists n k t, nth_error vs i = Some (n, k, t).
Proof.
  intros (w & d & b & _ & _ & _ & H & _). cbn [tag_ty reads_as] in H. rewrite !nth_error_map in H.
  destruct (nth_error vs i) as [[[n k] t]|]; [eauto|]. contradiction.
Qed.
(** An object is read by [deserialize_any] as by [deserialize_struct]. *)
Lemma struct_any (v v' : visitor) l r e : visit_map v' = visit_map v -> begins l 123 r ->
  fails (fun f => j_deserialize_struct (run f) v) l e -> fails (fun f => j_deserialize_any fl any_f32 (run f) v') l e.
Proof.
  intros E Hb [N H]. exists N. intros f Hf s Hs U. specialize (H f Hf s Hs U). destruct (ws_begins _ _ _ Hb) as (w & Ew & Hw & Hc).
  unfold j_deserialize_struct in H. unfold j_deserialize_any. pose proof (ws_state ar dec s Hs) as W. rewrite U, Ew, drop_ws_blank, drop_ws_char in W by auto.
  destruct W as (s' & Es & _). unfold dbind at 1 in H. unfold dbind at 1. rewrite Es in *. replace (ascii_digit 123) with false by reflexivity. cbn [Z.eqb Pos.eqb orb] in *.
  unfold j_deserialize_map in *. rewrite E. exact H.
Qed.
Lemma content_fails k t l e : wf t -> kind_ok k t -> all_bytes l -> content_fault k t l e -> fails (reading (content_seed err k t)) l e.
Proof.
  intros W K B H.
  assert (U : k = KUnit \/ k = KStruct -> exists v, content_seed err k t = request DAny v /\ on_seq v = SRet (Err err) /\ (forall s, on_str v s = Err err)).
  { intros [-> | ->]; [exists (v_untagged_unit err); destruct t; auto|]. destruct t; cbn [kind_ok] in K; try contradiction. eexists. split; [reflexivity|]. split; reflexivity. }
  destruct H as [l Hw Hk|l c r Hb N Hk|l r Hb Hk|l raw s r Hb L Hk|l r Hb Hk|l r Hb Hk|l r e Hb Hk Hf|l e Hk Hf].
  - destruct (U Hk) as (v & -> & _). method. unfold j_deserialize_any. apply fails_ws; auto.
  - destruct (U Hk) as (v & -> & _). method. unfold j_deserialize_any. eapply gives_ws; [exact Hb|].
    unfold value_start, is_digit in N. unfold ascii_digit. replace (c =? 110) with false by lia. replace (c =? 116) with false by lia. replace (c =? 102) with false by lia. replace (c =? 34) with false by lia.
    replace ((48 <=? c) && (c <=? 57)) with false by lia. replace (c =? 45) with false by lia. replace (c =? 91) with false by lia. replace (c =? 123) with false by lia. apply fails_fail.
  - destruct (U Hk) as (v & -> & Hv & _). method. unfold j_deserialize_any. eapply gives_ws; [exact Hb|]. replace (ascii_digit 91) with false by reflexivity. cbn [Z.eqb Pos.eqb orb].
    eapply seq_fails; [apply begins_here; reflexivity|]. cbn [mk_visitor visit_seq]. rewrite Hv. apply sret_fail.
  - destruct (U Hk) as (v & -> & _ & Hv). method. unfold j_deserialize_any. eapply gives_ws; [exact Hb|]. cbn [Z.eqb Pos.eqb orb].
    eapply fails_view; [apply view_m_str|]. intros _. unfold p_m_str. rewrite (p_ws_begins _ _ 34 (raw ++ 34 :: r)) by (apply begins_here; reflexivity). cbn [Z.eqb Pos.eqb]. rewrite (p_str_literal _ _ _ L). cbn. rewrite Hv. reflexivity.
  - subst k. replace (content_seed err KUnit t) with (request DAny (v_untagged_unit err)) by (destruct t; auto). method. unfold j_deserialize_any. eapply gives_ws; [exact Hb|].
    replace (ascii_digit 123) with false by reflexivity. cbn [Z.eqb Pos.eqb orb]. eapply map_fails; [apply begins_here; reflexivity|]. apply mret_fail.
  - subst k. destruct t; cbn [kind_ok] in K; try contradiction. cbn [content_seed]. method. unfold j_deserialize_any. eapply gives_ws; [exact Hb|]. cbn [Z.eqb Pos.eqb orb].
    eapply fails_view; [apply view_m_unit|]. intros _. unfold p_m_unit. rewrite (p_ws_begins _ _ 110 (ull ++ r)) by (apply begins_here; reflexivity). cbn [Z.eqb Pos.eqb].
    change tok_ull with ull. rewrite (proj2 (word_ok ull (ull ++ r) tt r) eq_refl). reflexivity.
  - subst k. destruct t; cbn [kind_ok] in K; try contradiction. cbn [content_seed]. pose proof (js_fails ar fl any_f32 dec _ _ _ Hf W B) as F.
    method. cbn [denote] in F. unfold request in F. apply (proj2 (fails_req ar fl any_f32 dec _ _ _ _)) in F. cbn [js_method] in F. revert F. apply struct_any with r; auto.
  - pose proof (js_fails ar fl any_f32 dec _ _ _ Hf W B) as F. destruct Hk as [-> | ->]; destruct t; exact F.
Qed.
Lemma obj_only d b w k q : loose_text d b -> any_ws w -> begins (w ++ b ++ k) 123 q -> exists ms, d = JObj ms.
Proof.
  intros Hb Hw H. destruct (text_head _ _ Hb) as (c & b' & -> & Hs & _). assert (begins (w ++ (c :: b') ++ k) c (b' ++ k)) as H2 by (exists w; split; [reflexivity|split; [auto|apply not_space; auto]]).
  destruct (begins_inj _ _ _ _ _ H H2) as [<- _]. inversion Hb; subst; eauto.
  - destruct H0 as [_ H0]. inversion H0; subst. unfold is_digit in *. lia.
  - destruct H0 as [H0 _]. discriminate.
Qed.
Lemma content_eats k t v l y : wf t -> kind_ok k t -> content_takes k t v l y -> eats (reading (content_seed err k t)) v l y.
Proof.
  intros W K H. destruct k; cbn [AdjacentFaultSpec.content_takes] in H.
  - destruct H as [-> Hb]. destruct (ws_begins _ _ _ Hb) as (w & -> & Hw & Hc).
    apply (content_accepts ar fl any_f32 dec any_ws (fun w H => H) KUnit t UUnit JNull W K (conj eq_refl eq_refl) [110; 117; 108; 108] w y); auto; constructor.
  - destruct t; apply takes_eats; auto.
  - destruct t; apply takes_eats; auto.
  - destruct H as [(w & d & b & -> & Hw & Hb & Hr & He) (q & Hq)]. destruct (obj_only _ _ _ _ _ Hb Hw Hq) as (ms & ->).
    apply (content_accepts ar fl any_f32 dec any_ws (fun w H => H) KStruct t v (JObj ms) W K); eauto. split; eauto. 
Qed.

(** ** The whole object *)
Section Adj.
Context (tag content : bytes) (vs : list (bytes * vkind * ty)) (Hn : names_ok [tag; content]) (Hwf : wf (TEnum vs)).
Local Notation names := [tag; content].
Local Notation tag_next := (tag_next f32_of f64_of dec tag content vs).
Local Notation tag_next_fault := (tag_next_fault f32_of f64_of dec tag content vs).
Local Notation content_next := (content_next f32_of f64_of dec tag content).
Local Notation buffer_next := (buffer_next f32_of f64_of any_f32 tag content).

Lemma variant_wf i n k t : nth_error vs i = Some (n, k, t) -> wf t /\ kind_ok k t.
Proof. intros E. destruct Hwf as [_ H]. exact (all_list_In _ _ H _ (nth_error_In _ _ E)). Qed.
Lemma tag_reach K K' first l i n k t y : nth_error vs i = Some (n, k, t) -> K (Some O) = tag_value err vs K' -> tag_next first l i y ->
  mreach (next_relevant err names K) first l (K' i k t) false y.
Proof.
  intros E EK (m & x & Hk & Hb & Ht). eapply mreach_trans; [eapply (next_reach names K (proj1 Hn) O tag); [reflexivity|exact Hk]|]. rewrite EK. unfold tag_value.
  eapply mreach_trans; [eapply mval_item; [exact Hb|apply takes_eats; [apply tags_wf; apply Hwf|exact Ht]]|]. cbv beta iota. rewrite E. apply mreach_refl.
Qed.
Lemma tag_fails K K' first l e : K (Some O) = tag_value err vs K' -> all_bytes l -> tag_next_fault first l e -> fails (mapping (next_relevant err names K) first) l e.
Proof.
  intros EK B [m Hk Hc|m x Hk Hb Hf]; (apply (next_reach names K (proj1 Hn) O tag first l m eq_refl Hk); rewrite EK; unfold tag_value).
  - apply mval_colon; auto.
  - eapply mval_bad; [exact Hb| |reflexivity]. apply js_fails; [exact Hf|apply tags_wf; apply Hwf|]. eapply tail_bytes; [|exact B]. eapply tail_trans; [eapply begins_tail1; eauto|eapply key_next_tail; eauto].
Qed.
Lemma tag_next_tail first l i y : tag_next first l i y -> tail_of y l.
Proof. intros (m & x & Hk & Hb & Ht). eapply tail_trans; [eapply takes_tail; eauto|]. eapply tail_trans; [eapply begins_tail1; eauto|eapply key_next_tail; eauto]. Qed.
Lemma tag_next_nth first l i y : tag_next first l i y -> exists n k t, nth_error vs i = Some (n, k, t).
Proof. intros (m & x & _ & _ & Ht). eapply tags_nth; eauto. Qed.
Lemma content_takes_tail k t v l y : content_takes k t v l y -> tail_of y l.
Proof.
  assert (T : takes t v l y -> tail_of y l) by apply takes_tail.
  destruct k; cbn [AdjacentFaultSpec.content_takes]; auto; [|tauto]. intros [_ Hb]. eapply tail_trans; [apply (tail_app ull y)|eapply begins_tail1; eauto].
Qed.
Lemma content_reach K K' k t l y : wf t -> kind_ok k t -> K (Some 1%nat) = MVal (content_seed err k t) K' -> content_next k t l y ->
  exists v, mreach (next_relevant err names K) false l (K' (Ok v)) false y.
Proof.
  intros W Ko EK (m & x & v & Hk & Hb & Ht). exists v. eapply mreach_trans; [eapply (next_reach names K (proj1 Hn) 1 content); [reflexivity|exact Hk]|]. rewrite EK.
  eapply mreach_trans; [eapply mval_item; [exact Hb|apply content_eats; eauto]|]. apply mreach_refl.
Qed.
Lemma content_next_tail k t l y : content_next k t l y -> tail_of y l.
Proof. intros (m & x & v & Hk & Hb & Ht). eapply tail_trans; [eapply content_takes_tail; eauto|]. eapply tail_trans; [eapply begins_tail1; eauto|eapply key_next_tail; eauto]. Qed.
Lemma buffer_reach K K' l y : K (Some 1%nat) = MVal (any err) K' -> buffer_next l y -> exists v, mreach (next_relevant err names K) true l (K' (Ok v)) false y.
Proof.
  intros EK (m & x & Hk & Hb & Hh). destruct (holds_eats ar fl any_f32 dec x y) as [v Hv]; [destruct any_f32; exact Hh|]. exists v.
  eapply mreach_trans; [eapply (next_reach names K (proj1 Hn) 1 content); [reflexivity|exact Hk]|]. rewrite EK.
  eapply mreach_trans; [eapply mval_item; [exact Hb|exact Hv]|]. apply mreach_refl.
Qed.
Lemma buffer_next_tail l y : buffer_next l y -> tail_of y l.
Proof. intros (m & x & Hk & Hb & Ht). eapply tail_trans; [apply (holds_tail fl any_f32 x y); destruct any_f32; exact Ht|]. eapply tail_trans; [eapply begins_tail1; eauto|eapply key_next_tail; eauto]. Qed.

Lemma adjacent_fails l e : all_bytes l -> adjacent_js_fault f32_of f64_of dec any_f32 tag content vs l e -> fails (reading (adjacent fo err tag content vs)) l e.
Proof.
  intros B H. unfold adjacent. method.
  assert (T1 : forall c r, begins l c r -> all_bytes r) by (intros c r Hb; eapply tail_bytes; [eapply begins_tail1; eauto|exact B]).
  assert (TB : forall a b, tail_of a b -> all_bytes b -> all_bytes a) by (intros a b; apply tail_bytes).
  assert (KV : forall b m n o x, key_next names n o b m -> begins m 58 x -> all_bytes b -> all_bytes x).
  { intros b m n o x Hk Hb. apply tail_bytes. eapply tail_trans; [eapply begins_tail1; eauto|eapply key_next_tail; eauto]. }
  Local Ltac obj Hb := eapply struct_obj; [exact Hb|]; cbn [mk_visitor v_struct on_map visit_map]; unfold adjacent_map; cbv zeta.
  destruct H as [Hw|c r Hb N1 N2|r e Hb Hf|r Hb Hf|r e Hb Hf|r i y e Hb Ht Hf|r i n k t y Hb E Ht Hf Hc|r i y m Hb Ht Hf|r i y m e Hb Ht Hf Hc|r i n k t y m x e Hb E Ht Hk Hx Hf
    |r i n k t y z e Hb E Ht Hk Hf|r i n k t y z m a Hb E Ht Hk Ha Hf|r m e Hb Hk Hf|r m x e Hb Hk Hx Hf|r y e Hb Hx Hf|r y Hb Hx Hf|r y m Hb Hx Hf|r y e Hb Hx Hf].
  - unfold j_deserialize_struct. apply fails_ws; auto.
  - unfold j_deserialize_struct. eapply gives_ws; [exact Hb|]. replace (c =? 123) with false by lia. replace (c =? 91) with false by lia. apply fails_fail.
  - obj Hb. apply next_fails; eauto.
  - obj Hb. match goal with |- gives _ _ (fun f => jr_map _ (next_relevant _ _ ?K) _) _ _ => destruct (next_end names K _ _ Hf) as (o & q & R) end. apply R. apply mret_fail.
  - obj Hb. eapply tag_fails; eauto.
  - obj Hb. destruct (tag_next_nth _ _ _ _ Ht) as (n & k & t & E). eapply (tag_reach _ _ _ _ _ _ _ _ _ E eq_refl Ht). cbv beta. apply next_fails; eauto using tag_next_tail.
  - obj Hb. eapply (tag_reach _ _ _ _ _ _ _ _ _ E eq_refl Ht). cbv beta.
    match goal with |- gives _ _ (fun f => jr_map _ (next_relevant _ _ ?K) _) _ _ => destruct (next_end names K _ _ Hf) as (o & q & R) end. apply R. cbv beta iota.
    replace (content_absent k t) with (@None val); [apply mret_fail|]. destruct k; try (exfalso; apply (Hc UUnit); cbn; auto; fail); destruct t; cbn in *; auto. exfalso. eapply (Hc UNone); eauto.
  - obj Hb. destruct (tag_next_nth _ _ _ _ Ht) as (n & k & t & E). eapply (tag_reach _ _ _ _ _ _ _ _ _ E eq_refl Ht). cbv beta.
    eapply (next_reach names _ (proj1 Hn) O tag); [reflexivity|exact Hf|]. apply mret_fail.
  - obj Hb. destruct (tag_next_nth _ _ _ _ Ht) as (n & k & t & E). eapply (tag_reach _ _ _ _ _ _ _ _ _ E eq_refl Ht). cbv beta.
    eapply (next_reach names _ (proj1 Hn) 1%nat content); [reflexivity|exact Hf|]. cbv beta iota. apply mval_colon; auto.
  - obj Hb. destruct (variant_wf _ _ _ _ E) as [W Ko]. eapply (tag_reach _ _ _ _ _ _ _ _ _ E eq_refl Ht). cbv beta.
    eapply (next_reach names _ (proj1 Hn) 1%nat content); [reflexivity|exact Hk|]. cbv beta iota. eapply mval_bad; [exact Hx| |reflexivity]. apply content_fails; eauto using tag_next_tail.
  - obj Hb. destruct (variant_wf _ _ _ _ E) as [W Ko]. eapply (tag_reach _ _ _ _ _ _ _ _ _ E eq_refl Ht). cbv beta.
    match goal with |- gives _ _ (fun f => jr_map _ (next_relevant _ _ ?K) _) _ _ => destruct (content_reach K _ k t y z W Ko eq_refl Hk) as (v & R) end. apply R. cbv beta iota. unfold no_more.
    apply next_fails; auto. eapply TB; [eapply content_next_tail; exact Hk|]. eauto using tag_next_tail.
  - obj Hb. destruct (variant_wf _ _ _ _ E) as [W Ko]. eapply (tag_reach _ _ _ _ _ _ _ _ _ E eq_refl Ht). cbv beta.
    match goal with |- gives _ _ (fun f => jr_map _ (next_relevant _ _ ?K) _) _ _ => destruct (content_reach K _ k t y z W Ko eq_refl Hk) as (v & R) end. apply R. cbv beta iota. unfold no_more.
    destruct Ha as [<- |[<- |[]]]; [eapply (next_reach names _ (proj1 Hn) 0%nat tag)|eapply (next_reach names _ (proj1 Hn) 1%nat content)]; try reflexivity; try exact Hf; apply mret_fail.
  - obj Hb. eapply (next_reach names _ (proj1 Hn) 1%nat content); [reflexivity|exact Hk|]. cbv beta iota. apply mval_colon; auto.
  - obj Hb. eapply (next_reach names _ (proj1 Hn) 1%nat content); [reflexivity|exact Hk|]. cbv beta iota. eapply mval_bad; [exact Hx| |reflexivity]. apply any_fails; [eauto|destruct any_f32; exact Hf].
  - obj Hb. match goal with |- gives _ _ (fun f => jr_map _ (next_relevant _ _ ?K) _) _ _ => destruct (buffer_reach K _ r y eq_refl Hx) as (v & R) end. apply R. cbv beta iota.
    apply next_fails; eauto using buffer_next_tail.
  - obj Hb. match goal with |- gives _ _ (fun f => jr_map _ (next_relevant _ _ ?K) _) _ _ => destruct (buffer_reach K _ r y eq_refl Hx) as (v & R) end. apply R. cbv beta iota.
    match goal with |- gives _ _ (fun f => jr_map _ (next_relevant _ _ ?K) _) _ _ => destruct (next_end names K _ _ Hf) as (o & q & R') end. apply R'. apply mret_fail.
  - obj Hb. match goal with |- gives _ _ (fun f => jr_map _ (next_relevant _ _ ?K) _) _ _ => destruct (buffer_reach K _ r y eq_refl Hx) as (v & R) end. apply R. cbv beta iota.
    eapply (next_reach names _ (proj1 Hn) 1%nat content); [reflexivity|exact Hf|]. apply mret_fail.
  - obj Hb. match goal with |- gives _ _ (fun f => jr_map _ (next_relevant _ _ ?K) _) _ _ => destruct (buffer_reach K _ r y eq_refl Hx) as (v & R) end. apply R. cbv beta iota.
    eapply tag_fails; eauto using buffer_next_tail.
Qed.
Theorem js_adjacent_refuses input e : all_bytes input -> (dec = Base64Decoder -> 3 * zlen input <= usize_max ar) -> adjacent_js_fault f32_of f64_of dec any_f32 tag content vs input e ->
  exists N, forall fuel, (N <= fuel)%nat -> exists s, js_from_mut_slice ar fl any_f32 dec fuel (adjacent fo err tag content vs) input = Done s (Err e).
Proof. intros B R H. apply top_fails; auto. apply adjacent_fails; auto. Qed.
End Adj.
End A.

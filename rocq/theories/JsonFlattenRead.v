(** JSON: which objects a struct with a flattened field is read from, and which are refused (C72). *)
From Coq Require Import Permutation.
From Verif Require Import Prelude PreludeFacts Utf8 Utf8Spec Utf8Facts SerdeDe SerdeSer MpSpec Base64Spec
  JsonSpec JsonTypeSpec JsonAnySpec JsonFacts JsonSer JsonErrMap JsonSerFacts JsonDe JsonDeSafe JsonStr JsonView JsonTok JsonMeth JsonEats JsonTyped FloatOps
  Types TypesFacts MpTypeSpec MpTyped MpSerSim JsonSound JsonTypedTop JsonSoundTop JsonAny JsonFaultSpec JsonAnyFaultSpec JsonFaultLeaf JsonFault JsonFaultTyped JsonFaultTotal JsonFaultTop
  JsonAnyFault Content ContentSpec ContentFacts EvolveFacts MpSound FlattenFacts JsonContent JsonReadBack Flatten FlattenSpec JsonFlatten FlattenJsonSpec.
Ltac Zify.zify_post_hook ::= Z.div_mod_to_equations.

Section A.
Context (ar : arch) (fl : float_parser) (fo : float_ops) (any_f32 : bool) (dec : byte_decoder).
Local Notation M := (DM jde js_de_error).
Local Notation run := (js_run ar fl any_f32 dec).
Local Notation eats := (eats ar dec).
Local Notation fails m l e := (gives ar dec m l (failed e)).
Local Notation accepts := (accepts ar fl any_f32 dec).
Local Notation feedm := (feedm ar fl any_f32 dec).
Local Notation err := JDeserializeError.
Local Notation visitor := (visitor val js_de_error).
Local Notation reading p := (fun f => jr_de (run f) false p).
Local Notation keyed p := (fun f => jr_de (run f) true p).
Local Notation mapping p first := (fun f => jr_map (run f) p first).
Local Notation mreach := (mreach ar fl any_f32 dec).
Local Notation f32_of := (f32_from_str fl).
Local Notation f64_of := (f64_from_str fl).
Local Notation any_of := (if any_f32 then f32_of else f64_of).
Local Ltac method := unfold request; apply (proj1 (fails_req ar fl any_f32 dec _ _ _ _)); cbn [js_method].
Context (fs : list (bytes * fattr * ty)) (g : ty).
Local Notation names := (map name_of fs).
Local Notation loop := (flat_loop fo err names (map (fun f => denote err (snd f)) fs) (map absent_val fs) g).
Local Notation flat_members := (flat_members f32_of f64_of dec any_f32 fs g).
Local Notation takes_flat := (takes_flat f32_of f64_of dec any_f32 fs).
Definition kept (ws : list (val * val)) : list (val * val) := match g with TStruct gs => filter (is_named (map name_of gs)) ws | _ => ws end.
Definition flat_ok : Prop := match g with TStruct _ | TMap _ _ => True | _ => False end.

Lemma kept_cons s w ws : flat_ok -> (takes_name g s -> kept ((UStr s, w) :: ws) = (UStr s, w) :: kept ws) /\ (~ takes_name g s -> kept ((UStr s, w) :: ws) = kept ws).
Proof.
  intros Hg. unfold kept, takes_name, flat_ok in *. destruct g; try contradiction; [tauto|]. cbn [filter]. split; intros H; unfold is_named at 1; cbn [fst].
  - destruct (find_name_in s (map name_of fs0) H 0) as [j ->]. reflexivity.
  - rewrite find_name_none; auto.
Qed.

(** ** Reading *)
Lemma feed_members got ms rest got' : NoDup names -> all_list (fun f => wf (snd f)) fs -> flat_ok -> flat_members got ms rest got' ->
  exists ws, kept ws = rest /\ forall c u, feedm (loop got' (c ++ ws)) [] u -> feedm (loop got c) ms u.
Proof.
  intros Hd W Hg H. induction H as [got|got i f v raw d ms rest got' Hn Hf L Hv _ (ws & K & IH)|got s x raw d ms rest got' L N T A _ (ws & K & IH)|got s x raw d ms rest got' L N T A _ (ws & K & IH)].
  - exists []. split; [unfold kept; destruct g; reflexivity|]. intros c u. rewrite app_nil_r. auto.
  - exists ws. split; [exact K|]. intros c u Hu. rewrite (mfrob_eq (loop _ _)); cbn [mfrob flat_loop].
    eapply FM_next; [eapply flat_key; [exact Hd|rewrite nth_error_map, Hf; reflexivity|exact L]|cbn iota beta; rewrite nth_error_map, Hf, Hn; reflexivity| |apply IH; auto].
    apply (typed_accepts ar fl any_f32 dec any_ws (fun w H => H)); auto. apply (all_list_In _ _ W _ (nth_error_In _ _ Hf)).
  - exists ((UStr s, x) :: ws). split; [rewrite (proj1 (kept_cons s x ws Hg) T), K; reflexivity|]. intros c u Hu. rewrite (mfrob_eq (loop _ _)); cbn [mfrob flat_loop].
    eapply FM_next; [eapply flat_other; eauto|reflexivity|apply any_accepts; destruct any_f32; exact A|]. cbn iota beta. apply IH. rewrite <- app_assoc. exact Hu.
  - exists ((UStr s, x) :: ws). split; [rewrite (proj2 (kept_cons s x ws Hg) T), K; reflexivity|]. intros c u Hu. rewrite (mfrob_eq (loop _ _)); cbn [mfrob flat_loop].
    eapply FM_next; [eapply flat_other; eauto|reflexivity|apply any_accepts; destruct any_f32; exact A|]. cbn iota beta. apply IH. rewrite <- app_assoc. exact Hu.
Qed.
Lemma from_rest_kept ws w : flat_ok -> from_content fo g (UMap (kept ws)) = w -> from_rest fo g ws = w.
Proof. unfold flat_ok, kept, from_rest. destruct g; tauto. Qed.
Lemma from_content_same a b w : same_entries g a b -> from_content fo g (UMap b) = Some w -> from_content fo g (UMap a) = Some w.
Proof. intros H. unfold same_entries in H. destruct g; try (subst; auto; fail). apply from_content_perm. exact H. Qed.
Lemma fields_all_wf : wf (TStruct fs) -> NoDup names /\ all_list (fun f => wf (snd f)) fs.
Proof. intros [[Hd _] Hw]. split; auto. clear - Hw. induction fs as [|f l IH]; [exact Logic.I|]. destruct Hw as [[W1 _] W2]. split; auto. Qed.

Lemma flat_doc_accepts fp enc l w d : wf (TStruct fs) -> flat_ok -> wf g -> strict g -> hastype g w -> text_keys (enc = ArrayByteEncoder) g ->
  all_floats (good32 fo any_f32 any_of fp) (good64 fo any_f32 any_of fp) (trace g w) ->
  flat_doc f32_of f64_of dec any_f32 fs g (fun w => js_value fp enc (trace g w)) l w d -> accepts (flattened fo err fs g) d (USeq [USeq l; w]).
Proof.
  intros W Hg Wg Sg Ht Tg Fg (ms & rest & got & jg & rest' & -> & Hm & Hl & Dj & V & Hs).
  destruct (fields_all_wf W) as [Hd Hw]. destruct (feed_members _ _ _ _ Hd Hw Hg Hm) as (ws & K & F).
  pose proof (proj1 (jcontent_back fo any_f32 any_of fp enc g Wg Sg Tg w (JObj jg) (UMap rest') Ht Fg Dj V)) as B.
  unfold flattened, request. apply (proj1 (accepts_req ar fl any_f32 dec _ _ _ _)). intros tx sp k Hx Hsp Hk. cbn [js_method].
  eapply map_eats; [|exact Hx|auto]. cbn [mk_visitor v_map on_map visit_map]. apply F. cbn [app].
  rewrite (mfrob_eq (loop _ _)); cbn [mfrob flat_loop]. apply FM_end. cbn iota beta. rewrite (finish_all _ _ _ Hl).
  rewrite (from_rest_kept ws (Some w) Hg); [apply FM_ret|]. rewrite K. eapply from_content_same; eauto.
Qed.
Theorem js_flat_reads fp enc l w d w1 text k : wf (TStruct fs) -> flat_ok -> wf g -> strict g -> hastype g w -> text_keys (enc = ArrayByteEncoder) g ->
  all_floats (good32 fo any_f32 any_of fp) (good64 fo any_f32 any_of fp) (trace g w) ->
  flat_doc f32_of f64_of dec any_f32 fs g (fun w => js_value fp enc (trace g w)) l w d -> any_ws w1 -> loose_text d text ->
  (dec = Base64Decoder -> 3 * zlen (w1 ++ text ++ k) <= usize_max ar) ->
  exists N, forall fuel, (N <= fuel)%nat -> exists s r, js_from_mut_slice ar fl any_f32 dec fuel (flattened fo err fs g) (w1 ++ text ++ k) = Done s r /\
    (any_ws k -> r = Ok (USeq [USeq l; w])) /\ (~ any_ws k -> r = Err JTrailingCharacters).
Proof.
  intros W Hg Wg Sg Ht Tg Fg D W1 T R. pose proof (flat_doc_accepts _ _ _ _ _ W Hg Wg Sg Ht Tg Fg D) as A. destruct (ws_dec k) as [Hk|Hk].
  - destruct (accepts_top ar fl any_f32 dec _ _ _ text w1 k A T W1 Hk R) as [N H]. exists N. intros f Hf. destruct (H f Hf) as [s E]. exists s, (Ok (USeq [USeq l; w])). split; [exact E|]. tauto.
  - assert (E : cannot_extend d k). { destruct D as (ms & _ & _ & _ & _ & -> & _). exact Logic.I. }
    destruct (top_trailing ar fl any_f32 dec (flattened fo err fs g) _ _ k R (A text w1 k T W1 E) Hk) as [N H]. exists N. intros f Hf. destruct (H f Hf) as [s Es]. exists s, (Err JTrailingCharacters). split; [exact Es|]. tauto.
Qed.

(** ** Faults *)
Lemma takes_flat_tail got first l keys got' first' k : takes_flat got first l keys got' first' k -> tail_of k l.
Proof.
  induction 1 as [|got first l i f v raw m x y keys got' first' k Hi _ _ _ Hb Ht _ IH|got first l raw s m x y keys got' first' k Hi _ _ Hb Hh _ IH]; [apply tail_refl| |];
    (eapply tail_trans; [exact IH|]); (eapply tail_trans; [|eapply tail_trans; [eapply begins_tail1; exact Hb|eapply tail_trans; [apply quoted_tail|eapply item_tail; exact Hi]]]).
  - eapply takes_tail; eauto.
  - apply (holds_tail fl any_f32 x y). destruct any_f32; exact Hh.
Qed.
Lemma flat_known i n raw m : NoDup names -> nth_error names i = Some n -> literal raw n -> eats (keyed (request DIdentifier (v_flat_ident err names))) (UIdent (Some i)) (34 :: raw ++ 34 :: m) m.
Proof. intros Hd Hn L. apply (flat_key ar fl any_f32 dec fs i n raw Hd Hn L). Qed.
Lemma flat_unknown s raw m : ~ In s names -> literal raw s -> eats (keyed (request DIdentifier (v_flat_ident err names))) (UStr s) (34 :: raw ++ 34 :: m) m.
Proof. intros Hn L. apply (flat_other ar fl any_f32 dec fs s raw Hn L). Qed.
Lemma flat_reach got first l keys got' first' k : NoDup names -> all_list (fun f => wf (snd f)) fs -> takes_flat got first l keys got' first' k ->
  exists ws, map fst ws = map UStr keys /\ forall c, mreach (loop got c) first l (loop got' (c ++ ws)) first' k.
Proof.
  intros Hd W H. induction H as [got first l|got first l i f v raw m x y keys got' first' k Hi Hn Hf L Hb Ht _ (ws & K & IH)|got first l raw s m x y keys got' first' k Hi L N Hb Hh _ (ws & K & IH)].
  - exists []. split; [reflexivity|]. intros c. rewrite app_nil_r. apply mreach_refl.
  - exists ws. split; [exact K|]. intros c. rewrite (mfrob_eq (loop got c)); cbn [mfrob flat_loop].
    eapply mreach_trans; [eapply mkey_item; [exact Hi|eapply flat_known; [exact Hd|rewrite nth_error_map, Hf; reflexivity|exact L]]|]. cbv beta iota. rewrite nth_error_map, Hf, Hn. cbn [option_map].
    eapply mreach_trans; [eapply mval_item; [exact Hb|apply takes_eats; [apply (all_list_In _ _ W _ (nth_error_In _ _ Hf))|exact Ht]]|]. cbv beta iota. apply IH.
  - destruct (holds_eats ar fl any_f32 dec x y) as [v Hv]; [destruct any_f32; exact Hh|]. exists ((UStr s, v) :: ws). split; [cbn; rewrite K; reflexivity|]. intros c.
    rewrite (mfrob_eq (loop got c)); cbn [mfrob flat_loop]. eapply mreach_trans; [eapply mkey_item; [exact Hi|eapply flat_unknown; eauto]|]. cbv beta iota.
    eapply mreach_trans; [eapply mval_item; [exact Hb|exact Hv]|]. cbv beta iota. specialize (IH (c ++ [(UStr s, v)])). rewrite <- app_assoc in IH. exact IH.
Qed.
Lemma needed_absent f : needed f -> absent_val f = None.
Proof. intros [A O]. destruct f as [[nm a] t]. cbn in A. subst a. unfold absent_val. cbn in *. destruct t; auto. destruct (O t). reflexivity. Qed.
Lemma is_named_in ns s w : is_named ns (UStr s, w) = true <-> In s ns.
Proof.
  unfold is_named. cbn [fst]. split.
  - destruct (find_name s ns 0) eqn:E; [|discriminate]. intros _. eapply find_name_some; eauto.
  - intros H. destruct (find_name_in s ns H 0) as [j ->]. reflexivity.
Qed.
Lemma kept_keys ns ws : forall keys, map fst ws = map UStr keys -> map fst (filter (is_named ns) ws) = map UStr (filter (fun s => match find_name s ns 0 with Some _ => true | None => false end) keys).
Proof.
  induction ws as [|[k w] ws IH]; intros [|s keys] E; try discriminate; auto. cbn in E. injection E as -> E. cbn [filter]. unfold is_named at 1. cbn [fst].
  destruct (find_name s ns 0); cbn; rewrite (IH _ E); reflexivity.
Qed.

Lemma flat_fails l e : wf (TStruct fs) -> wf g -> all_bytes l -> flat_js_fault f32_of f64_of dec any_f32 fs g l e -> fails (reading (flattened fo err fs g)) l e.
Proof.
  intros W Wg B H. destruct (fields_all_wf W) as [Hd Hw]. unfold flattened. method.
  assert (TB : forall a b, tail_of a b -> all_bytes b -> all_bytes a) by (intros a b; apply tail_bytes).
  Local Ltac objf Hb S := eapply map_fails; [exact Hb|]; cbn [mk_visitor v_map on_map visit_map];
    let ws := fresh "ws" in let K := fresh "K" in let R := fresh "R" in
    match goal with Hd : NoDup _, Hw : all_list _ _ |- _ => destruct (flat_reach _ _ _ _ _ _ _ Hd Hw S) as (ws & K & R) end; apply R; cbn [app]; rewrite (mfrob_eq (flat_loop _ _ _ _ _ _ _ _)); cbn [mfrob flat_loop].
  assert (Bk : forall r keys got first k, begins l 123 r -> takes_flat (map (fun _ => None) fs) true r keys got first k -> all_bytes k).
  { intros r keys got first k Hb S. eapply TB; [eapply takes_flat_tail; exact S|]. eapply TB; [eapply begins_tail1; exact Hb|exact B]. }
  assert (Bm : forall first k raw m x, all_bytes k -> item 125 first k (34 :: raw ++ 34 :: m) -> begins m 58 x -> all_bytes x).
  { intros first k raw m x Hk Hi Hx. eapply TB; [|exact Hk]. eapply tail_trans; [eapply begins_tail1; exact Hx|]. eapply tail_trans; [apply quoted_tail|]. eapply item_tail; exact Hi. }
  destruct H as [Hws|c r Hb Hc|r keys got first k e Hb S G|r keys got first k c q Hb S Hi Hc|r keys got first k q e Hb S Hi Ht|r keys got first k i f v raw m Hb S Hi Hf L Hg|r keys got first k i f raw m e Hb S Hi Hf L Hg Hc
    |r keys got first k i f raw m x e Hb S Hi Hf L Hg Hx He|r keys got first k raw s m e Hb S Hi L N Hc|r keys got first k raw s m x e Hb S Hi L N Hx He|r keys got first k q i f Hb S Hk Hf Hg Ha|r keys got first k q gs f Hb S Hk Eg Hf N Ha
    |r keys got first k q gs f a b c Hb S Hk Eg Hf Ek].
  - unfold j_deserialize_map. apply fails_ws; auto.
  - eapply map_kind; eauto.
  - objf Hb S. apply mkey_gap; auto.
  - objf Hb S. eapply mkey_kind; eauto.
  - objf Hb S. eapply mkey_bad; [exact Hi| |reflexivity]. apply key_text; auto; [exact Logic.I|].
    assert (Bx : all_bytes (34 :: q)) by (eapply TB; [eapply item_tail; exact Hi|eauto]). inversion Bx; auto.
  - objf Hb S. eapply mkey_item; [exact Hi|eapply flat_known; [exact Hd|rewrite nth_error_map, Hf; reflexivity|exact L]|]. cbv beta iota. rewrite nth_error_map, Hf, Hg. cbn [option_map]. apply mret_fail.
  - objf Hb S. eapply mkey_item; [exact Hi|eapply flat_known; [exact Hd|rewrite nth_error_map, Hf; reflexivity|exact L]|]. cbv beta iota. rewrite nth_error_map, Hf, Hg. cbn [option_map]. apply mval_colon; auto.
  - objf Hb S. eapply mkey_item; [exact Hi|eapply flat_known; [exact Hd|rewrite nth_error_map, Hf; reflexivity|exact L]|]. cbv beta iota. rewrite nth_error_map, Hf, Hg. cbn [option_map].
    eapply mval_bad; [exact Hx| |reflexivity]. apply js_fails; [exact He|apply (all_list_In _ _ Hw _ (nth_error_In _ _ Hf))|]. eauto.
  - objf Hb S. eapply mkey_item; [exact Hi|eapply flat_unknown; eauto|]. cbv beta iota. apply mval_colon; auto.
  - objf Hb S. eapply mkey_item; [exact Hi|eapply flat_unknown; eauto|]. cbv beta iota. eapply mval_bad; [exact Hx| |reflexivity]. apply any_fails; [eauto|destruct any_f32; exact He].
  - objf Hb S. eapply mkey_close; [exact Hk|]. cbv beta iota.
    assert (E : finish got (map absent_val fs) = None).
    { assert (Z : absent_val f = None) by (apply needed_absent; auto). clear - Hf Hg Z. revert i got Hf Hg. induction fs as [|f0 l IH]; intros [|i] [|o got] Hf Hg; try discriminate; cbn in *.
      - injection Hf as ->. injection Hg as ->. rewrite Z. reflexivity.
      - rewrite (IH i got Hf Hg). destruct o, (absent_val f0); reflexivity. }
    rewrite E. apply mret_fail.
  - objf Hb S. eapply mkey_close; [exact Hk|]. cbv beta iota.
    assert (E : from_rest fo g ws = None).
    { rewrite Eg in Wg |- *. cbn [from_rest from_content content_struct]. destruct (content_fields _ _ _ _) as [got'|] eqn:Ec; [|reflexivity]. destruct (In_nth_error _ _ Hf) as [i Ei].
      assert (X : nth_error got' i = Some None).
      { eapply content_keeps; [|apply Wg| |rewrite nth_error_map, Ei; reflexivity|exact Ec]; [rewrite nth_error_map, Ei; reflexivity|].
        intros x Hx. apply filter_In in Hx. destruct Hx as [Hx _]. apply (in_map fst) in Hx. rewrite K in Hx. apply in_map_iff in Hx. destruct Hx as (s & Es & Hs). exists s. split; [congruence|]. intros ->. auto. }
      assert (Z : absent_val f = None) by (apply needed_absent; auto).
      enough (finish got' (map absent_val gs) = None) as -> by reflexivity. clear - Ei X Z. revert i got' Ei X. induction gs as [|f0 l IH]; intros [|i] [|o got'] Hf Hg; try discriminate; cbn in *.
      - injection Hf as ->. injection Hg as ->. rewrite Z. reflexivity.
      - rewrite (IH i got' Hf Hg). destruct o, (absent_val f0); reflexivity. }
    rewrite E. destruct (finish _ _); apply mret_fail.
  - objf Hb S. eapply mkey_close; [exact Hk|]. cbv beta iota.
    assert (E : from_rest fo g ws = None).
    { rewrite Eg in Wg |- *. cbn [from_rest from_content content_struct]. destruct (In_nth_error _ _ Hf) as [i Ei].
      pose proof (kept_keys (map name_of gs) ws keys K) as KK. assert (Hi : nth_error (map name_of gs) i = Some (name_of f)) by (rewrite nth_error_map, Ei; reflexivity).
      destruct (find_name_in (name_of f) (map name_of gs) (in_map _ _ _ Hf) 0) as [j Ej]. rewrite Ek, filter_app in KK. cbn [filter] in KK. rewrite Ej, filter_app in KK. cbn [filter] in KK. rewrite Ej in KK.
      rewrite (content_again (map name_of gs) _ (proj1 (proj1 Wg)) _ _ _ i (name_of f) Hi KK); [reflexivity|eauto]. }
    rewrite E. destruct (finish _ _); apply mret_fail.
Qed.
Theorem js_flat_refuses input e : wf (TStruct fs) -> wf g -> all_bytes input -> (dec = Base64Decoder -> 3 * zlen input <= usize_max ar) -> flat_js_fault f32_of f64_of dec any_f32 fs g input e ->
  exists N, forall fuel, (N <= fuel)%nat -> exists s, js_from_mut_slice ar fl any_f32 dec fuel (flattened fo err fs g) input = Done s (Err e).
Proof. intros W Wg B R H. apply top_fails; auto. apply flat_fails; auto. Qed.
End A.

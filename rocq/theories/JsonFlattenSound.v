(** Structs with a flattened field are read from exactly the documents that represent them (C72). *)
From Verif Require Import Prelude PreludeFacts Utf8Spec Utf8 Utf8Facts SerdeSer SerdeDe FloatOps MpSpec Base64Spec JsonSpec JsonTypeSpec JsonAnySpec JsonFacts JsonDe JsonDeSafe JsonStr JsonView JsonTok JsonMeth JsonEats
  JsonFaultSpec JsonTyped JsonSound JsonSoundTop JsonTypedTop JsonAny Types TypesFacts TypeSize MpTypeSpec Content ContentSpec ContentFacts BufferSpec BufferFacts BufferTop EvolveFacts FlattenFacts Flatten FlattenJsonSpec FlattenReadSpec JsonFlatten JsonFlattenRead JsonAdjacentEnds.
From Verif Require MpTyped MpSound JsonFuel JsonUnamb.
Ltac Zify.zify_post_hook ::= Z.div_mod_to_equations.

Section Js.
Context (ar : arch) (fl : float_parser) (fo : float_ops) (any_f32 : bool) (dec : byte_decoder).
Context (F32 : f32_from_str fl [] = None) (F64 : f64_from_str fl [] = None).
Local Notation err := JDeserializeError.
Local Notation M := (DM jde js_de_error).
Local Notation sde := (sde ar fl any_f32 dec).
Local Notation sound := (sound ar dec).
Local Notation run := (js_run ar fl any_f32 dec).
Local Notation f32_of := (f32_from_str fl).
Local Notation f64_of := (f64_from_str fl).
Local Notation any_of := (if any_f32 then f32_of else f64_of).
Local Notation reads := (reads_as any_ws f32_of f64_of (byte_literal dec)).
Context (fs : list (bytes * fattr * ty)) (g : ty) (W : wf (TStruct fs)) (Hg : flat_ok g) (Wg : wf g).
Local Notation names := (map name_of fs).
Local Notation loop := (flat_loop fo err names (map (fun f => denote err (snd f)) fs) (map absent_val fs) g).
Local Notation flat_members := (flat_members f32_of f64_of dec any_f32 fs g).
Local Notation kept := (kept g).

(** ** The members *)
Definition key_post (u : val) (raw : bytes) : Prop :=
  (exists i n, u = UIdent (Some i) /\ nth_error names i = Some n /\ literal raw n) \/ (exists s, u = UStr s /\ literal raw s /\ ~ In s names).
Lemma skey_flat : skey ar fl any_f32 dec (request DIdentifier (v_flat_ident err names)) key_post.
Proof.
  apply skey_req. intros f. cbn [key_method]. eapply soundc_weaken; [apply soundc_key_str|]. intros u bs (raw & Hk & s & Hl & Hv).
  exists raw. split; auto. cbn in Hv. destruct (find_name s names 0) as [i|] eqn:F; injection Hv as <-.
  - left. apply MpSound.find_name_sound in F. destruct F as (k & -> & Hk'). exists k, s. auto.
  - right. exists s. split; auto. split; auto. eapply MpSound.find_name_absent; eauto.
Qed.
Lemma takes_dec s : takes_name g s \/ ~ takes_name g s.
Proof. unfold takes_name. destruct g; try tauto. destruct (in_dec (list_eq_dec Z.eq_dec) s (map name_of fs0)); auto. Qed.
Lemma loop_sound f : forall got c first, length got = length fs ->
  sound (jr_map (run f) (loop got c) first) (fun u b => exists ms, obj_part first ms b /\
    exists l w ws got', u = USeq [USeq l; w] /\ flat_members got ms (kept ws) got' /\ finish got' (map absent_val fs) = Some l /\ from_rest fo g (c ++ ws) = Some w).
Proof.
  destruct (fields_all_wf fs W) as [Hd Hw].
  induction f as [f IH] using (well_founded_induction lt_wf); intros got c first Lg. destruct f as [|f]; [apply sound_fuel|].
  rewrite (mfrob_eq (loop got c)). cbn [mfrob flat_loop].
  apply (next_member ar fl any_f32 dec f _ _ first key_post (fun u ms =>
    exists l w ws got', u = USeq [USeq l; w] /\ flat_members got ms (kept ws) got' /\ finish got' (map absent_val fs) = Some l /\ from_rest fo g (c ++ ws) = Some w)); [apply skey_flat|eauto|..].
  - apply map_ret. intros v E. destruct (finish got _) as [l|] eqn:Ef; [|discriminate]. destruct (from_rest fo g c) as [w|] eqn:Er; [|discriminate]. injection E as <-. split; auto.
    exists l, w, [], got. split; auto. split; [|rewrite app_nil_r; auto]. unfold JsonFlattenRead.kept. destruct g; constructor.
  - intros x raw [(i & n & -> & Hn & Hl)|(s & -> & Hl & Hn)].
    + rewrite nth_error_map in *. destruct (nth_error fs i) as [fd|] eqn:Ef; [|discriminate]. injection Hn as <-. cbn [option_map].
      destruct (nth_error got i) as [[w|]|] eqn:Eg; try (left; eexists; reflexivity). right.
      eexists; eexists; exists (reads (snd fd)). split; [reflexivity|]. split; [intros; apply denote_sound; auto; apply (MpTyped.all_list_In _ _ Hw _ (nth_error_In _ _ Ef))|]. split; [eauto|].
      intros y d f' Hf' Hy. eapply sound_weaken; [apply (IH f'); [lia|rewrite MpSound.set_nth_length; auto]|].
      intros u b (ms & Hb & l & w & ws & got' & Hu & Hm & H). exists ms. split; auto. exists l, w, ws, got'. split; auto. split; auto. eapply FD_field; eauto.
    + right. eexists; eexists; exists (any_as any_f32 any_of). split; [reflexivity|]. split; [intros; destruct any_f32; apply sde_any|]. split; [eauto|].
      intros y d f' Hf' Hy. eapply sound_weaken; [apply (IH f'); [lia|auto]|].
      intros u b (ms & Hb & l & w & ws & got' & Hu & Hm & Hfin & Hr). exists ms. split; auto. exists l, w, ((UStr s, y) :: ws), got'. split; auto. rewrite <- app_assoc in Hr. split; auto.
      destruct (kept_cons g s y ws Hg) as [K1 K2]. destruct (takes_dec s) as [T|T]; [rewrite (K1 T); eapply FD_flat; eauto|rewrite (K2 T); eapply FD_skip; eauto].
Qed.
Lemma members_length got ms rest got' : flat_members got ms rest got' -> length got' = length got.
Proof. induction 1; auto. rewrite IHflat_members, MpSound.set_nth_length. auto. Qed.
Lemma members_no_numbers got ms rest got' : flat_members got ms rest got' -> no_number_keys (UMap rest).
Proof. induction 1; auto; [exact I|]. cbn in *. split; auto. split; [discriminate|]. split; auto. eapply any_no_numbers; eauto. Qed.
Lemma from_rest_is ws : from_rest fo g ws = from_content fo g (UMap (kept ws)).
Proof. symmetry. symmetry. apply (from_rest_kept fo g ws _ Hg eq_refl). Qed.
Lemma flattened_sound : sde (flattened fo err fs g) (fun u d => exists l w, u = USeq [USeq l; w] /\ flat_from_doc fo f32_of f64_of dec any_f32 fs g l w d).
Proof.
  unfold flattened. apply sde_request. intros f. cbn [js_method]. eapply sound_weaken; [apply sound_map|].
  - cbn [visit_map mk_visitor v_map on_map]. apply loop_sound. rewrite map_length. auto.
  - intros u bs H. eapply vtext_weaken; [|exact H]. intros d (ms & -> & l & w & ws & got & -> & Hm & Hf & Hr). exists l, w. split; auto. exists ms, (kept ws), got. split; auto. split; auto. split.
    + apply MpSound.finish_sound; auto. rewrite (members_length _ _ _ _ Hm), map_length. auto.
    + cbn [app] in Hr. rewrite from_rest_is in Hr. apply (content_agree fo g Wg); auto. eapply members_no_numbers; eauto.
Qed.
Lemma flattened_takes l w d : flat_from_doc fo f32_of f64_of dec any_f32 fs g l w d -> accepts ar fl any_f32 dec (flattened fo err fs g) d (USeq [USeq l; w]).
Proof.
  intros (ms & rest & got & -> & Hm & Hl & Hb). destruct (fields_all_wf fs W) as [Hd Hw]. destruct (feed_members ar fl fo any_f32 dec fs g _ _ _ _ Hd Hw Hg Hm) as (ws & K & F).
  apply (content_agree fo g Wg) in Hb; [|eapply members_no_numbers; eauto].
  unfold flattened, request. apply (proj1 (accepts_req ar fl any_f32 dec _ _ _ _)). intros tx sp k Hx Hsp Hk. cbn [js_method].
  eapply map_eats; [|exact Hx|auto]. cbn [mk_visitor v_map on_map visit_map]. apply F. cbn [app].
  rewrite (mfrob_eq (loop _ _)); cbn [mfrob flat_loop]. apply FM_end. cbn iota beta. rewrite (MpTyped.finish_all _ _ _ Hl).
  rewrite from_rest_is, K, Hb. apply FM_ret.
Qed.
End Js.

(** ** Every input *)
Section Top.
Context (ar : arch) (fl : float_parser) (fo : float_ops) (any_f32 : bool) (dec : byte_decoder) (fs : list (bytes * fattr * ty)) (g : ty).
Local Notation prog := (flattened fo JDeserializeError fs g).
Local Notation from l w d := (flat_from_doc fo (f32_from_str fl) (f64_from_str fl) dec any_f32 fs g l w d).
Lemma flat_kind : (exists gs, g = TStruct gs) \/ (exists k v, g = TMap k v) -> flat_ok g.
Proof. intros [[gs ->]|(k & v & ->)]; exact I. Qed.
Theorem js_flattened_sound fuel input s u : f32_from_str fl [] = None -> f64_from_str fl [] = None -> wf (TStruct fs) -> (exists gs, g = TStruct gs) \/ (exists k v, g = TMap k v) -> wf g -> all_bytes input ->
  (dec = Base64Decoder -> 3 * zlen input <= usize_max ar) -> js_from_mut_slice ar fl any_f32 dec fuel prog input = Done s (Ok u) ->
  exists l w d w1 text w2, u = USeq [USeq l; w] /\ input = w1 ++ text ++ w2 /\ any_ws w1 /\ any_ws w2 /\ loose_text d text /\ from l w d.
Proof.
  intros F32 F64 W K Wg B R E. destruct (sound_top ar fl any_f32 dec _ _ fuel input s u (flattened_sound ar fl fo any_f32 dec F32 F64 fs g W (flat_kind K) Wg) B R E) as (d & w1 & text & w2 & -> & W1 & W2 & T & l & w & -> & H).
  exists l, w, d, w1, text, w2. auto 10.
Qed.
Theorem js_flattened_takes l w d text w1 w2 : wf (TStruct fs) -> (exists gs, g = TStruct gs) \/ (exists k v, g = TMap k v) -> wf g -> from l w d -> loose_text d text -> any_ws w1 -> any_ws w2 ->
  (dec = Base64Decoder -> 3 * zlen (w1 ++ text ++ w2) <= usize_max ar) ->
  exists N, forall fuel, (N <= fuel)%nat -> exists s, js_from_mut_slice ar fl any_f32 dec fuel prog (w1 ++ text ++ w2) = Done s (Ok (USeq [USeq l; w])).
Proof. intros W K Wg H T W1 W2 R. apply accepts_top with (d := d); auto. apply flattened_takes; auto. apply flat_kind; auto. Qed.
Theorem js_flattened_decides input fuel : f32_from_str fl [] = None -> f64_from_str fl [] = None -> wf (TStruct fs) -> (exists gs, g = TStruct gs) \/ (exists k v, g = TMap k v) -> wf g -> all_bytes input ->
  (dec = Base64Decoder -> 3 * zlen input <= usize_max ar) -> (10 * type_size (TStruct fs) + 1 + 3 * length input <= fuel)%nat ->
  (exists s l w d w1 text w2, js_from_mut_slice ar fl any_f32 dec fuel prog input = Done s (Ok (USeq [USeq l; w])) /\
     input = w1 ++ text ++ w2 /\ any_ws w1 /\ any_ws w2 /\ loose_text d text /\ from l w d) \/
  (exists s e, js_from_mut_slice ar fl any_f32 dec fuel prog input = Done s (Err e) /\
     forall l w d w1 text w2, input = w1 ++ text ++ w2 -> any_ws w1 -> any_ws w2 -> loose_text d text -> ~ from l w d).
Proof.
  intros F32 F64 W K Wg B R Hf. destruct (js_flattened_ends ar fl fo any_f32 dec fs g input fuel R Hf) as (s & [u|e] & E).
  - left. destruct (js_flattened_sound fuel input s u F32 F64 W K Wg B R E) as (l & w & d & w1 & text & w2 & -> & H). exists s, l, w, d, w1, text, w2. auto.
  - right. exists s, e. split; auto. intros l w d w1 text w2 -> W1 W2 T H.
    destruct (js_flattened_takes l w d text w1 w2 W K Wg H T W1 W2 R) as [N HN]. destruct (HN N (le_n N)) as [s' E'].
    destruct (JsonFuel.budget_irrelevant _ _ _ _ _ _ _ _ _ _ _ _ E E') as [_ D]. discriminate D.
Qed.
Theorem js_flattened_cut fuel s u d w1 text p q : f32_from_str fl [] = None -> f64_from_str fl [] = None -> wf (TStruct fs) -> (exists gs, g = TStruct gs) \/ (exists k v, g = TMap k v) -> wf g ->
  (dec = Base64Decoder -> 3 * zlen (w1 ++ text) <= usize_max ar) ->
  loose_text d text -> any_ws w1 -> (forall tok, d <> JNum tok) -> w1 ++ text = p ++ q -> q <> [] ->
  js_from_mut_slice ar fl any_f32 dec fuel prog p <> Done s (Ok u).
Proof.
  intros F1 F2 Wt K Wg R T W Hn E Q H.
  destruct (js_flattened_sound fuel p s u F1 F2 Wt K Wg (JsonUnamb.cut_bytes _ _ _ _ _ E W T) (JsonUnamb.cut_bound ar dec _ _ _ E R) H) as (l & w & d' & u1 & t' & u2 & _ & -> & U1 & _ & T' & _).
  apply (JsonUnamb.cut_text d w1 text _ q d' u1 t' u2 T W Hn E Q); auto.
Qed.
End Top.

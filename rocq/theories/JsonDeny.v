(** Structs that refuse unknown fields, in JSON (C77). *)
From Verif Require Import Prelude PreludeFacts Utf8Spec Utf8 Utf8Facts SerdeSer SerdeDe FloatOps MpSpec Base64Spec JsonSpec JsonTypeSpec JsonFacts JsonDe JsonDeSafe JsonStr JsonView JsonTok JsonMeth JsonEats
  JsonFaultSpec JsonTyped JsonSound JsonSoundTop JsonTypedTop Types TypesFacts TypeSize MpTypeSpec JsonFuel Deny DenySpec.
From Verif Require MpTyped MpSound JsonUnamb AdjacentEnds.
Ltac Zify.zify_post_hook ::= Z.div_mod_to_equations.

Lemma field_wf fs f : wf (TStruct fs) -> In f fs -> wf (snd f).
Proof. intros [_ W'] H. apply (MpTyped.all_list_In _ _ W' f H). Qed.
Section Reads.
Context (ar : arch) (fl : float_parser) (any_f32 : bool) (dec : byte_decoder).
Context (key_ws : bytes -> Prop) (Hkw : forall w, key_ws w -> any_ws w).
Local Notation err := JDeserializeError.
Local Notation M := (DM jde js_de_error).
Local Notation sde := (sde ar fl any_f32 dec).
Local Notation sound := (sound ar dec).
Local Notation run := (@js_run ar fl any_f32 dec).
Local Notation reads := (reads_as key_ws (f32_from_str fl) (f64_from_str fl) (byte_literal dec)).
Context (fs : list (bytes * fattr * ty)) (W : wf (TStruct fs)).
Local Notation names := (map name_of fs).
Local Notation ps := (map (fun f => reads (snd f)) fs).
Local Notation seeds := (map (fun f => denote err (snd f)) fs).
Local Notation loop := (deny_loop err names seeds (map absent_val fs)).

(** ** What is read *)
Lemma deny_feeds got ms got' : known_members names ps got ms got' -> forall l, all_fields fs got' l -> feedm ar fl any_f32 dec (loop got) ms (USeq l).
Proof.
  pose proof W as [[Hnd _] _]. intros H. induction H as [got|got i n p v raw d ms got' Hg Hp Hn L Hv _ IH]; intros l Hl;
    rewrite (mfrob_eq (loop _)); cbn [mfrob deny_loop].
  - apply FM_end. rewrite (MpTyped.finish_all _ _ _ Hl). apply FM_ret.
  - rewrite nth_error_map in Hp. destruct (nth_error fs i) as [f|] eqn:Ef; [|discriminate]. cbn in Hp. injection Hp as <-.
    eapply FM_next; [eapply ident_key; eauto|cbn iota beta; rewrite nth_error_map, Ef, Hg; reflexivity| |apply IH; auto].
    apply (typed_accepts ar fl any_f32 dec key_ws Hkw); [apply (field_wf fs); [exact W|]; eapply nth_error_In; eauto|exact Hv].
Qed.
Lemma denying_takes l d : deny_doc reads fs l d -> accepts ar fl any_f32 dec (denying err fs) d (USeq l).
Proof.
  intros H. unfold denying, request. apply (proj1 (accepts_req ar fl any_f32 dec _ _ _ _)). intros b w k Hb Hw Hk. cbn [js_method].
  assert (F : Forall (fun f => wf (snd f) -> forall v d, reads (snd f) v d -> accepts ar fl any_f32 dec (denote err (snd f)) d v) fs).
  { apply Forall_forall. intros f _ Wf v d0. apply (typed_accepts ar fl any_f32 dec key_ws Hkw); exact Wf. }
  assert (Wl : all_list (fun f => wf (snd f)) fs).
  { clear - W. destruct W as [_ Hwf]. revert Hwf. generalize fs. induction fs0 as [|f fs' IH]; intros Hwf; [exact I|]. destruct Hwf as [[W1 _] W2]. split; auto. }
  unfold j_deserialize_struct. destruct H as [(ds & -> & Ld & Ll & Ha & Hd)|(ms & got & -> & Ho & Hl)].
  - destruct (arr_text _ _ Hb) as (b' & Eb & _). rewrite Eb. cbn [app]. apply eats_ws; auto. cbn [Z.eqb Pos.eqb].
    change (91 :: (b' ++ [93]) ++ k) with ([] ++ (91 :: b' ++ [93]) ++ k). rewrite <- Eb.
    apply (seq_eats ar fl any_f32 dec _ ds); [|auto|constructor]. cbn. apply (fields_feeds ar fl any_f32 dec key_ws fs F Wl l ds []); auto.
  - destruct (obj_text _ _ Hb) as (b' & Eb & _). rewrite Eb. cbn [app]. apply eats_ws; auto. cbn [Z.eqb Pos.eqb].
    change (123 :: (b' ++ [125]) ++ k) with ([] ++ (123 :: b' ++ [125]) ++ k). rewrite <- Eb.
    apply (map_eats ar fl any_f32 dec _ ms); [|auto|constructor]. cbn. eapply deny_feeds; eauto.
Qed.

End Reads.

(** ** Nothing else is *)
Section Js.
Context (ar : arch) (fl : float_parser) (any_f32 : bool) (dec : byte_decoder).
Local Notation err := JDeserializeError.
Local Notation M := (DM jde js_de_error).
Local Notation sde := (sde ar fl any_f32 dec).
Local Notation sound := (sound ar dec).
Local Notation run := (@js_run ar fl any_f32 dec).
Local Notation reads := (reads_as any_ws (f32_from_str fl) (f64_from_str fl) (byte_literal dec)).
Context (fs : list (bytes * fattr * ty)) (W : wf (TStruct fs)).
Local Notation names := (map name_of fs).
Local Notation ps := (map (fun f => reads (snd f)) fs).
Local Notation seeds := (map (fun f => denote err (snd f)) fs).
Local Notation loop := (deny_loop err names seeds (map absent_val fs)).

Lemma known_length got ms got' : known_members names ps got ms got' -> length got' = length got.
Proof. induction 1; auto. rewrite IHknown_members, MpSound.set_nth_length. auto. Qed.

Context (F32 : f32_from_str fl [] = None) (F64 : f64_from_str fl [] = None).
Lemma loop_sound f : forall got first, length got = length fs ->
  sound (jr_map (run f) (loop got) first) (fun u b => exists ms, obj_part first ms b /\
    exists l got', u = USeq l /\ known_members names ps got ms got' /\ finish got' (map absent_val fs) = Some l).
Proof.
  induction f as [f IH] using (well_founded_induction lt_wf); intros got first Lg. destruct f as [|f]; [apply sound_fuel|].
  rewrite (mfrob_eq (loop got)). cbn [mfrob deny_loop].
  apply (next_member ar fl any_f32 dec f _ _ first (ident_post true names) (fun u ms =>
    exists l got', u = USeq l /\ known_members names ps got ms got' /\ finish got' (map absent_val fs) = Some l)); [apply skey_ident|eauto|..].
  - apply map_ret. intros v E. destruct (finish got _) as [l|] eqn:Ef; [|discriminate]. injection E as <-. split; auto. exists l, got. split; auto. split; auto. constructor.
  - intros x raw Hx. destruct x as [| | | | | | | | | | | | |[i|]]; cbn [ident_post] in Hx; try contradiction; [|destruct Hx; discriminate].
    destruct Hx as (n & Hn & Hl). rewrite nth_error_map in *. destruct (nth_error fs i) as [fd|] eqn:Ef; [|discriminate]. injection Hn as <-. cbn [option_map].
    destruct (nth_error got i) as [[w|]|] eqn:Eg; try (left; eexists; reflexivity). right.
    eexists; eexists; exists (reads (snd fd)). split; [reflexivity|]. split; [intros; apply denote_sound; auto; apply (field_wf fs); [exact W|apply (nth_error_In _ _ Ef)]|]. split; [eauto|].
    intros y d f' Hf' Hy. eapply sound_weaken; [apply (IH f'); [lia|rewrite MpSound.set_nth_length; auto]|].
    intros u b (ms & Hb & l & got' & Hu & Hm & H). exists ms. split; auto. exists l, got'. split; auto. split; auto.
    eapply KM_field; eauto; rewrite nth_error_map, Ef; reflexivity.
Qed.
Lemma denying_sound : sde (denying err fs) (fun u d => exists l, u = USeq l /\ deny_doc reads fs l d).
Proof.
  unfold denying. apply sde_request. intros f. cbn [js_method]. eapply sound_weaken; [apply sound_struct|].
  - cbn [visit_seq mk_visitor v_struct on_seq]. apply (ssq_tuple ar fl any_f32 dec _ ps).
    apply MpTyped.Forall2_map. intros g Hg. cbn [fst]. apply denote_sound; auto. apply (field_wf fs); auto.
  - cbn [visit_map mk_visitor v_struct on_map]. apply loop_sound. rewrite map_length. auto.
  - intros u bs H. eapply vtext_weaken; [|exact H]. intros d [(ds & -> & l & -> & H1 & H2 & H3 & H4)|(ms & -> & l & got & -> & Ho & Hf)]; cbn [rev app]; exists l; (split; [auto|]).
    + left. rewrite map_length in *. exists ds. repeat split; auto. rewrite skipn_map in H4. apply all2_default. auto.
    + right. exists ms, got. split; auto. split; auto. apply MpSound.finish_sound; auto. rewrite (known_length _ _ _ Ho), map_length. auto.
Qed.
End Js.

(** ** Decoding ends *)
Section Ends.
Context (ar : arch) (fl : float_parser) (any_f32 : bool) (dec : byte_decoder) (orig : nat).
Context (room : dec = Base64Decoder -> 3 * Z.of_nat orig <= usize_max ar).
Local Notation err := JDeserializeError.
Local Notation dB := (dB ar fl any_f32 dec orig).
Lemma deny_loop_b n B names seeds absent got : (6 <= B)%nat -> (forall n seed, In seed seeds -> dB n B seed) ->
  mB ar fl any_f32 dec orig n (B + 2) (deny_loop err names seeds absent got).
Proof.
  intros HB Hs f Hf.
  eapply (map_bound ar fl any_f32 dec orig (fun p => exists got, p = deny_loop err names seeds absent got) B n); [lia| |eauto|cbn; lia].
  intros p (got' & ->). exists (ident err true names). eexists.
  split; [rewrite (mfrob_eq (deny_loop _ _ _ _ _)); reflexivity|].
  split; [intros; apply ident_b; auto; lia|]. split; [eauto|]. split; [eauto|]. intros u.
  destruct u; try (left; eauto; fail). destruct o as [i|]; [|left; eauto].
  destruct (nth_error seeds i) as [seed|] eqn:Es; [|left; eauto]. destruct (nth_error got' i) as [[w|]|]; [left; eauto| |left; eauto].
  right. exists seed. eexists. split; [reflexivity|]. split; [intros; apply Hs; eapply nth_error_In; eauto|]. split; eauto.
Qed.
Lemma denying_b fs n : dB n (S (10 * type_size (TStruct fs))) (denying err fs).
Proof.
  unfold denying, request. apply req_bound; auto. split; [|split; [|split]; discriminate]. intros n' _.
  cbn [visit_seq visit_map mk_visitor v_struct on_seq on_map type_size].
  split; [apply fields_within; auto; [apply Forall_forall; intros; apply types_within; auto|lia]|].
  eapply mB_less; [|apply (deny_loop_b n' (10 * list_sum (map (fun f => type_size (snd f)) fs) + 6)); [lia|]]; [lia|].
  intros n0 seed Hin. apply in_map_iff in Hin. destruct Hin as (f & <- & Hin). apply t_bound; auto; [apply types_within; auto|].
  pose proof (AdjacentEnds.one_of_sum (fun f : bytes * fattr * ty => type_size (snd f)) fs f Hin). cbn beta in *. lia.
Qed.
End Ends.

(** ** Every input *)
Section Top.
Context (ar : arch) (fl : float_parser) (any_f32 : bool) (dec : byte_decoder) (fs : list (bytes * fattr * ty)).
Local Notation prog := (denying JDeserializeError fs).
Local Notation from l d := (deny_doc (reads_as any_ws (f32_from_str fl) (f64_from_str fl) (byte_literal dec)) fs l d).
Theorem js_denying_ends input fuel : (dec = Base64Decoder -> 3 * zlen input <= usize_max ar) -> (10 * type_size (TStruct fs) + 1 + 3 * length input <= fuel)%nat ->
  exists s r, js_from_mut_slice ar fl any_f32 dec fuel prog input = Done s r.
Proof. intros R Hf. eapply (ends_top ar fl any_f32 dec); [auto|apply (denying_b ar fl any_f32 dec (length input) R)|lia]. Qed.
Theorem js_denying_sound fuel input s u : f32_from_str fl [] = None -> f64_from_str fl [] = None -> wf (TStruct fs) -> all_bytes input ->
  (dec = Base64Decoder -> 3 * zlen input <= usize_max ar) -> js_from_mut_slice ar fl any_f32 dec fuel prog input = Done s (Ok u) ->
  exists l d w1 text w2, u = USeq l /\ input = w1 ++ text ++ w2 /\ any_ws w1 /\ any_ws w2 /\ loose_text d text /\ from l d.
Proof.
  intros F32 F64 W B R E. destruct (sound_top ar fl any_f32 dec _ _ fuel input s u (denying_sound ar fl any_f32 dec fs W F32 F64) B R E) as (d & w1 & text & w2 & -> & W1 & W2 & T & l & -> & H).
  exists l, d, w1, text, w2. auto 10.
Qed.
Theorem js_denying_takes l d text w1 w2 : wf (TStruct fs) -> from l d -> loose_text d text -> any_ws w1 -> any_ws w2 ->
  (dec = Base64Decoder -> 3 * zlen (w1 ++ text ++ w2) <= usize_max ar) ->
  exists N, forall fuel, (N <= fuel)%nat -> exists s, js_from_mut_slice ar fl any_f32 dec fuel prog (w1 ++ text ++ w2) = Done s (Ok (USeq l)).
Proof. intros W H T W1 W2 R. apply accepts_top with (d := d); auto. apply (denying_takes ar fl any_f32 dec any_ws (fun w H => H)); auto. Qed.
Theorem js_denying_decides input fuel : f32_from_str fl [] = None -> f64_from_str fl [] = None -> wf (TStruct fs) -> all_bytes input ->
  (dec = Base64Decoder -> 3 * zlen input <= usize_max ar) -> (10 * type_size (TStruct fs) + 1 + 3 * length input <= fuel)%nat ->
  (exists s l d w1 text w2, js_from_mut_slice ar fl any_f32 dec fuel prog input = Done s (Ok (USeq l)) /\
     input = w1 ++ text ++ w2 /\ any_ws w1 /\ any_ws w2 /\ loose_text d text /\ from l d) \/
  (exists s e, js_from_mut_slice ar fl any_f32 dec fuel prog input = Done s (Err e) /\
     forall l d w1 text w2, input = w1 ++ text ++ w2 -> any_ws w1 -> any_ws w2 -> loose_text d text -> ~ from l d).
Proof.
  intros F32 F64 W B R Hf. destruct (js_denying_ends input fuel R Hf) as (s & [u|e] & E).
  - left. destruct (js_denying_sound fuel input s u F32 F64 W B R E) as (l & d & w1 & text & w2 & -> & H). exists s, l, d, w1, text, w2. auto.
  - right. exists s, e. split; auto. intros l d w1 text w2 -> W1 W2 T H.
    destruct (js_denying_takes l d text w1 w2 W H T W1 W2 R) as [N HN]. destruct (HN N (le_n N)) as [s' E'].
    destruct (JsonFuel.budget_irrelevant _ _ _ _ _ _ _ _ _ _ _ _ E E') as [_ D]. discriminate D.
Qed.
Theorem js_denying_cut fuel s u d w1 text p q : f32_from_str fl [] = None -> f64_from_str fl [] = None -> wf (TStruct fs) ->
  (dec = Base64Decoder -> 3 * zlen (w1 ++ text) <= usize_max ar) ->
  loose_text d text -> any_ws w1 -> (forall tok, d <> JNum tok) -> w1 ++ text = p ++ q -> q <> [] ->
  js_from_mut_slice ar fl any_f32 dec fuel prog p <> Done s (Ok u).
Proof.
  intros F1 F2 Wt R T W Hn E Q H.
  destruct (js_denying_sound fuel p s u F1 F2 Wt (JsonUnamb.cut_bytes _ _ _ _ _ E W T) (JsonUnamb.cut_bound ar dec _ _ _ E R) H) as (l & d' & u1 & t' & u2 & _ & -> & U1 & _ & T' & _).
  apply (JsonUnamb.cut_text d w1 text _ q d' u1 t' u2 T W Hn E Q); auto.
Qed.
End Top.

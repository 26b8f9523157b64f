(** Adjacently tagged enums are read from exactly the documents that represent them (C71). *)
From Verif Require Import Prelude PreludeFacts Utf8Spec Utf8 Utf8Facts SerdeSer SerdeDe FloatOps MpSpec Base64Spec JsonSpec JsonTypeSpec JsonAnySpec JsonFacts JsonDe JsonDeSafe JsonStr JsonView JsonTok JsonMeth JsonEats
  JsonTyped JsonSound JsonSoundTop JsonTypedTop JsonAny Types TypesFacts TypeSize MpTypeSpec Content ContentSpec BufferSpec BufferFacts BufferTop Adjacent AdjacentSpec AdjacentReadSpec JsonAdjacent JsonAdjacentSwap JsonAdjacentEnds.
From Verif Require MpTyped MpSound JsonFuel JsonUnamb.
Ltac Zify.zify_post_hook ::= Z.div_mod_to_equations.

Section Js.
Context (ar : arch) (fl : float_parser) (fo : float_ops) (any_f32 : bool) (dec : byte_decoder).
Context (F32 : f32_from_str fl [] = None) (F64 : f64_from_str fl [] = None).
Local Notation err := JDeserializeError.
Local Notation M := (DM jde js_de_error).
Local Notation sde := (sde ar fl any_f32 dec).
Local Notation sound := (sound ar dec).
Local Notation run := (js_run ar fl any_f32 dec).
Local Notation float_of := (if any_f32 then f32_from_str fl else f64_from_str fl).
Local Notation reads := (reads_as any_ws (f32_from_str fl) (f64_from_str fl) (bytes_of dec)).

(** ** Whatever is there *)
Lemma never_then {A B} (m : M A) (k : A -> M B) : (forall a, never (k a)) -> never (dbind m k).
Proof. intros H s s' b E. unfold dbind in E. destruct (m s) as [s1 [a|e]| |]; try discriminate. exact (H a _ _ _ E). Qed.
Lemma sme_any f (v : visitor val js_de_error) (P : val -> jv -> Prop) :
  sound (j_deserialize_unit v) (vtext P) -> sound (j_deserialize_bool v) (vtext P) -> sound (j_deserialize_str v) (vtext P) ->
  (forall k z, exists e, visit_int v k z = Err e) -> (forall x, exists e, visit_f32 v x = Err e) -> (forall x, exists e, visit_f64 v x = Err e) ->
  sound (j_deserialize_seq (run f) v) (vtext P) -> sound (j_deserialize_map (run f) v) (vtext P) -> sound (j_deserialize_any fl any_f32 (run f) v) (vtext P).
Proof.
  intros H1 H2 H3 Hi Ha Hb H4 H5. unfold j_deserialize_any. apply sound_ws. intros c Hc.
  assert (G : forall m : M val, sound m (vtext P) -> soundc ar dec c m (fun a y => forall w, blank w -> vtext P a (w ++ y))).
  { intros m H. apply soundc_sound. eapply sound_weaken; [exact H|]. intros u bs Hu w Hw. apply vtext_blank; auto. }
  apply soundc_if; intros _; [apply G; auto|]. apply soundc_if; intros _; [apply G; auto|]. apply soundc_if; intros _; [apply G; auto|].
  apply soundc_if; intros _; [|apply soundc_if; intros _; [apply G; auto|]; apply soundc_if; intros _; [apply G; auto|apply soundc_fail]].
  apply soundc_sound, sound_never, never_then. intros [n|n|x]; [destruct (Hi U64 n) as [e ->]|destruct (Hi I64 n) as [e ->]|destruct any_f32; [destruct (Ha x) as [e ->]|destruct (Hb x) as [e ->]]]; apply never_lift.
Qed.
Lemma unit_sound : sde (request DAny (v_untagged_unit err)) (fun v d => v = UUnit /\ d = JNull).
Proof.
  apply sde_request. intros f. cbn [js_method]. apply sme_any; try (intros; eexists; reflexivity).
  - eapply sound_weaken; [apply (sound_view ar dec (fun x => x) _ _ _ (view_m_unit ar dec _) (psound_m_unit ar dec _))|]. intros u bs H. eapply vtext_weaken; [|exact H]. intros d (-> & [= <-]). auto.
  - eapply sound_weaken; [apply (sound_view ar dec (fun x => x) _ _ _ (view_m_bool ar dec _) (psound_m_bool ar dec _))|]. intros u bs H. eapply vtext_weaken; [|exact H]. intros d (x & _ & D). discriminate D.
  - eapply sound_weaken; [apply (sound_view ar dec (fun x => x) _ _ _ (view_m_str ar dec _) (psound_m_str ar dec _))|]. intros u bs H. eapply vtext_weaken; [|exact H]. intros d (raw & s & _ & _ & D). discriminate D.
  - eapply sound_weaken; [apply (sound_seq ar dec) with (P := fun _ _ => False)|]; [apply sound_never, never_seq_err|]. intros u bs H. eapply vtext_weaken; [|exact H]. intros d (ds & _ & []).
  - eapply sound_weaken; [apply (sound_map ar dec) with (P := fun _ _ => False)|]; [apply sound_never, never_map_err|]. intros u bs H. eapply vtext_weaken; [|exact H]. intros d (ds & _ & []).
Qed.
Lemma content_sound k t : wf t -> kind_ok k t -> sde (content_seed err k t) (content_doc reads k t).
Proof.
  intros W K. destruct k; cbn [content_seed content_doc]; try exact (denote_sound ar fl any_f32 dec t F32 F64 W).
  - destruct t; exact unit_sound.
  - destruct t as [ | | | | | | | | | | | | | | |fs| ]; cbn in K; try contradiction. destruct W as [_ W].
    assert (F : Forall2 sde (map (fun f => denote err (snd f)) fs) (map (fun f => reads (snd f)) fs)).
    { clear -W F32 F64. induction fs as [|f fs IH]; cbn in *; constructor; [apply denote_sound; tauto|tauto]. }
    apply sde_request. intros f. cbn [js_method]. apply sme_any; try (intros; eexists; reflexivity).
    + eapply sound_weaken; [apply (sound_view ar dec (fun x => x) _ _ _ (view_m_unit ar dec _) (psound_m_unit ar dec _))|]. intros u bs H. eapply vtext_weaken; [|exact H]. intros d (_ & D). discriminate D.
    + eapply sound_weaken; [apply (sound_view ar dec (fun x => x) _ _ _ (view_m_bool ar dec _) (psound_m_bool ar dec _))|]. intros u bs H. eapply vtext_weaken; [|exact H]. intros d (x & _ & D). discriminate D.
    + eapply sound_weaken; [apply (sound_view ar dec (fun x => x) _ _ _ (view_m_str ar dec _) (psound_m_str ar dec _))|]. intros u bs H. eapply vtext_weaken; [|exact H]. intros d (raw & s & _ & _ & D). discriminate D.
    + eapply sound_weaken; [apply (sound_seq ar dec) with (P := fun _ _ => False)|]; [apply sound_never, never_seq_err|]. intros u bs H. eapply vtext_weaken; [|exact H]. intros d (ds & _ & []).
    + eapply sound_weaken; [apply sound_map|].
      * cbn [visit_map mk_visitor v_map on_map]. apply (smp_struct ar fl any_f32 dec _ _ _ _ F). rewrite !map_length. auto.
      * intros u bs H. eapply vtext_weaken; [|exact H]. intros d (ms & -> & l & got & -> & Ho & Hf). split; [|eauto]. cbn [reads_as]. right. exists ms, got. split; auto. split; auto.
        apply MpSound.finish_sound; auto. rewrite (obj_fields_length _ _ _ _ _ Ho), map_length. auto.
Qed.
Lemma tag_doc vs u d : reads (tag_ty vs) u d -> exists i n k t a, u = UVar i UUnit /\ nth_error vs i = Some (n, k, t) /\ d = JStr a /\ literal a n.
Proof.
  unfold tag_ty. destruct u as [| | | | | | | | | | | |i w|]; cbn [reads_as]; try contradiction. rewrite map_map, nth_error_map. destruct (nth_error vs i) as [[[n k] t]|] eqn:E; cbn; [|contradiction].
  intros [-> (raw & -> & L)]. exists i, n, k, t, raw. auto.
Qed.
Lemma tag_wf vs : wf (TEnum vs) -> wf (tag_ty vs).
Proof. intros [Hv _]. unfold tag_ty. cbn [wf]. split; [rewrite map_map; exact Hv|]. clear. induction vs; cbn; auto. Qed.

(** ** The object *)
Lemma sound_next names k (Q : val -> list (bytes * jv) -> Prop) :
  (forall r v, k None = MRet r -> r = Ok v -> Q v []) -> (exists r, k None = MRet r) ->
  (forall i n raw, nth_error names i = Some n -> literal raw n -> (exists e, k (Some i) = MRet (Err e)) \/
     exists vseed VK VP, k (Some i) = MVal vseed VK /\ sde vseed VP /\ (forall e, exists e', VK (Err e) = MRet (Err e')) /\
       forall y d f, VP y d -> sound (jr_map (run f) (VK (Ok y)) false) (fun u b => exists ms, obj_part false ms b /\ Q u ((raw, d) :: ms))) ->
  (forall m u ms, other_member names m -> Q u ms -> Q u (m :: ms)) ->
  forall f first, sound (jr_map (run f) (next_relevant err names k) first) (fun u b => exists ms, obj_part first ms b /\ Q u ms).
Proof.
  intros H0 [r0 H0'] H1 H2 f. induction f as [f IH] using (well_founded_induction lt_wf); intros first. destruct f as [|f]; [apply sound_fuel|].
  rewrite (mfrob_eq (next_relevant _ _ _)). cbn [mfrob next_relevant].
  apply (next_member ar fl any_f32 dec f _ _ first (ident_post false names) Q); [apply skey_ident|eauto|..].
  - cbv beta iota. rewrite H0'. apply map_ret. intros v E. split; auto. eapply H0; eauto.
  - intros x raw Hx. destruct x as [| | | | | | | | | | | | |[i|]]; cbn [ident_post] in Hx; try contradiction.
    + destruct Hx as (n & Hn & Hl). destruct (H1 i n raw Hn Hl) as [(e & E)|(vseed & VK & VP & E & Hv & VE & HV)]; [left; eauto|right].
      exists vseed, VK, VP. split; [exact E|]. split; [intros; apply Hv|]. split; [exact VE|]. intros y d f' _ Hy. exact (HV y d f' Hy).
    + destruct Hx as (_ & s & Hl & Hn). right. eexists; eexists; exists skip_text. split; [reflexivity|]. split; [intros; apply sde_ignored|]. split; [eauto|].
      intros y d f' Hf' Hd. eapply sound_weaken; [apply (IH f'); lia|]. intros u b (ms & Hb & Hq). exists ms. split; auto. apply H2; auto. exists s. auto.
Qed.
Lemma no_more_sound f names v first : sound (jr_map (run f) (no_more err names v) first) (fun u b => exists ms, obj_part first ms b /\ u = v /\ Forall (other_member names) ms).
Proof.
  unfold no_more. apply sound_next with (Q := fun u ms => u = v /\ Forall (other_member names) ms); eauto.
  - intros r w [= <-] [= <-]. auto.
  - intros m u ms Hm [-> H]. auto.
Qed.

Section Enum.
Context (tag content : bytes) (vs : list (bytes * vkind * ty)) (W : wf (TEnum vs)).
Local Notation names := [tag; content].
Local Notation takes := (fun i v d => adjacent_doc reads tag content vs i v d \/ content_first_doc fo any_f32 float_of tag content vs i v d).
(** After the tag; after the content. *)
Definition after_tag i k t (u : val) (ms : list (bytes * jv)) : Prop := exists v, u = UVar i v /\
  (Forall (other_member names) ms /\ no_content k t v \/
   exists o2 kc d o3, ms = o2 ++ (kc, d) :: o3 /\ Forall (other_member names) (o2 ++ o3) /\ literal kc content /\ content_doc reads k t v d).
Definition after_content c (u : val) (ms : list (bytes * jv)) : Prop := exists i v n k t o2 kt a o3, u = UVar i v /\ nth_error vs i = Some (n, k, t) /\
  ms = o2 ++ (kt, JStr a) :: o3 /\ Forall (other_member names) (o2 ++ o3) /\ literal kt tag /\ literal a n /\ variant_as fo (k, t) v c.
Definition whole (u : val) (ms : list (bytes * jv)) : Prop := exists o1 key d rest, ms = o1 ++ (key, d) :: rest /\ Forall (other_member names) o1 /\
  ((exists i n k t a, nth_error vs i = Some (n, k, t) /\ d = JStr a /\ literal key tag /\ literal a n /\ after_tag i k t u rest) \/
   (exists c, literal key content /\ any_as any_f32 float_of c d /\ after_content c u rest)).
Lemma whole_takes u ms : whole u ms -> exists i v, u = UVar i v /\ takes i v (JObj ms).
Proof.
  intros (o1 & key & d & rest & -> & O1 & [(i & n & k & t & a & E & -> & Lt & La & v & -> & [[O N]|(o2 & kc & d1 & o3 & -> & O & Lc & Hd)])|(c & Lc & Ac & i & v & n & k & t & o2 & kt & a & o3 & -> & E & -> & O & Lt & La & V)]); exists i, v; (split; [reflexivity|]).
  - left. eapply AD_alone; eauto. apply Forall_app. auto.
  - left. eapply AD_object; eauto. apply Forall_app. auto.
  - right. eapply CD_object; eauto. apply Forall_app. auto.
Qed.
Lemma map_sound f : sound (jr_map (run f) (adjacent_map fo err tag content vs) true) (fun u b => exists ms, obj_part true ms b /\ whole u ms).
Proof.
  assert (C : forall i n k t, nth_error vs i = Some (n, k, t) -> wf t /\ kind_ok k t).
  { intros i n k t E. apply nth_error_In in E. exact (MpTyped.all_list_In _ _ (proj2 W) _ E). }
  unfold adjacent_map. cbv zeta. apply sound_next.
  - intros r v [= <-] D. discriminate D.
  - eauto.
  - intros [|[|i]] n raw Hn Hl; [| |destruct i; discriminate]; injection Hn as <-; right.
    + unfold tag_value. eexists. eexists. exists (reads (tag_ty vs)). split; [reflexivity|]. split; [apply denote_sound; auto using tag_wf|]. split; [eauto|].
      intros y d f' Hy. apply tag_doc in Hy. destruct Hy as (i & n & k & t & a & -> & E & -> & La). rewrite E. destruct (C _ _ _ _ E) as [Wt Kt].
      eapply sound_weaken; [apply sound_next with (Q := after_tag i k t)|].
      * intros r v [= <-] D. destruct (content_absent k t) as [w|] eqn:Ea; [|discriminate]. injection D as <-. exists w. split; auto. left. split; [constructor|].
        destruct k; try discriminate; cbn in *; [injection Ea as <-; auto|]. destruct t; try discriminate. injection Ea as <-. eauto.
      * eauto.
      * intros [|[|j]] m rawc Hm Hlc; [left; eexists; reflexivity| |destruct j; discriminate]. injection Hm as <-. right. eexists. eexists. exists (content_doc reads k t). split; [reflexivity|].
        split; [apply content_sound; auto|]. split; [eauto|]. intros v d0 f0 Hd. eapply sound_weaken; [apply no_more_sound|].
        intros u b (ms & Hb & -> & Ho). exists ms. split; auto. exists v. split; auto. right. exists [], rawc, d0, ms. auto.
      * intros m u ms Hm (v & -> & [[O N]|(o2 & kc & d0 & o3 & -> & O & Lc & Hd)]); exists v; (split; [reflexivity|]); [left; auto|right]. exists (m :: o2), kc, d0, o3. split; auto. split; [constructor; auto|auto].
      * intros u b (ms & Hb & Hq). exists ms. split; auto. exists [], raw, (JStr a), ms. split; auto. split; [constructor|]. left. exists i, n, k, t, a. auto.
    + eexists. eexists. exists (any_as any_f32 float_of). split; [reflexivity|]. split; [destruct any_f32; apply sde_any|]. split; [eauto|].
      intros c d f' Hc. eapply sound_weaken; [apply sound_next with (Q := after_content c)|].
      * intros r v [= <-] D. discriminate D.
      * eauto.
      * intros [|[|j]] m rawt Hm Hlt; [|left; eexists; reflexivity|destruct j; discriminate]. injection Hm as <-. right. unfold tag_value. eexists. eexists. exists (reads (tag_ty vs)). split; [reflexivity|].
        split; [apply denote_sound; auto using tag_wf|]. split; [eauto|]. intros y d0 f0 Hy. apply tag_doc in Hy. destruct Hy as (i & n & k & t & a & -> & E & -> & La). rewrite E. destruct (C _ _ _ _ E) as [Wt Kt].
        destruct (untagged_variant fo (k, t) c) as [v|] eqn:Ev; [|apply sound_never, never_map_err].
        apply (variant_agree fo (k, t) c v Kt Wt (any_no_numbers _ _ _ _ Hc)) in Ev.
        eapply sound_weaken; [apply no_more_sound|]. intros u b (ms & Hb & -> & Ho). exists ms. split; auto. exists i, v, n, k, t, [], rawt, a, ms. auto 10.
      * intros m u ms Hm (i & v & n & k & t & o2 & kt & a & o3 & -> & E & -> & O & H). exists i, v, n, k, t, (m :: o2), kt, a, o3. split; auto. split; auto. split; auto. split; [constructor; auto|auto].
      * intros u b (ms & Hb & Hq). exists ms. split; auto. exists [], raw, d, ms. split; auto. split; [constructor|]. right. exists c. auto.
  - intros m u ms Hm (o1 & key & d & rest & -> & O & H). exists (m :: o1), key, d, rest. auto.
Qed.
Lemma seq_sound f : sound (jr_seq (run f) (adjacent_seq err vs) true) (fun u b => exists ds, arr_part true ds b /\
  exists i v n k t a d, u = UVar i v /\ ds = [JStr a; d] /\ nth_error vs i = Some (n, k, t) /\ literal a n /\ content_doc reads k t v d).
Proof.
  assert (C : forall i n k t, nth_error vs i = Some (n, k, t) -> wf t /\ kind_ok k t).
  { intros i n k t E. apply nth_error_In in E. exact (MpTyped.all_list_In _ _ (proj2 W) _ E). }
  unfold adjacent_seq. destruct f as [|f]; [apply sound_fuel|]. eapply (next_elem ar fl any_f32 dec f) with (Q := fun u ds => exists i v n k t a d, u = UVar i v /\ ds = [JStr a; d] /\ nth_error vs i = Some (n, k, t) /\ literal a n /\ content_doc reads k t v d).
  - apply sde_ident.
  - eauto.
  - apply soundc_sound, sound_never, never_seq_err.
  - intros x d (raw & -> & Hx). destruct x as [| | | | | | | | | | | | |[i|]]; cbn [ident_post] in Hx; try contradiction; [|apply sound_never, never_seq_err].
    destruct Hx as (n & Hn & Hl). rewrite nth_error_map in Hn. destruct (nth_error vs i) as [[[n' k] t]|] eqn:E; [|discriminate]. injection Hn as <-. cbn in Hl. destruct (C _ _ _ _ E) as [Wt Kt].
    destruct f as [|f]; [apply sound_fuel|].
    eapply (next_elem ar fl any_f32 dec f) with (Q := fun u ds => exists i v n k t a d, u = UVar i v /\ JStr raw :: ds = [JStr a; d] /\ nth_error vs i = Some (n, k, t) /\ literal a n /\ content_doc reads k t v d).
    + apply (content_sound k t Wt Kt).
    + eauto.
    + apply soundc_sound, sound_never, never_seq_err.
    + intros v d Hd. cbv beta iota. destruct f as [|f]; [apply sound_fuel|]. cbn [js_run jr_seq j_step_seq]. apply sound_lift. intros u [= <-]. exists []. split; [apply arr_part_nil; constructor|]. exists i, v, n', k, t, raw, d. auto 10.
Qed.
Lemma adjacent_sound : sde (adjacent fo err tag content vs) (fun u d => exists i v, u = UVar i v /\ takes i v d).
Proof.
  apply sde_request. intros f. cbn [js_method]. eapply sound_weaken; [apply sound_struct|].
  - cbn [visit_seq mk_visitor v_struct on_seq]. apply seq_sound.
  - cbn [visit_map mk_visitor v_struct on_map]. apply map_sound.
  - intros u bs H. eapply vtext_weaken; [|exact H]. intros d [(ds & -> & i & v & n & k & t & a & d' & -> & -> & E & La & Hd)|(ms & -> & Hw)]; [|apply whole_takes; auto].
    exists i, v. split; auto. left. eapply AD_array; eauto.
Qed.
End Enum.
End Js.

(** ** Every input *)
Local Notation readings dec := (match dec with NopeDecoder => bytes_as_string | HexDecoder => hex_bytes | Base64Decoder => bytes_as_base64 end).
Section Top.
Context (ar : arch) (fl : float_parser) (fo : float_ops) (any_f32 : bool) (dec : byte_decoder) (tag content : bytes) (vs : list (bytes * vkind * ty)).
Local Notation float_of := (if any_f32 then f32_from_str fl else f64_from_str fl).
Local Notation prog := (adjacent fo JDeserializeError tag content vs).
Local Notation takes i v d := (adjacent_doc (reads_as any_ws (f32_from_str fl) (f64_from_str fl) (readings dec)) tag content vs i v d \/
  content_first_doc fo any_f32 float_of tag content vs i v d).
Lemma readings_of : bytes_of dec = readings dec.
Proof. destruct dec; reflexivity. Qed.
Theorem js_adjacent_sound fuel input s u : f32_from_str fl [] = None -> f64_from_str fl [] = None -> wf (TEnum vs) -> all_bytes input ->
  (dec = Base64Decoder -> 3 * zlen input <= usize_max ar) -> js_from_mut_slice ar fl any_f32 dec fuel prog input = Done s (Ok u) ->
  exists i v d w1 text w2, u = UVar i v /\ input = w1 ++ text ++ w2 /\ any_ws w1 /\ any_ws w2 /\ loose_text d text /\ takes i v d.
Proof.
  intros F32 F64 W B R E. rewrite <- readings_of. destruct (sound_top ar fl any_f32 dec _ _ fuel input s u (adjacent_sound ar fl fo any_f32 dec F32 F64 tag content vs W) B R E) as (d & w1 & text & w2 & -> & W1 & W2 & T & i & v & -> & H).
  exists i, v, d, w1, text, w2. auto 10.
Qed.
Theorem js_adjacent_takes i v d text w1 w2 : names_ok [tag; content] -> wf (TEnum vs) -> takes i v d -> loose_text d text -> any_ws w1 -> any_ws w2 ->
  (dec = Base64Decoder -> 3 * zlen (w1 ++ text ++ w2) <= usize_max ar) ->
  exists N, forall fuel, (N <= fuel)%nat -> exists s, js_from_mut_slice ar fl any_f32 dec fuel prog (w1 ++ text ++ w2) = Done s (Ok (UVar i v)).
Proof.
  intros Hn W H T W1 W2 R. rewrite <- readings_of in H. apply accepts_top with (d := d); auto. destruct H as [H|H].
  - eapply (adjacent_accepts ar fl fo any_f32 dec any_ws); eauto.
  - destruct H as [n k t o1 kc d c o2 kt a o3 E O Lc Ac Lt La V]. pose proof (MpTyped.all_list_In _ _ (proj2 W) _ (nth_error_In _ _ E)) as [Wt K]. cbn [snd fst attr_of] in *.
    apply (variant_agree fo (k, t) c v K Wt (any_no_numbers _ _ _ _ Ac)) in V. eapply adjacent_swapped; eauto.
Qed.
Theorem js_adjacent_decides input fuel : f32_from_str fl [] = None -> f64_from_str fl [] = None -> names_ok [tag; content] -> wf (TEnum vs) -> all_bytes input ->
  (dec = Base64Decoder -> 3 * zlen input <= usize_max ar) -> (10 * type_size (TEnum vs) + 1 + 3 * length input <= fuel)%nat ->
  (exists s i v d w1 text w2, js_from_mut_slice ar fl any_f32 dec fuel prog input = Done s (Ok (UVar i v)) /\
     input = w1 ++ text ++ w2 /\ any_ws w1 /\ any_ws w2 /\ loose_text d text /\ takes i v d) \/
  (exists s e, js_from_mut_slice ar fl any_f32 dec fuel prog input = Done s (Err e) /\
     forall i v d w1 text w2, input = w1 ++ text ++ w2 -> any_ws w1 -> any_ws w2 -> loose_text d text -> ~ (takes i v d)).
Proof.
  intros F32 F64 Hn W B R Hf. destruct (js_adjacent_ends ar fl fo any_f32 dec tag content vs input fuel R Hf) as (s & [u|e] & E).
  - left. destruct (js_adjacent_sound fuel input s u F32 F64 W B R E) as (i & v & d & w1 & text & w2 & -> & H). exists s, i, v, d, w1, text, w2. auto.
  - right. exists s, e. split; auto. intros i v d w1 text w2 -> W1 W2 T H.
    destruct (js_adjacent_takes i v d text w1 w2 Hn W H T W1 W2 R) as [N HN]. destruct (HN N (le_n N)) as [s' E'].
    destruct (JsonFuel.budget_irrelevant _ _ _ _ _ _ _ _ _ _ _ _ E E') as [_ D]. discriminate D.
Qed.
Theorem js_adjacent_cut fuel s u d w1 text p q : f32_from_str fl [] = None -> f64_from_str fl [] = None -> wf (TEnum vs) ->
  (dec = Base64Decoder -> 3 * zlen (w1 ++ text) <= usize_max ar) ->
  loose_text d text -> any_ws w1 -> (forall tok, d <> JNum tok) -> w1 ++ text = p ++ q -> q <> [] ->
  js_from_mut_slice ar fl any_f32 dec fuel prog p <> Done s (Ok u).
Proof.
  intros F1 F2 Wt R T W Hn E Q H.
  destruct (js_adjacent_sound fuel p s u F1 F2 Wt (JsonUnamb.cut_bytes _ _ _ _ _ E W T) (JsonUnamb.cut_bound ar dec _ _ _ E R) H) as (i & v & d' & u1 & t' & u2 & _ & -> & U1 & _ & T' & _).
  apply (JsonUnamb.cut_text d w1 text _ q d' u1 t' u2 T W Hn E Q); auto.
Qed.
End Top.

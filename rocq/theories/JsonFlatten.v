(** JSON: a struct with a flattened field is read back as it was written (C72). *)
From Verif Require Import Prelude PreludeFacts Utf8 Utf8Spec Utf8Facts SerdeDe SerdeSer MpSpec Base64Spec
  JsonSpec JsonTypeSpec JsonFacts JsonSer JsonErrMap JsonSerFacts JsonDe JsonDeSafe JsonStr JsonView JsonTok JsonMeth JsonEats JsonTyped FloatOps Types TypesFacts MpTypeSpec MpTyped MpTypedSer JsonTypedTop JsonTypedSer
  JsonAnySpec JsonAny JsonReadBack Content ContentSpec ContentFacts JsonContent JsonTagged Flatten FlattenSpec.

Lemma find_name_some s ns : forall i j, find_name s ns i = Some j -> In s ns.
Proof.
  induction ns as [|n ns IH]; intros i j E; [discriminate|]. cbn in E. destruct (list_eqb Z.eqb s n) eqn:El; [|right; eauto].
  left. symmetry. revert El. clear. revert n. induction s as [|a s IH]; intros [|b n]; cbn; try discriminate; auto.
  intros H. apply andb_prop in H. destruct H as [H1 H2]. rewrite Z.eqb_eq in H1. subst. f_equal. auto.
Qed.
Lemma find_name_in s ns : In s ns -> forall i, exists j, find_name s ns i = Some j.
Proof.
  induction ns as [|n ns IH]; intros H i; [destruct H|]. cbn. destruct (list_eqb Z.eqb s n) eqn:El; [eauto|].
  destruct H as [->|H]; [|eauto]. exfalso. revert El. clear. assert (R : list_eqb Z.eqb s s = true) by (induction s; cbn; auto; rewrite Z.eqb_refl; auto). congruence.
Qed.

(** ** The calls *)
Section Doc.
Context (f : sval -> option jv).
Lemma entries_app a : forall b js, doc_entries f (a ++ b) = Some js -> Nat.even (length a) = true ->
  exists ja jb, js = ja ++ jb /\ doc_entries f a = Some ja /\ doc_entries f b = Some jb.
Proof.
  remember (length a) as n eqn:Hn. revert a Hn. induction n as [n IH] using lt_wf_ind. intros a Hn b js E Ev.
  destruct a as [|[ka x] a].
  - exists [], js. auto.
  - destruct a as [|[kb y] a]; [subst; discriminate|]. cbn [app doc_entries] in E |- *. destruct ka; [|discriminate]. destruct kb; [discriminate|].
    fold (doc_entries f a) in *. fold (doc_entries f (a ++ b)) in *. destruct (omap2 pair (key_doc x) (f y)) as [m|]; [|discriminate]. destruct (doc_entries f (a ++ b)) as [r|] eqn:Er; [|discriminate].
    cbn in E. injection E as <-. cbn in Hn. destruct (IH (length a)) with a b r as (ja & jb & -> & Ea & Eb); auto; [lia|subst; exact Ev|].
    exists (m :: ja), jb. rewrite Ea. cbn. auto.
Qed.
Lemma field_entries_even items : Nat.even (length (field_entries items)) = true.
Proof. induction items as [|[n [x|]] items IH]; cbn; auto. Qed.
Lemma field_entries_doc items : doc_entries f (field_entries items) = doc_fields f items.
Proof.
  induction items as [|[n [x|]] items IH]; cbn [field_entries flat_map app snd fst]; auto. fold (field_entries items).
  cbn [doc_entries doc_fields]. fold (doc_entries f (field_entries items)) (doc_fields f items). rewrite IH. cbn [key_doc]. destruct (f x); reflexivity.
Qed.
Lemma fields_app a b : doc_fields f (a ++ b) = omap2 (@app _) (doc_fields f a) (doc_fields f b).
Proof.
  induction a as [|[n [x|]] a IH]; cbn [app doc_fields].
  - destruct (doc_fields f b); reflexivity.
  - fold (doc_fields f a) (doc_fields f (a ++ b)). rewrite IH. destruct (f x); [|reflexivity]. cbn. destruct (doc_fields f a), (doc_fields f b); reflexivity.
  - fold (doc_fields f a) (doc_fields f (a ++ b)). rewrite IH. reflexivity.
Qed.
End Doc.

(** ** Reading *)
Section A.
Context (ar : arch) (fl : float_parser) (fo : float_ops) (any_f32 : bool) (dec : byte_decoder).
Local Notation eats := (eats ar dec).
Local Notation accepts := (accepts ar fl any_f32 dec).
Local Notation kaccepts := (kaccepts ar fl any_f32 dec).
Local Notation feedm := (feedm ar fl any_f32 dec).
Local Notation err := JDeserializeError.
Local Notation float_of := (if any_f32 then f32_from_str fl else f64_from_str fl).
Context (key_ws : bytes -> Prop) (Hkw : forall w, key_ws w -> any_ws w).
Local Notation reads := (reads_as key_ws (f32_from_str fl) (f64_from_str fl) (bytes_of dec)).
Context (fs : list (bytes * fattr * ty)) (g : ty).
Local Notation names := (map name_of fs).
Local Notation loop := (flat_loop fo err names (map (fun f => denote err (snd f)) fs) (map absent_val fs) g).

Lemma flat_key i n raw : NoDup names -> nth_error names i = Some n -> literal raw n -> kaccepts (request DIdentifier (v_flat_ident err names)) raw (UIdent (Some i)).
Proof. intros Hd Hn L. eapply key_str_eats; [exact I|exact L| |reflexivity]. cbn. rewrite (find_name_spec _ Hd i n 0 Hn). reflexivity. Qed.
Lemma flat_other s raw : ~ In s names -> literal raw s -> kaccepts (request DIdentifier (v_flat_ident err names)) raw (UStr s).
Proof. intros Hn L. eapply key_str_eats; [exact I|exact L| |reflexivity]. cbn. rewrite find_name_none; auto. Qed.

Lemma feed_fields got a got' : NoDup names -> all_list (fun f => wf (snd f)) fs ->
  obj_fields names (map (fun f => reads (snd f)) fs) got a got' -> Forall (fun m => forall s, literal (fst m) s -> In s names) a ->
  forall c b u, feedm (loop got' c) b u -> feedm (loop got c) (a ++ b) u.
Proof.
  intros Hd W H. induction H as [got|got i n p v raw d ms got' Hg Hp Hn L Hv _ IH|got raw s d ms got' L Hs Hk _ IH]; intros F c b u Hb.
  - exact Hb.
  - inversion F as [|? ? _ F']; subst. cbn [app]. rewrite (mfrob_eq (loop _ _)); cbn [mfrob flat_loop].
    rewrite nth_error_map in Hp. destruct (nth_error fs i) as [f|] eqn:Ef; [|discriminate]. cbn in Hp. injection Hp as <-.
    eapply FM_next; [eapply flat_key; eauto|cbn iota beta; rewrite nth_error_map, Ef, Hg; reflexivity| |apply IH; auto].
    apply (typed_accepts ar fl any_f32 dec key_ws Hkw); auto. apply (all_list_In _ _ W _ (nth_error_In _ _ Ef)).
  - inversion F as [|? ? H0 _]; subst. cbn in H0. destruct (Hs (H0 _ L)).
Qed.
Lemma feed_rest ws a : Forall2 (fun e m => (exists s, fst e = UStr s /\ literal (fst m) s /\ ~ In s names) /\ any_as any_f32 float_of (snd e) (snd m)) ws a ->
  forall got c b u, feedm (loop got (c ++ ws)) b u -> feedm (loop got c) (a ++ b) u.
Proof.
  induction 1 as [|[k w] [raw d] ws a [(s & Hk & L & N) V] _ IH]; intros got c b u Hb.
  - rewrite app_nil_r in Hb. exact Hb.
  - cbn [fst snd] in *. subst k. cbn [app]. rewrite (mfrob_eq (loop _ _)); cbn [mfrob flat_loop].
    eapply FM_next; [eapply flat_other; eauto|reflexivity| |].
    + apply any_accepts. destruct any_f32; exact V.
    + cbn iota beta. apply IH. rewrite <- app_assoc. exact Hb.
Qed.
Lemma obj_fields_app nm ps a : forall got b got', obj_fields nm ps got (a ++ b) got' -> exists mid, obj_fields nm ps got a mid /\ obj_fields nm ps mid b got'.
Proof.
  induction a as [|m a IH]; intros got b got' H; [exists got; split; [constructor|exact H]|]. cbn [app] in H. inversion H; subst.
  - edestruct IH as (mid & Q1 & Q2); [eassumption|]. exists mid. split; [econstructor; eauto|auto].
  - edestruct IH as (mid & Q1 & Q2); [eassumption|]. exists mid. split; [eapply OF_unknown; eauto|auto].
Qed.

Lemma flattened_accepts a ws r b l w : wf (TStruct fs) -> reads (TStruct fs) (USeq l) (JObj (a ++ b)) ->
  Forall (fun m => forall s, literal (fst m) s -> In s names) (a ++ b) ->
  Forall2 (fun e m => (exists s, fst e = UStr s /\ literal (fst m) s /\ ~ In s names) /\ any_as any_f32 float_of (snd e) (snd m)) ws r ->
  from_rest fo g ws = Some w -> accepts (flattened fo err fs g) (JObj (a ++ r ++ b)) (USeq [USeq l; w]).
Proof.
  intros [[Hd _] Hw] H F Hr Hg. assert (W : all_list (fun f => wf (snd f)) fs).
  { clear - Hw. induction fs as [|f l IH]; [exact I|]. destruct Hw as [[W1 _] W2]. split; auto. }
  cbn [reads_as] in H. destruct H as [(ds & E & _)|(ms & got & E & Ho & Hl)]; [discriminate|]. injection E as <-.
  destruct (obj_fields_app _ _ _ _ _ _ Ho) as (mid & Ha & Hb). apply Forall_app in F. destruct F as [Fa Fb].
  unfold flattened, request. apply (proj1 (accepts_req ar fl any_f32 dec _ _ _ _)). intros tx sp k Ht Hsp Hk. cbn [js_method].
  eapply map_eats; [|exact Ht|auto]. cbn [mk_visitor v_map on_map visit_map].
  eapply feed_fields; [auto|auto|exact Ha|auto|]. apply (feed_rest ws r Hr). rewrite <- (app_nil_r b). eapply feed_fields; [auto|auto|exact Hb|auto|].
  rewrite (mfrob_eq (loop _ _)); cbn [mfrob flat_loop]. apply FM_end. cbn iota beta. rewrite (finish_all _ _ _ Hl). cbn [app]. rewrite Hg. apply FM_ret.
Qed.
End A.

(** ** Writing and reading *)
Lemma zip_firstn {A B C} (h : A -> B -> C) n : forall l m, firstn n (zip h l m) = zip h (firstn n l) (firstn n m).
Proof. induction n as [|n IH]; intros [|a l] [|b m]; cbn; auto. f_equal. auto. Qed.
Lemma all_list_app {A} (P : A -> Prop) l m : all_list P (l ++ m) <-> all_list P l /\ all_list P m.
Proof. induction l as [|a l IH]; cbn; tauto. Qed.
Lemma field_entries_all (P : sval -> Prop) items : (forall n x, In (n, Some x) items -> P (SStr n) /\ P x) -> all_list (fun o => P (snd o)) (field_entries items).
Proof.
  induction items as [|[n [x|]] items IH]; intros H; cbn; auto.
  - destruct (H n x (or_introl eq_refl)). split; [auto|]. split; [auto|]. apply IH. intros. apply H. right. auto.
  - apply IH. intros. apply H. right. auto.
Qed.
Lemma alternates_app {A} (a b : list (bool * A)) : Nat.even (length a) = true -> alternates a -> alternates b -> alternates (a ++ b).
Proof.
  remember (length a) as n eqn:Hn. revert a Hn. induction n as [n IH] using lt_wf_ind. intros a Hn Ev Ha Hb.
  destruct a as [|[[|] x] [|[[|] y] a]]; cbn in *; subst; try discriminate; try tauto; auto. apply (IH (length a)); auto.
Qed.
Lemma field_entries_alt items : alternates (field_entries items).
Proof. induction items as [|[n [x|]] items IH]; cbn; auto. Qed.
Lemma field_entries_app a b : field_entries (a ++ b) = field_entries a ++ field_entries b.
Proof. unfold field_entries. apply flat_map_app. Qed.
Lemma pairs_even {A} (h1 h2 : A -> sval) l : Nat.even (length (flat_map (fun e => [(true, h1 e); (false, h2 e)]) l)) = true.
Proof. induction l; cbn; auto. Qed.
Lemma pair_keys {A} (f : sval -> option jv) (h1 h2 : A -> sval) l : forall js, doc_entries f (flat_map (fun e => [(true, h1 e); (false, h2 e)]) l) = Some js ->
  Forall (fun m => exists e, In e l /\ key_doc (h1 e) = Some (fst m)) js.
Proof.
  induction l as [|e l IH]; intros js E; cbn in E; [injection E as <-; constructor|].
  fold (doc_entries f (flat_map (fun e => [(true, h1 e); (false, h2 e)]) l)) in E. destruct (key_doc (h1 e)) as [k|] eqn:Ek; [|discriminate]. destruct (f (h2 e)); [|discriminate].
  cbn in E. destruct (doc_entries f (flat_map _ l)) as [js'|]; [|discriminate]. injection E as <-. constructor; [exists e; cbn; auto|].
  eapply Forall_impl; [|exact (IH _ eq_refl)]. cbn. intros m (e' & I & K). eauto.
Qed.
Lemma literal_one raw a b : literal raw a -> literal raw b -> a = b.
Proof. intros H1 H2. apply (p_str_literal _ _ []) in H1. apply (p_str_literal _ _ []) in H2. congruence. Qed.
Lemma filter_all {A} (h : A -> bool) l : Forall (fun x => h x = true) l -> filter h l = l.
Proof. induction 1 as [|x l E _ IH]; cbn; auto. rewrite E. f_equal. auto. Qed.

Section T.
Context (ar : arch) (fl : float_parser) (fo : float_ops) (any_f32 : bool) (dec : byte_decoder).
Local Notation err := JDeserializeError.
Local Notation float_of := (if any_f32 then f32_from_str fl else f64_from_str fl).
Local Notation keyed := (map (fun m : bytes * jv => (esc_text (fst m), tok_doc (snd m)))).

Lemma rest_as ws jg names : Forall2 (fun e m => fst e = UStr (fst m) /\ value_as any_f32 float_of (snd e) (snd m)) ws jg ->
  Forall (fun m => ~ In (fst m) names) jg ->
  Forall2 (fun e m => (exists s, fst e = UStr s /\ literal (fst m) s) /\ any_as any_f32 float_of (snd e) (snd m)) ws (keyed jg) ->
  Forall2 (fun e m => (exists s, fst e = UStr s /\ literal (fst m) s /\ ~ In s names) /\ any_as any_f32 float_of (snd e) (snd m)) ws (keyed jg).
Proof.
  induction 1 as [|e m ws jg [E _] _ IH]; intros F H; [constructor|]. inversion F; subst. cbn [map] in *. inversion H as [|? ? ? ? [(s & Es & L) V] H']; subst.
  constructor; auto. split; auto. exists s. split; auto. split; auto. rewrite E in Es. injection Es as <-. auto.
Qed.

Lemma entries_strings n items : strings_ok (SStruct n items) -> all_list (fun o => strings_ok (snd o)) (field_entries items).
Proof. cbn. induction items as [|[k [x|]] items IH]; cbn; tauto. Qed.
Lemma entries_maps n items : maps_ok (SStruct n items) -> all_list (fun o => maps_ok (snd o)) (field_entries items).
Proof. cbn. induction items as [|[k [x|]] items IH]; cbn; tauto. Qed.
Lemma struct_items fs l : exists n, trace (TStruct fs) (USeq l) = SStruct n (zip item fs l).
Proof. cbn [trace]. unfold struct_call. rewrite zip_map. eexists. reflexivity. Qed.

Theorem js_flatten_trip fp enc fs p g l w out w1 w2 : inverse32 fp fl -> inverse64 fp fl -> matching enc dec -> printer_ok fp ->
  wf (TStruct fs) -> hastype (TStruct fs) (USeq l) -> no_newtype_keys (TStruct fs) ->
  wf g -> strict g -> hastype g w -> text_keys (enc = ArrayByteEncoder) g ->
  all_floats (good32 fo any_f32 float_of fp) (good64 fo any_f32 float_of fp) (trace g w) ->
  keys_apart (map name_of fs) g w ->
  js_to_string fp enc (flat_trace fs p g (USeq [USeq l; w])) = Ok out -> any_ws w1 -> any_ws w2 ->
  (dec = Base64Decoder -> 3 * zlen (w1 ++ out ++ w2) <= usize_max ar) ->
  exists N, forall fuel, (N <= fuel)%nat ->
    exists s, js_from_mut_slice ar fl any_f32 dec fuel (flattened fo err fs g) (w1 ++ out ++ w2) = Done s (Ok (USeq [json_image (TStruct fs) (USeq l); w])).
Proof.
  intros L32 L64 Hm P W H Hk Wg Sg Hg Tg Fg Ka Eo W1 W2 R.
  destruct (typed_strings _ W _ H) as [S1 M1]. destruct (typed_strings _ Wg _ Hg) as [S2 M2].
  destruct (struct_items fs l) as [n Ei]. set (items := zip item fs l) in *.
  (* the flattened entries *)
  assert (Eg : exists es, flat_entries (trace g w) = Some es /\ Nat.even (length es) = true /\ alternates es /\
    all_list (fun o => strings_ok (snd o)) es /\ all_list (fun o => maps_ok (snd o)) es /\
    (forall jg, doc_entries (js_value fp enc) es = Some jg -> js_value fp enc (trace g w) = Some (JObj jg) /\ Forall (fun m => ~ In (fst m) (map name_of fs)) jg /\
       forall gs, g = TStruct gs -> Forall (fun m => In (fst m) (map name_of gs)) jg)).
  { destruct g; cbn [keys_apart] in Ka; try tauto; destruct w; cbn [hastype] in Hg; try tauto.
    - cbn [trace flat_entries] in *. eexists. split; [reflexivity|]. split; [apply pairs_even|]. destruct M2 as [M2a M2]. split; [exact M2a|]. split; [exact S2|]. split; [exact M2|].
      intros jg Ej. split; [|split; [|discriminate]].
      + unfold js_value in *. cbn [js_doc]. rewrite Ej. reflexivity.
      + apply pair_keys in Ej. eapply Forall_impl; [|exact Ej]. cbn. intros m (e & I & K). eapply Ka; eauto.
    - destruct (struct_items fs0 l0) as [n2 E2]. rewrite E2 in *. cbn [flat_entries]. eexists. split; [reflexivity|]. split; [apply field_entries_even|]. split; [apply field_entries_alt|].
      split; [eapply entries_strings; eauto|]. split; [eapply entries_maps; eauto|]. intros jg Ej. rewrite field_entries_doc in Ej. pose proof (field_keys _ _ _ _ Ej) as Kj. split; [|split].
      + unfold js_value in *. cbn [js_doc]. rewrite Ej. reflexivity.
      + eapply Forall_impl; [|exact Kj]. cbn. intros m I. apply in_map_iff in I. destruct I as (f & <- & I). apply Ka. exact I.
      + intros gs E. injection E as <-. exact Kj. }
  destruct Eg as (es & Ee & Ev & Al & Ss & Ms & Dg). set (x := flat_trace fs p g (USeq [USeq l; w])) in *.
  assert (Ex : x = SMap None (field_entries (firstn p items) ++ es ++ field_entries (skipn p items))).
  { unfold x, flat_trace. rewrite Ei, Ee. reflexivity. }
  rewrite Ei in S1, M1. pose proof (entries_strings _ _ S1) as S3. pose proof (entries_maps _ _ M1) as M3. rewrite <- (firstn_skipn p items) in S3, M3. rewrite field_entries_app in S3, M3.
  apply all_list_app in S3. apply all_list_app in M3.
  assert (S : strings_ok x). { rewrite Ex. cbn. rewrite !all_list_app. tauto. }
  assert (M : maps_ok x).
  { rewrite Ex. cbn. rewrite !all_list_app. split; [|tauto]. apply alternates_app; [apply field_entries_even|apply field_entries_alt|]. apply alternates_app; [auto|auto|apply field_entries_alt]. }
  pose proof (to_string_canon fp enc x (matching_pass _ _ Hm) P S M) as C.
  destruct (js_value fp enc x) as [j|] eqn:Ej; [|destruct C as (e & C & _); congruence].
  destruct C as (out' & C & T). assert (out' = out) by congruence. subst out'.
  apply accepts_top with (d := tok_doc j); auto. 2:{ apply raw_loose, canon_raw. exact T. }
  (* the document *)
  rewrite Ex in Ej. unfold js_value in Ej. cbn [js_doc] in Ej. fold (js_value fp enc) in Ej.
  match type of Ej with context [doc_entries ?f ?y] => destruct (doc_entries f y) as [js|] eqn:Es; [|discriminate] end. injection Ej as <-.
  apply entries_app in Es; [|apply field_entries_even]. destruct Es as (ja & js' & -> & Ea & Es). apply entries_app in Es; [|auto]. destruct Es as (jg & jb & -> & Eg & Eb).
  rewrite field_entries_doc in Ea, Eb. destruct (Dg jg Eg) as (Dj & Kn & Kg).
  assert (Ds : doc_fields (js_value fp enc) items = Some (ja ++ jb)). { rewrite <- (firstn_skipn p items), fields_app. unfold js_value in *. rewrite Ea, Eb. reflexivity. }
  pose proof (field_keys _ _ _ _ Ds) as Ks.
  assert (Dt : js_value fp enc (trace (TStruct fs) (USeq l)) = Some (JObj (ja ++ jb))). { rewrite Ei. unfold js_value in *. cbn [js_doc]. rewrite Ds. reflexivity. }
  destruct (typed_doc fp fl enc dec L32 L64 Hm (TStruct fs) W Hk (USeq l) _ H Dt) as [Sh _].
  (* the content *)
  destruct (doc_good any_f32 float_of fp enc (trace g w) S2) with (JObj jg) as [u V]; [|exact Dj|].
  { revert Fg. apply all_floats_mono; intros b [_ (z & Nz & _)] _; exists z; exact Nz. }
  pose proof (proj1 (jcontent_back fo any_f32 float_of fp enc g Wg Sg Tg w (JObj jg) u Hg Fg Dj V)) as B.
  inversion V as [| | | | |ws ? F2]; subst.
  pose proof (to_string_canon fp enc (trace g w) (matching_pass _ _ Hm) P S2 M2) as Cg. rewrite Dj in Cg. destruct Cg as (og & _ & Tg').
  pose proof (proj1 (value_any any_f32 float_of) _ _ Tg' _ V) as A. cbn [tok_doc] in A. inversion A as [| | | | |? ? F3]; subst.
  cbn [tok_doc] in Sh |- *. rewrite !map_app in *. cbn [json_image] in Sh |- *.
  apply (flattened_accepts ar fl fo any_f32 dec no_ws no_any fs g _ ws); auto.
  - rewrite <- map_app. clear - Ks W. destruct W as [(_ & Nu & _) _]. rewrite Forall_forall in *. intros m I s L. apply in_map_iff in I. destruct I as (m' & <- & I). cbn [fst] in L.
    specialize (Ks m' I). rewrite (literal_one _ _ _ L (esc_literal _ (proj1 (Nu _ Ks)))). exact Ks.
  - apply rest_as; auto.
  - clear - B Kg F2 Ka. destruct g; cbn [keys_apart] in Ka; try tauto; cbn [from_rest]; auto.
    rewrite filter_all; auto. specialize (Kg _ eq_refl). clear B Ka. induction F2 as [|e m ws js [E _] _ IH]; constructor; inversion Kg; subst; auto.
    unfold is_named. rewrite E. destruct (find_name_in (fst m) (map name_of fs0)) with 0%nat as [i ->]; auto.
Qed.
End T.

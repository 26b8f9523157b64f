(** JSON: what is written for a struct with a flattened field (C72). *)
From Verif Require Import Prelude PreludeFacts Utf8Spec SerdeSer Types TypesFacts MpSpec Base64Spec JsonSpec JsonTypeSpec JsonFacts JsonSer JsonErrMap JsonSerFacts JsonTypedSer Flatten FlattenSpec JsonFlatten.

Lemma zip_skipn {A B C} (h : A -> B -> C) n : forall l m, skipn n (zip h l m) = zip h (skipn n l) (skipn n m).
Proof. induction n; intros [|a l] [|b m]; cbn; auto. destruct (skipn n l); reflexivity. Qed.
Lemma entries_join f a : forall b ja jb, doc_entries f a = Some ja -> doc_entries f b = Some jb -> doc_entries f (a ++ b) = Some (ja ++ jb).
Proof.
  remember (length a) as n eqn:Hn. revert a Hn. induction n as [n IH] using lt_wf_ind. intros a Hn b ja jb Ea Eb.
  destruct a as [|[ka x] a].
  - cbn in Ea. injection Ea as <-. exact Eb.
  - destruct a as [|[kb y] a]; [destruct ka; discriminate|]. cbn [app doc_entries] in *. destruct ka; [|discriminate]. destruct kb; [discriminate|].
    fold (doc_entries f a) in *. fold (doc_entries f (a ++ b)). destruct (omap2 pair (key_doc x) (f y)) as [m|]; [|discriminate]. destruct (doc_entries f a) as [r|] eqn:Er; [|discriminate].
    cbn in Ea. injection Ea as <-. cbn in Hn. rewrite (IH (length a)) with (a := a) (ja := r) (jb := jb); auto. lia.
Qed.

Theorem js_flatten_written fp enc fs p g l w : enc <> PassThroughByteEncoder -> printer_ok fp ->
  wf (TStruct fs) -> good_keys (TStruct fs) -> hastype (TStruct fs) (USeq l) -> wf g -> good_keys g -> hastype g w -> has_members g ->
  exists before inside after out,
    js_value fp enc (trace (TStruct (firstn p fs)) (USeq (firstn p l))) = Some (JObj before) /\
    js_value fp enc (trace g w) = Some (JObj inside) /\
    js_value fp enc (trace (TStruct (skipn p fs)) (USeq (skipn p l))) = Some (JObj after) /\
    js_to_string fp enc (flat_trace fs p g (USeq [USeq l; w])) = Ok out /\ json_compact (JObj (before ++ inside ++ after)) out.
Proof.
  intros He P W G H Wg Gg Hg Ka.
  destruct (typed_strings _ W _ H) as [S1 M1]. destruct (typed_strings _ Wg _ Hg) as [S2 M2].
  destruct (typed_writes fp enc He _ W G _ H) as (j1 & D1), (typed_writes fp enc He _ Wg Gg _ Hg) as (j2 & D2).
  destruct (struct_items fs l) as [n Ei]. destruct (struct_items (firstn p fs) (firstn p l)) as [na Ea]. destruct (struct_items (skipn p fs) (skipn p l)) as [nb Eb].
  rewrite <- zip_firstn in Ea. rewrite <- zip_skipn in Eb. rewrite Ea, Eb, Ei in *. clear Ea Eb. match type of Ei with _ = SStruct _ ?x => set (items := x) in * end.
  assert (Eg : exists es jg, flat_entries (trace g w) = Some es /\ Nat.even (length es) = true /\ alternates es /\ j2 = JObj jg /\ doc_entries (js_value fp enc) es = Some jg /\
    all_list (fun o => strings_ok (snd o)) es /\ all_list (fun o => maps_ok (snd o)) es).
  { destruct g; cbn [has_members] in Ka; try tauto; destruct w; cbn [hastype] in Hg; try tauto.
    - cbn [trace flat_entries] in *. destruct M2 as [M2a M2]. unfold js_value in D2 |- *. cbn [js_doc] in D2.
      match type of D2 with context [doc_entries ?f ?y] => destruct (doc_entries f y) as [js|] eqn:Es; [|discriminate] end. injection D2 as <-.
      eexists. exists js. split; [reflexivity|]. split; [apply pairs_even|]. auto.
    - destruct (struct_items fs0 l0) as [n2 E2]. rewrite E2 in *. cbn [flat_entries]. unfold js_value in D2 |- *. cbn [js_doc] in D2.
      match type of D2 with context [doc_fields ?f ?y] => destruct (doc_fields f y) as [js|] eqn:Es; [|discriminate] end. injection D2 as <-.
      eexists. exists js. split; [reflexivity|]. split; [apply field_entries_even|]. split; [apply field_entries_alt|]. split; [reflexivity|].
      split; [rewrite field_entries_doc; exact Es|]. split; [eapply entries_strings; eauto|eapply entries_maps; eauto]. }
  destruct Eg as (es & jg & Ee & Ev & Al & -> & Dg & Ss & Ms). set (x := flat_trace fs p g (USeq [USeq l; w])) in *.
  assert (Ex : x = SMap None (field_entries (firstn p items) ++ es ++ field_entries (skipn p items))).
  { unfold x, flat_trace. rewrite Ei, Ee. reflexivity. }
  pose proof (entries_strings _ _ S1) as S3. pose proof (entries_maps _ _ M1) as M3. rewrite <- (firstn_skipn p items) in S3, M3. rewrite field_entries_app in S3, M3.
  apply all_list_app in S3. apply all_list_app in M3.
  assert (S : strings_ok x). { rewrite Ex. cbn. rewrite !all_list_app. tauto. }
  assert (M : maps_ok x).
  { rewrite Ex. cbn. rewrite !all_list_app. split; [|tauto]. apply alternates_app; [apply field_entries_even|apply field_entries_alt|]. apply alternates_app; [auto|auto|apply field_entries_alt]. }
  change (match doc_fields (js_value fp enc) items with Some y => Some (JObj y) | None => None end = Some j1) in D1.
  destruct (doc_fields (js_value fp enc) items) as [js|] eqn:Es; [|discriminate]. clear D1 j1.
  rewrite <- (firstn_skipn p items), fields_app in Es.
  destruct (doc_fields (js_value fp enc) (firstn p items)) as [ja|] eqn:Ea; [|discriminate].
  destruct (doc_fields (js_value fp enc) (skipn p items)) as [jb|] eqn:Eb; [|discriminate]. clear Es.
  assert (Ej : js_value fp enc x = Some (JObj (ja ++ jg ++ jb))).
  { rewrite Ex. change (option_map JObj (doc_entries (js_value fp enc) (field_entries (firstn p items) ++ es ++ field_entries (skipn p items))) = Some (JObj (ja ++ jg ++ jb))).
    rewrite (entries_join _ (field_entries (firstn p items)) _ ja (jg ++ jb)); [reflexivity|rewrite field_entries_doc; exact Ea|].
    apply entries_join; [exact Dg|rewrite field_entries_doc; exact Eb]. }
  pose proof (to_string_documented fp enc x He P S M) as C. rewrite Ej in C. destruct C as (out & C & T).
  exists ja, jg, jb, out. split; [|split; [exact D2|split; [|auto]]].
  - change (option_map JObj (doc_fields (js_value fp enc) (firstn p items)) = Some (JObj ja)). rewrite Ea. reflexivity.
  - change (option_map JObj (doc_fields (js_value fp enc) (skipn p items)) = Some (JObj jb)). rewrite Eb. reflexivity.
Qed.

(** What types with buffered enums inside are read from (C76). *)
From Verif Require Import Prelude PreludeFacts Utf8Spec Utf8 Utf8Facts SerdeSer SerdeDe FloatOps Arch MpSpec MpErrMap MpDe MpDeView MpDeReads MpDeTop
  Base64Spec JsonSpec JsonTypeSpec JsonFacts JsonSer JsonErrMap
  JsonSerFacts JsonDe JsonDeSafe JsonStr JsonView JsonTok JsonMeth JsonEats JsonTyped Types TypesFacts MpTypeSpec MpTyped MpTypedSer MpTypedTop JsonTypedTop JsonTypedSer JsonAnySpec JsonReadBack
  Content ContentSpec ContentFacts BufferSpec BufferFacts BufferTop Nested NestedSpec NestedReadSpec MpNested JsonNested.
Ltac Zify.zify_post_hook ::= Z.div_mod_to_equations.

Lemma xfinish fs : forall got l, xall_fields fs got l -> finish got (map (fun f : bytes * xty => xabsent (snd f)) fs) = Some l.
Proof.
  induction fs as [|f fs IH]; intros [|g got] [|v l] H; cbn in H; try tauto. destruct H as [H1 H2]. cbn [map finish]. rewrite (IH got l H2).
  destruct g as [u|]; [subst u; reflexivity|]. destruct H1 as [[(y & ->)|(t & ->)] ->]; reflexivity.
Qed.

Section Mp.
Context (ar : arch) (fo : float_ops).
Local Notation prog := (xdenote fo DeserializeError).
Local Notation rde := (rde ar fo).
Local Notation back := (MpNested.back ar fo).

Theorem nested_reads x : xwf x -> forall v bs, xadm fo x v bs -> back x v bs.
Proof.
  unfold xadm. induction x as [t|vs|tag vs|x IH|x IH|xs IH|k x IH|fs IH|x IH|vs IH] using xty_ind'; intros W v bs H; cbn [xform xwf] in *.
  - split; [apply denote_reads; auto|eapply adm_fmt; eauto].
  - destruct H as (i & w & m & c & -> & F & D & N & V). split; [|eauto]. cbn [xdenote]. unfold untagged. eapply buffered_rde; eauto.
    destruct (pick_agree fo vs c W N 0) as [P _]. apply P. exact V.
  - destruct H as (i & w & m & c & -> & F & D & N & V). destruct W as [Nd W]. split; [|eauto]. cbn [xdenote]. unfold tagged. eapply buffered_rde; eauto.
    apply tagged_agree; auto.
  - destruct v; try tauto.
    + subst bs. split; [apply rde_request, rme_option_none|]. exists VNil. constructor.
    + destruct H as [H Hn]. destruct (IH W v bs H) as [Hr (m & Hm)]. split; [|eauto]. destruct (fmt_head _ _ Hm) as (c & l & -> & Hcl). cbn [xdenote]. apply rde_request. apply rme_option_some.
      { intros E1. apply Hn. rewrite (Hcl E1), E1. reflexivity. }
      change (visit_some _) with (then_ (prog x) (map_ok USome)).
      apply (rde_then ar fo _ (map_ok USome) _ (Ok v)); auto using xreq.
  - destruct v; try tauto. destruct H as (h & b & -> & Hh & Hb). apply (seq_enc_mono _ (back x) l) in Hb; [|intros a c _; apply IH; auto]. split.
    + cbn [xdenote]. apply rde_request. eapply rme_seq; [cbn; auto|exact Hh|]. cbn. apply rsq_hint.
      apply (rsq_loop ar fo _ (back x) l) with (acc := []); auto. intros w c _ [Hr _]. exact Hr.
    + edestruct (fun Q => seq_enc_fmt _ Q b Hb) as (ms & Lm & Hms); [intros q c Hq Hqc; apply in_map_iff in Hq; destruct Hq as (w & <- & _); exact (proj2 Hqc)|].
      exists (VArr ms). constructor; auto. replace (zlen ms) with (zlen l); auto. unfold zlen. rewrite Lm, !map_length. reflexivity.
  - destruct v; try tauto. destruct H as (h & b & -> & Hh & Hl & Hb).
    assert (Hb' : seq_enc (zip (fun p v => p v) (map back xs) l) b).
    { clear Hh. revert l b W Hl Hb. induction IH as [|x xs Hx _ I0]; intros [|v l] b W Hl Hb; try discriminate; auto. cbn in Hb |- *. destruct Hb as (y & z & -> & Hy & Hz), W as [W1 W2].
      exists y, z. split; [reflexivity|]. split; [apply Hx; auto|apply I0; auto]. }
    clear Hb. rename Hb' into Hb. split.
    + cbn [xdenote]. apply rde_request. eapply rme_seq; [cbn; auto|exact Hh|]. cbn.
      replace (zlen xs) with (zlen (map (fun x => (prog x, @None val)) xs)) by (unfold zlen; rewrite map_length; auto).
      eapply rsq_all; [|rewrite map_length; exact Hl|exact Hb]. apply Forall2_map. intros y _ w c [Hr _]. exact Hr.
    + edestruct (fun Q => seq_enc_fmt _ Q b Hb) as (ms & Lm & Hms); [intros q c Hq Hqc; apply zip_app_In in Hq; destruct Hq as (p & w & Hp & _ & ->); apply in_map_iff in Hp; destruct Hp as (y & <- & _); exact (proj2 Hqc)|].
      exists (VArr ms). constructor; auto. replace (zlen ms) with (zlen xs); auto. unfold zlen. rewrite Lm, zip_length; rewrite map_length; lia.
  - destruct v; try tauto. destruct H as (h & b & -> & Hh & Hb), W as [Wk Wx].
    apply (seq_enc_mono _ (fun e b => exists y z, b = y ++ z /\ back (XTy k) (fst e) y /\ back x (snd e) z) l) in Hb.
    2:{ intros e c _ (y & z & -> & Hy & Hz). exists y, z. split; [reflexivity|]. split; [split; [apply denote_reads; auto|eapply adm_fmt; eauto]|apply IH; auto]. }
    split.
    + cbn [xdenote]. apply rde_request. eapply rme_map; [exact Hh|]. cbn. apply rmp_hint.
      apply (rmp_loop ar fo _ _ (back (XTy k)) (back x) l) with (acc := []); try (intros e c _ [Hr _]; exact Hr). exact Hb.
    + assert (Q : exists ms, zlen ms = zlen l /\ mp_fmt_pairs ms b).
      { clear -Hb. revert b Hb. induction l as [|e l I]; intros b Hb; cbn in Hb; [subst; exists []; split; [reflexivity|constructor]|].
        destruct Hb as (p & q & -> & (y & z & -> & [_ (m1 & M1)] & [_ (m2 & M2)]) & Hb). destruct (I q Hb) as (ms & Lm & Hms).
        exists ((m1, m2) :: ms). rewrite !zlen_cons. split; [lia|]. rewrite <- app_assoc. constructor; auto. }
      destruct Q as (ms & Lm & Hms). exists (VMap ms). constructor; auto. rewrite Lm. exact Hh.
  - destruct v; try tauto. destruct W as [Hn W].
    assert (Hf : forall f, In f fs -> forall v b, xadm fo (snd f) v b -> back (snd f) v b).
    { intros f Hf. rewrite Forall_forall in IH. apply (IH f Hf). apply (all_list_In' _ _ W _ Hf). }
    destruct H as [(h & b & -> & Hh & Hl & Hb)|(n & h & b & got & -> & Hh & He & Hg)].
    + split.
      * cbn [xdenote]. apply rde_request. eapply rme_struct_arr; [exact Hh|]. cbn [mk_visitor v_struct visit_seq on_seq].
        replace (zlen fs) with (zlen (map (fun f : bytes * xty => (prog (snd f), @None val)) fs)) by (unfold zlen; rewrite map_length; auto).
        eapply rsq_all; [|rewrite map_length; exact Hl|exact Hb]. apply Forall2_map. intros f Hi v c Ha. apply (Hf f Hi v c Ha).
      * edestruct (fun Q => seq_enc_fmt _ Q b Hb) as (ms & Lm & Hms); [intros q c Hq Hqc; apply zip_app_In in Hq; destruct Hq as (p & w & Hp & _ & ->); apply in_map_iff in Hp; destruct Hp as (y & <- & Hy); exact (proj2 (Hf y Hy w c Hqc))|].
        exists (VArr ms). constructor; auto. replace (zlen ms) with (zlen fs); auto. unfold zlen. rewrite Lm, zip_length; rewrite map_length; lia.
    + split.
      * cbn [xdenote]. apply rde_request. eapply rme_struct_map; [exact Hh|]. cbn [mk_visitor v_struct visit_map on_map].
        eapply rmp_struct; [exact Hn| |exact He|apply xfinish; exact Hg]. apply Forall2_map. intros f Hi v c Ha. apply (Hf f Hi v c Ha).
      * edestruct (fun Q => entries_fmt (map fst fs) _ Hn Q _ _ _ _ He) as (ms & Lm & Hms); [apply Forall_map, Forall_forall; intros f Hi v c Ha; exact (proj2 (Hf f Hi v c Ha))|].
        exists (VMap ms). constructor; auto. rewrite Lm. exact Hh.
  - apply xnewtype_back. apply IH; auto.
  - destruct v as [| | | | | | | | | | | |i v|]; try tauto. destruct W as [Hn W]. apply xenum_back; [exact Hn|]. rewrite nth_error_map in H.
    destruct (nth_error vs i) as [[nm o]|] eqn:Ei; [|exact H]. pose proof (nth_error_In _ _ Ei) as Hi. rewrite Forall_forall in IH. specialize (IH _ Hi).
    pose proof (all_list_In' _ _ W _ Hi) as Wi. destruct o as [x|]; cbn in *; [|exact H]. destruct H as (k & b & -> & Hk & Hb). exists k, b. split; auto.
Qed.
Theorem mp_nested_reads x v bs tail : arch32up ar -> xwf x -> xadm fo x v bs -> slice_of ar (bs ++ tail) ->
  exists N, forall fuel, (N <= fuel)%nat -> exists s, mp_from_slice ar fo fuel (prog x) (bs ++ tail) = Done s (Ok (v, zlen bs)).
Proof. intros A32 W H Hs. destruct (nested_reads x W v bs H) as [[N HN] _]. exists N. intros fuel Hf. eapply MpDeTop.from_slice_reads; eauto. Qed.
End Mp.

Section Js.
Context (ar : arch) (fl : float_parser) (fo : float_ops) (any_f32 : bool) (dec : byte_decoder) (key_ws : bytes -> Prop) (Hkw : forall w, key_ws w -> any_ws w).
Local Notation prog := (xdenote fo JDeserializeError).
Local Notation accepts := (accepts ar fl any_f32 dec).
Local Notation feeds := (feeds ar fl any_f32 dec).
Local Notation feedm := (feedm ar fl any_f32 dec).
Local Notation float_of := (if any_f32 then f32_from_str fl else f64_from_str fl).
Local Notation reads := (xreads fo any_f32 (f32_from_str fl) (f64_from_str fl) key_ws (bytes_of dec)).

Lemma buffered_takes f c d v : any_as any_f32 float_of c d -> f c = Some v -> accepts (buffered JDeserializeError f) d v.
Proof.
  intros A F. unfold buffered. eapply accepts_then; [rewrite JsonAny.any_eq; eauto| |cbn beta iota; rewrite F; reflexivity].
  apply JsonAny.any_accepts. destruct any_f32; exact A.
Qed.
Lemma xstruct_obj fs : Forall (fun f => forall v d, reads (snd f) v d -> accepts (prog (snd f)) d v) fs -> NoDup (map fst fs) -> forall got ms got',
  obj_fields (map fst fs) (map (fun f => reads (snd f)) fs) got ms got' -> forall l, xall_fields fs got' l ->
  feedm (struct_loop JDeserializeError (map fst fs) (map (fun f => prog (snd f)) fs) (map (fun f => xabsent (snd f)) fs) got) ms (USeq l).
Proof.
  intros Hf Hnd got ms got' H. induction H as [got|got i n p v raw d ms got' Hg Hp Hn L Hv _ IH|got raw s d ms got' L Hs Hd _ IH]; intros l Hl;
    rewrite (mfrob_eq (struct_loop _ _ _ _ _)); cbn [mfrob struct_loop].
  - apply FM_end. rewrite (xfinish _ _ _ Hl). apply FM_ret.
  - rewrite nth_error_map in Hp. destruct (nth_error fs i) as [f|] eqn:Ef; [|discriminate]. cbn in Hp. injection Hp as <-.
    eapply FM_next; [eapply ident_key; eauto|cbn iota beta; rewrite nth_error_map, Ef, Hg; reflexivity| |apply IH; auto].
    rewrite Forall_forall in Hf. apply Hf; [eapply nth_error_In; eauto|exact Hv].
  - eapply FM_next; [eapply unknown_key; eauto|reflexivity|apply ignored_accepts; auto|apply IH; auto].
Qed.
Lemma xtuple_arr (ys : list xty) : Forall (fun x => forall v d, reads x v d -> accepts (prog x) d v) ys -> forall l ds acc,
  all3 (fun p v d => p v d) (map reads ys) l ds ->
  feeds (tuple_prog JDeserializeError (map (fun x => (prog x, None)) ys) acc) ds (USeq (rev acc ++ l)).
Proof.
  induction 1 as [|x ys Hx _ IH]; intros [|v l] [|d ds] acc H; cbn in H; try tauto; cbn [map tuple_prog].
  - rewrite app_nil_r. apply FS_ret.
  - destruct H as [H1 H2]. eapply FS_next; [apply Hx; exact H1|]. cbn iota beta. specialize (IH l ds (v :: acc) H2). cbn [rev] in IH. rewrite <- app_assoc in IH. exact IH.
Qed.

Theorem nested_accepts x : xwf x -> forall v d, reads x v d -> accepts (prog x) d v.
Proof.
  unfold xreads. induction x as [t|vs|tag vs|x IH|x IH|xs IH|k x IH|fs IH|x IH|vs IH] using xty_ind'; intros W v d H; cbn [jform xwf] in *.
  - apply (JsonTyped.typed_accepts ar fl any_f32 dec key_ws); auto.
  - destruct H as (i & w & c & -> & A & V). cbn [xdenote]. unfold untagged. eapply buffered_takes; eauto.
    destruct (pick_agree fo vs c W (any_no_numbers _ _ _ _ A) 0) as [P _]. apply P. exact V.
  - destruct H as (i & w & c & -> & A & V), W as [Nd W]. cbn [xdenote]. unfold tagged. eapply buffered_takes; eauto.
    apply tagged_agree; auto. apply (any_no_numbers _ _ _ _ A).
  - destruct v; try tauto; cbn [xdenote]; apply (proj1 (accepts_req ar fl any_f32 dec _ _ _ _)); intros tx w r Hb Hw Hr; cbn [js_method]; unfold j_deserialize_option.
    + subst d. inversion Hb; subst. cbn [app]. apply eats_ws; auto. cbn [Z.eqb Pos.eqb]. apply eats_eat1.
      eapply (eats_bind ar dec (fun _ => parse_token_content tok_ull)); [|apply eats_lift; reflexivity].
      eapply eats_view; [apply view_tok|]. intros _. apply tok_ull_app.
    + destruct H as [H Nj]. destruct (text_head _ _ Hb) as (c & b' & -> & Hs & _ & _ & _ & Hcn). cbn [app]. apply eats_ws; auto.
      replace (c =? 110) with false by (destruct (Z.eqb_spec c 110); [exfalso; auto|auto]).
      change (eats ar dec (fun f => jr_de (js_run ar fl any_f32 dec f) false (then_ (prog x) (map_ok USome))) (USome v) ([] ++ (c :: b') ++ r) r).
      apply (accepts_then ar fl any_f32 dec (prog x) (map_ok USome) _ _ _ (jxreq fo x) (IH W v d H) eq_refl); auto. constructor.
  - destruct v; try tauto. destruct H as (ds & -> & H). cbn [xdenote]. apply (proj1 (accepts_req ar fl any_f32 dec _ _ _ _)). intros tx w r Hb Hw Hr; cbn [js_method].
    apply (seq_eats ar fl any_f32 dec _ ds); auto. cbn. apply FS_hint.
    assert (F : forall acc, feeds (seq_loop (prog x) acc) ds (USeq (rev acc ++ l))); [|apply (F [])].
    clear Hb Hr. induction H as [|v d l ds Hv _ I0]; intros acc; rewrite (sfrob_eq (seq_loop _ _)); cbn [sfrob seq_loop].
    + apply FS_end. rewrite app_nil_r. apply FS_ret.
    + eapply FS_next; [apply IH; [exact W|exact Hv]|]. specialize (I0 (v :: acc)). cbn [rev] in I0. rewrite <- app_assoc in I0. exact I0.
  - destruct v; try tauto. destruct H as (ds & -> & H). cbn [xdenote]. apply (proj1 (accepts_req ar fl any_f32 dec _ _ _ _)). intros tx w r Hb Hw Hr; cbn [js_method].
    apply (seq_eats ar fl any_f32 dec _ ds); auto. cbn. apply (xtuple_arr xs) with (acc := []); auto.
    rewrite Forall_forall in *. intros y Hy. apply IH; auto. apply (all_list_In' _ _ W _ Hy).
  - destruct v; try tauto. destruct H as (ms & -> & H), W as [Wk Wx]. cbn [xdenote]. apply (proj1 (accepts_req ar fl any_f32 dec _ _ _ _)). intros tx w r Hb Hw Hr; cbn [js_method].
    apply (map_eats ar fl any_f32 dec _ ms); auto. cbn. apply FM_hint.
    assert (F : forall acc, feedm (map_loop (denote JDeserializeError k) (prog x) acc) ms (UMap (rev acc ++ l))); [|apply (F [])].
    clear Hb Hr. induction H as [|[a b] [raw d] l ms [Ha Hb] _ I0]; intros acc; rewrite (mfrob_eq (map_loop _ _ _)); cbn [mfrob map_loop].
    + apply FM_end. rewrite app_nil_r. apply FM_ret.
    + eapply FM_next; [apply (key_reads ar fl any_f32 dec key_ws); auto; exact Ha|reflexivity|apply IH; [exact Wx|exact Hb]|].
      cbn iota beta. specialize (I0 ((a, b) :: acc)). cbn [rev] in I0. rewrite <- app_assoc in I0. exact I0.
  - destruct v; try tauto. destruct W as [[Hn _] W]. cbn [xdenote]. apply (proj1 (accepts_req ar fl any_f32 dec _ _ _ _)). intros tx w r Hb Hw Hr; cbn [js_method]. unfold j_deserialize_struct.
    assert (Hf : Forall (fun f => forall v d, reads (snd f) v d -> accepts (prog (snd f)) d v) fs).
    { rewrite Forall_forall in *. intros f Hf. apply (IH f Hf). apply (all_list_In' _ _ W _ Hf). }
    destruct H as [(ds & -> & H)|(ms & got & -> & Ho & Hl)].
    + destruct (arr_text _ _ Hb) as (b' & Eb & _). rewrite Eb. cbn [app]. apply eats_ws; auto. cbn [Z.eqb Pos.eqb].
      change (91 :: (b' ++ [93]) ++ r) with ([] ++ (91 :: b' ++ [93]) ++ r). rewrite <- Eb.
      apply (seq_eats ar fl any_f32 dec _ ds); [|auto|constructor]. cbn.
      assert (Q : feeds (tuple_prog JDeserializeError (map (fun x => (prog x, None)) (map snd fs)) []) ds (USeq (rev [] ++ l))); [|rewrite map_map in Q; exact Q].
      apply xtuple_arr; [apply Forall_map; exact Hf|]. rewrite map_map. exact H.
    + destruct (obj_text _ _ Hb) as (b' & Eb & _). rewrite Eb. cbn [app]. apply eats_ws; auto. cbn [Z.eqb Pos.eqb].
      change (123 :: (b' ++ [125]) ++ r) with ([] ++ (123 :: b' ++ [125]) ++ r). rewrite <- Eb.
      apply (map_eats ar fl any_f32 dec _ ms); [|auto|constructor]. cbn. eapply xstruct_obj; eauto.
  - apply xnewtype_accepts. apply IH; auto.
  - destruct v as [| | | | | | | | | | | |i v|]; try tauto. destruct W as [[Hn _] W]. apply xenum_accepts; [exact Hn|]. rewrite nth_error_map in H.
    destruct (nth_error vs i) as [[nm o]|] eqn:Ei; [|exact H]. pose proof (nth_error_In _ _ Ei) as Hi. rewrite Forall_forall in IH. specialize (IH _ Hi).
    pose proof (all_list_In' _ _ W _ Hi) as Wi. destruct o as [x|]; cbn in *; [|exact H]. destruct H as (raw & d' & -> & L & Hd). exists raw, d'. split; auto.
Qed.
Theorem js_nested_reads x v d text w1 w2 : xwf x -> reads x v d -> loose_text d text -> any_ws w1 -> any_ws w2 ->
  (dec = Base64Decoder -> 3 * zlen (w1 ++ text ++ w2) <= usize_max ar) ->
  exists N, forall fuel, (N <= fuel)%nat -> exists s, js_from_mut_slice ar fl any_f32 dec fuel (prog x) (w1 ++ text ++ w2) = Done s (Ok v).
Proof. intros W H. apply accepts_top. apply nested_accepts; auto. Qed.
End Js.
(** The same with the readings of byte strings spelled out. *)
Theorem js_nested_interop ar fl fo any_f32 dec x v d text w1 w2 : xwf x ->
  xreads fo any_f32 (f32_from_str fl) (f64_from_str fl) no_ws
    (match dec with NopeDecoder => bytes_as_string | HexDecoder => hex_bytes | Base64Decoder => bytes_as_base64 end) x v d ->
  raw_text d text -> any_ws w1 -> any_ws w2 ->
  (dec = Base64Decoder -> 3 * zlen (w1 ++ text ++ w2) <= usize_max ar) ->
  exists N, forall fuel, (N <= fuel)%nat ->
    exists s, js_from_mut_slice ar fl any_f32 dec fuel (xdenote fo JDeserializeError x) (w1 ++ text ++ w2) = Done s (Ok v).
Proof.
  intros W H T. apply (js_nested_reads ar fl fo any_f32 dec no_ws) with (d := d); auto; [intros w ->; constructor| |apply raw_loose; auto].
  replace (bytes_of dec) with (match dec with NopeDecoder => bytes_as_string | HexDecoder => hex_bytes | Base64Decoder => bytes_as_base64 end); [exact H|].
  destruct dec; reflexivity.
Qed.

(** What types with buffered enums inside return comes from a document of the type (C76). *)
From Verif Require Import Prelude PreludeFacts Utf8Spec Utf8 Utf8Facts SerdeSer SerdeDe FloatOps MpSpec Base64Spec JsonSpec JsonTypeSpec JsonAnySpec JsonFacts JsonDe JsonDeSafe JsonStr JsonView JsonTok JsonMeth JsonEats
  JsonTyped JsonSound JsonSoundTop JsonTypedTop JsonAny Types TypesFacts MpTypeSpec Content ContentSpec ContentFacts BufferSpec BufferFacts BufferTop BufferFault Nested NestedReadSpec JsonNested NestedRead.
From Verif Require NestedSound.
Ltac Zify.zify_post_hook ::= Z.div_mod_to_equations.

Section Js.
Context (ar : arch) (fl : float_parser) (fo : float_ops) (any_f32 : bool) (dec : byte_decoder).
Local Notation prog := (xdenote fo JDeserializeError).
Local Notation sde := (sde ar fl any_f32 dec).
Local Notation sound := (sound ar dec).
Local Notation run := (js_run ar fl any_f32 dec).
Local Notation float_of := (if any_f32 then f32_from_str fl else f64_from_str fl).

Lemma sde_after (p : deser val js_de_error) g P (Q : val -> jv -> Prop) : (exists m v post, p = DReq m v post) -> sde p P -> (forall e b, g (Err e) <> Ok b) ->
  (forall a b d, P a d -> g (Ok a) = Ok b -> Q b d) -> sde (then_ p g) Q.
Proof.
  intros (m & v & post & ->) H He Hk [|f]; [apply sound_fuel|]. intros s s' b Hr Hb E. cbn [js_run jr_de j_step_de then_] in E. unfold dpost, dtry, dlift in E.
  specialize (H (S f) s s'). cbn [js_run jr_de j_step_de] in H. unfold dpost, dtry, dlift in H. destruct (js_method ar fl any_f32 dec (run f) m v s) as [s1 r| |]; try discriminate.
  injection E as -> E. destruct (post r) as [a|e] eqn:Ep; [|exfalso; eapply He; eauto].
  destruct (H a Hr Hb) as (bs & A & I & Pa); [reflexivity|]. exists bs. split; auto. split; auto. eapply vtext_weaken; [|exact Pa]. eauto.
Qed.
Lemma sde_buffered f (Q : val -> jv -> Prop) : (forall c v d, any_as any_f32 float_of c d -> f c = Some v -> Q v d) -> sde (buffered JDeserializeError f) Q.
Proof.
  intros H. unfold buffered. eapply sde_after with (P := any_as any_f32 float_of); [rewrite any_eq; eauto|destruct any_f32; apply sde_any|discriminate|].
  intros c v d A E. destruct (f c) as [w|] eqn:Ef; [|discriminate]. injection E as <-. eapply H; eauto.
Qed.
Lemma sde_untagged vs : Forall (fun f => kind_ok (fst f) (snd f) /\ wf (snd f)) vs ->
  sde (untagged fo JDeserializeError vs) (fun v d => exists i w c, v = UVar i w /\ any_as any_f32 float_of c d /\ first_variant fo vs i w c).
Proof.
  intros W. apply sde_buffered. intros c v d A E. pose proof (pick_decides fo vs c W (any_no_numbers _ _ _ _ A) 0) as P. rewrite E in P. destruct P as (i & w & -> & P). exists i, w, c. auto.
Qed.
Lemma sde_tagged tag vs : sde (tagged fo JDeserializeError tag vs) (fun v d => exists i w c, v = UVar i w /\ any_as any_f32 float_of c d /\ (i < length vs)%nat).
Proof. apply sde_buffered. intros c v d A E. destruct (NestedSound.tag_variant fo tag vs c v E) as (i & w & -> & L). exists i, w, c. auto. Qed.

Lemma ssq_fixed (ds : list (deser val js_de_error)) ps f : Forall2 sde ds ps ->
  sound (jr_seq (run f) (tuple_prog JDeserializeError (map (fun d => (d, None)) ds) []) true)
    (fun u b => exists js, arr_part true js b /\ exists l, u = USeq l /\ all3 (fun p v d => p v d) ps l js).
Proof.
  intros F. eapply sound_weaken; [apply (ssq_tuple ar fl any_f32 dec _ ps)|].
  { clear -F. induction F; cbn; constructor; auto. }
  intros u b (js & Hb & l & -> & H1 & H2 & H3 & H4). exists js. split; auto. exists l. split; auto. rewrite map_length in *.
  assert (length js = length ds).
  { destruct (Nat.eq_dec (length js) (length ds)); auto. exfalso.
    destruct (skipn (length js) (map (fun t => (t, @None val)) ds)) as [|d r] eqn:E1.
    - apply (f_equal (@length _)) in E1. rewrite skipn_length, map_length in E1. cbn in E1. lia.
    - assert (Hd : snd d = None).
      { assert (Hi : In d (map (fun t => (t, @None val)) ds)) by (rewrite <- (firstn_skipn (length js)), E1; apply in_or_app; right; left; auto).
        apply in_map_iff in Hi. destruct Hi as (t & <- & _). auto. }
      destruct (skipn (length js) l) as [|v r'] eqn:E2; cbn in H4; [tauto|]. destruct H4; congruence. }
  assert (Lp : length ps = length ds) by (clear - F; induction F; cbn; auto).
  rewrite <- H in Lp, H2. rewrite <- Lp in H3 at 1. rewrite <- H2 in H3 at 1. rewrite !firstn_all in H3. exact H3.
Qed.

Section Form.
Context (pu : list (vkind * ty) -> val -> jv -> Prop) (pt : bytes -> list (bytes * option (list (bytes * fattr * ty))) -> val -> jv -> Prop) (T : Prop).
Context (Hu : forall vs, Forall (fun f => kind_ok (fst f) (snd f) /\ wf (snd f)) vs -> sde (untagged fo JDeserializeError vs) (pu vs))
  (Ht : T -> forall tag vs, sde (tagged fo JDeserializeError tag vs) (pt tag vs))
  (F32 : f32_from_str fl [] = None) (F64 : f64_from_str fl [] = None).
Local Notation form := (jform (f32_from_str fl) (f64_from_str fl) any_ws (bytes_of dec) pu pt).

Local Notation eprog vs := (enum_prog JDeserializeError (map fst vs) (map (fun f : bytes * option xty => (xkind f, match snd f with Some x => prog x | None => denote JDeserializeError TUnit end)) vs)).
Lemma xenum_unit vs f : sound (jr_enum (run f) true (eprog vs)) (vtext (fun u d => exists i n raw,
  u = UVar i UUnit /\ nth_error vs i = Some (n, None) /\ d = JStr raw /\ literal raw n)).
Proof.
  destruct f as [|f]; [apply sound_fuel|]. cbn [js_run jr_enum j_step_enum enum_prog].
  eapply sound_try with (P := vtext (fun u d => exists raw, d = JStr raw /\ ident_post true (map fst vs) u raw)); [|intros e; apply never_lift|].
  - eapply sound_bind; [apply sde_ident|]. intros u x Px. eapply sound_bind; [apply (sound_ret ar dec tt (fun _ b => b = [])); auto|]. intros _ y ->. apply sound_ret. rewrite !app_nil_r. auto.
  - intros u x (w & d & b & -> & Hw & Htx & raw & -> & Hi). destruct u as [| | | | | | | | | | | | |[i|]]; cbn [ident_post] in Hi; try contradiction; [|destruct Hi; discriminate].
    rewrite nth_error_map in *. destruct (nth_error vs i) as [[nm o]|] eqn:Ei; [|apply sound_never, never_lift].
    cbn [option_map xkind fst snd] in *. destruct Hi as (n & [= <-] & Hl). destruct o as [y|]; cbn [j_run_variant].
    + apply sound_never; intros s s' a D; discriminate D.
    + apply sound_lift. intros a [= <-]. rewrite app_nil_r. exists w, (JStr raw), b. split; auto. split; auto. split; auto.
      exists i, nm, raw. auto.
Qed.
Lemma form_sound x : T \/ no_tags x -> xwf x -> sde (prog x) (form x).
Proof.
  induction x as [t|vs|tag vs|x IH|x IH|xs IH|k x IH|fs IH|x IH|vs IH] using xty_ind'; intros N W; cbn [xwf no_tags] in *; cbn [xdenote].
  - apply denote_sound; auto.
  - apply Hu. exact W.
  - destruct N as [N|[]]. apply (Ht N).
  - apply sde_request. intros f. cbn [js_method]. apply sound_ws. intros c Hc. apply soundc_if; intros E.
    + assert (c = 110) as -> by lia. apply soundc_eat. eapply sound_bind; [apply (sound_view ar dec (fun x => x) _ _ _ (view_tok ar dec _) (psound_tok ar dec _))|].
      intros _ y ->. apply sound_lift. intros a [= <-] w Hw. rewrite app_nil_r. apply (vt _ UNone w JNull); auto; [apply T_null|reflexivity].
    + specialize (IH N W).
      eapply soundc_weaken; [apply soundc_head with (P := vtext (fun u d => exists y, u = USome y /\ form x y d))|].
      * cbn [visit_some mk_visitor v_option on_some]. eapply sde_after; [apply jxreq|exact IH|discriminate|]. intros a b d Px [= <-]. eauto.
      * intros a bs [(w' & d & b & -> & Hw' & Htx & y & -> & Hx) Hh] w Hw. apply vtext_blank; auto. exists w', d, b. split; auto. split; auto. split; auto.
        cbn. split; auto. intros ->. inversion Htx; subst. destruct Hw' as [|c' w' Hc' Hw'].
        { destruct Hh as [|(l & Hl)]; [discriminate|]. cbn in Hl. injection Hl as Hl _. lia. }
        destruct Hh as [|(l & Hl)]; [discriminate|]. cbn in Hl. injection Hl as <- _. unfold is_space in Hc. lia.
  - apply sde_request. intros f. cbn [js_method].
    eapply sound_weaken; [apply sound_seq with (P := fun u ds => exists l, u = USeq (rev [] ++ l) /\ Forall2 (form x) l ds)|].
    + cbn [visit_seq mk_visitor v_seq on_seq]. destruct f as [|f]; [apply sound_fuel|]. cbn [js_run jr_seq j_step_seq]. exact (ssq_loop ar fl any_f32 dec _ _ (IH N W) f [] true).
    + intros u bs H. eapply vtext_weaken; [|exact H]. intros d (ds & -> & l & -> & Hl). cbn. eauto.
  - apply sde_request. intros f. cbn [js_method]. rewrite <- (map_map prog (fun d => (d, None))).
    eapply sound_weaken; [apply sound_seq; apply (ssq_fixed (map prog xs) (map form xs) f)|].
    { clear -IH N W. revert N W. induction IH as [|x xs Hx _ I0]; intros N W; cbn in *; constructor; [apply Hx|apply I0]; tauto. }
    intros u bs H. eapply vtext_weaken; [|exact H]. intros d (ds & -> & l & -> & Hl). cbn [jform]. eauto.
  - destruct W as [Wk Wx]. apply sde_request. intros f. cbn [js_method].
    eapply sound_weaken; [apply sound_map with (P := fun u ms => exists l, u = UMap (rev [] ++ l) /\ Forall2 (fun e m => key_as any_ws k (fst e) (fst m) /\ form x (snd e) (snd m)) l ms)|].
    + cbn [visit_map mk_visitor v_map on_map]. destruct f as [|f]; [apply sound_fuel|]. cbn [js_run jr_map j_step_map]. exact (smp_loop ar fl any_f32 dec _ _ _ _ (key_sound ar fl any_f32 dec k) (IH N Wx) f [] true).
    + intros u bs H. eapply vtext_weaken; [|exact H]. intros d (ms & -> & l & -> & Hl). cbn. eauto.
  - destruct W as [_ W].
    assert (F : Forall2 sde (map (fun f => prog (snd f)) fs) (map (fun f => form (snd f)) fs)).
    { clear -IH N W. revert N W. induction IH as [|x xs Hx _ I0]; intros N W; cbn in *; constructor; [apply Hx|apply I0]; tauto. }
    apply sde_request. intros f. cbn [js_method].
    eapply sound_weaken; [apply sound_struct|].
    + cbn [visit_seq mk_visitor v_struct on_seq]. rewrite <- (map_map (fun f => prog (snd f)) (fun d => (d, None))). apply (ssq_fixed _ _ f F).
    + cbn [visit_map mk_visitor v_struct on_map]. apply (smp_struct ar fl any_f32 dec _ _ _ _ F). rewrite !map_length. auto.
    + intros u bs H. eapply vtext_weaken; [|exact H]. intros d [(ds & -> & l & -> & Hl)|(ms & -> & l & got & -> & Ho & Hf)]; cbn [jform].
      * left. eauto.
      * right. exists ms, got. split; auto. split; auto. apply NestedSound.xfinish_sound; auto. rewrite (obj_fields_length _ _ _ _ _ Ho), map_length. auto.
  - apply sde_request. intros f. cbn [js_method]. exact (IH N W f).
  - destruct W as [_ W]. apply sde_request. intros f. cbn [js_method].
    apply sound_ws. intros c Hc. cbn [visit_enum mk_visitor v_enum on_enum]. apply soundc_if; intros E.
    { apply soundc_sound. eapply sound_weaken; [apply xenum_unit|]. intros u bs H w Hw. apply vtext_blank; auto. eapply vtext_weaken; [|exact H].
      intros d (i & n & raw & -> & Hi & -> & Hl). cbn [jform]. rewrite nth_error_map, Hi. cbn. eauto. }
    apply soundc_if; intros E2; [|apply soundc_fail]. assert (c = 123) as -> by lia. apply soundc_eat.
    eapply sound_bind with (P := fun u bs => exists w1 raw w2 w3 t d', bs = w1 ++ (34 :: raw ++ [34]) ++ w2 ++ 58 :: w3 ++ t /\ blank w1 /\ blank w2 /\ blank w3 /\
      loose_text d' t /\ quoted_span raw /\ form (XEnum vs) u (JObj [(raw, d')])).
    + destruct f as [|f]; [apply sound_fuel|]. cbn [js_run jr_enum j_step_enum enum_prog].
      eapply sound_try with (P := fun u bs => exists w1 raw w2, bs = w1 ++ (34 :: raw ++ [34]) ++ w2 ++ [58] /\ blank w1 /\ blank w2 /\ quoted_span raw /\ ident_post true (map fst vs) u raw); [|intros e; apply never_lift|].
      * eapply sound_bind; [apply sde_ident|]. intros u x (w1 & d & b & -> & Hw1 & Htx & raw & -> & Hi). inversion Htx; subst.
        match goal with X : quoted _ _ |- _ => destruct X as [-> Hq] end.
        eapply sound_bind; [apply sound_colon|]. intros _ y (w2 & -> & Hw2). apply sound_ret. exists w1, raw, w2. rewrite app_nil_r, <- !app_assoc. auto.
      * intros u x (w1 & raw & w2 & -> & Hw1 & Hw2 & Hq & Hi). destruct u as [| | | | | | | | | | | | |[i|]]; cbn [ident_post] in Hi; try contradiction; [|destruct Hi; discriminate].
        rewrite nth_error_map in *. destruct (nth_error vs i) as [[nm o]|] eqn:Ei; [|apply sound_never, never_lift].
        cbn [option_map xkind fst snd] in *. destruct Hi as (n & [= <-] & Hl).
        pose proof (nth_error_In _ _ Ei) as Hin. rewrite Forall_forall in IH. specialize (IH _ Hin). pose proof (MpTyped.all_list_In _ _ W _ Hin) as Wi. cbn [snd] in *.
        destruct o as [y|]; [|cbn; apply sound_never, never_lift]. cbn [in_some] in IH.
        assert (Ny : T \/ no_tags y) by (destruct N as [N|N]; [left; exact N|right; exact (MpTyped.all_list_In _ _ N _ Hin)]).
        cbn [j_run_variant]. eapply sound_weaken with (P := vtext (fun a d => exists v, a = UVar i v /\ form y v d)).
        -- eapply sound_post; [apply (IH Ny Wi)|discriminate|]. intros a b z Pa [= <-]. eapply vtext_weaken; [|exact Pa]. eauto.
        -- intros a z (w3 & d & b & -> & Hw3 & Htx & v & -> & Hv).
           exists w1, raw, w2, w3, b, d. split; [repeat (rewrite <- app_assoc; cbn [app]); auto|]. repeat (split; [assumption|]).
           cbn [jform]. rewrite nth_error_map, Ei. cbn [option_map fst snd]. eauto 8.
    + intros u x (w1 & raw & w2 & w3 & t & d' & -> & H1 & H2 & H3 & Htx & Hq & Hr). apply sound_ws. intros c2 _. apply soundc_if; intros E3; [|apply soundc_fail].
      assert (c2 = 125) as -> by lia. apply soundc_eat. apply sound_ret. intros w4 H4 w Hw.
      exists w, (JObj [(raw, d')]), (123 :: (w1 ++ (34 :: raw ++ [34]) ++ w2 ++ 58 :: w3 ++ t ++ w4) ++ [125]).
      split; [repeat (rewrite <- app_assoc; cbn [app]); auto|]. split; auto. split; [|exact Hr].
      apply T_obj. apply O_one; auto. split; auto. exists [], raw. split; auto. split; auto. constructor.
Qed.
End Form.

Lemma bytes_readings : bytes_of dec = match dec with NopeDecoder => bytes_as_string | HexDecoder => hex_bytes | Base64Decoder => bytes_as_base64 end.
Proof. destruct dec; reflexivity. Qed.
Theorem js_nested_sound fuel x input s v : f32_from_str fl [] = None -> f64_from_str fl [] = None -> xwf x -> all_bytes input ->
  (dec = Base64Decoder -> 3 * zlen input <= usize_max ar) -> js_from_mut_slice ar fl any_f32 dec fuel (prog x) input = Done s (Ok v) ->
  exists d w1 text w2, input = w1 ++ text ++ w2 /\ any_ws w1 /\ any_ws w2 /\ loose_text d text /\
    xcame fo any_f32 (f32_from_str fl) (f64_from_str fl) any_ws
      (match dec with NopeDecoder => bytes_as_string | HexDecoder => hex_bytes | Base64Decoder => bytes_as_base64 end) x v d.
Proof.
  intros F32 F64 W B R E. rewrite <- bytes_readings. eapply sound_top; eauto. unfold xcame. apply (form_sound _ _ True); auto; [exact sde_untagged|intros _; exact sde_tagged].
Qed.
Theorem js_nested_exact x input v : f32_from_str fl [] = None -> f64_from_str fl [] = None -> no_tags x -> xwf x -> all_bytes input ->
  (dec = Base64Decoder -> 3 * zlen input <= usize_max ar) ->
  (exists fuel s, js_from_mut_slice ar fl any_f32 dec fuel (prog x) input = Done s (Ok v)) <->
  (exists d w1 text w2, input = w1 ++ text ++ w2 /\ any_ws w1 /\ any_ws w2 /\ loose_text d text /\
    xreads fo any_f32 (f32_from_str fl) (f64_from_str fl) any_ws
      (match dec with NopeDecoder => bytes_as_string | HexDecoder => hex_bytes | Base64Decoder => bytes_as_base64 end) x v d).
Proof.
  intros F32 F64 N W B R. rewrite <- bytes_readings. split.
  - intros (fuel & s & E). eapply sound_top; eauto. unfold xreads. apply (form_sound _ _ False); auto; [exact sde_untagged|intros []].
  - intros (d & w1 & text & w2 & -> & W1 & W2 & Htx & H).
    destruct (js_nested_reads ar fl fo any_f32 dec any_ws (fun w H => H) x v d text w1 w2 W H Htx W1 W2 R) as [K HK]. exists K. apply HK. lia.
Qed.
End Js.

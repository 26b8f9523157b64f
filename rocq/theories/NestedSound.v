(** What types with buffered enums inside return comes from a message of the type (C76). *)
From Verif Require Import Prelude PreludeFacts Utf8Spec Utf8 Utf8Facts SerdeSer SerdeDe FloatOps Arch MpMagick MpSpec MpErrMap MpDe MpDeView MpDeReads MpDeEat MpDeTop
  Types TypesFacts MpTypeSpec MpTyped MpTypedTop MpAny MpSound MpAnySound Content ContentSpec ContentFacts BufferSpec BufferFacts BufferTop BufferFault Nested NestedReadSpec MpNested.
Ltac Zify.zify_post_hook ::= Z.div_mod_to_equations.

Lemma xfinish_sound fs : forall got l, length got = length fs -> finish got (map (fun f : bytes * xty => xabsent (snd f)) fs) = Some l -> xall_fields fs got l.
Proof.
  induction fs as [|f fs IH]; intros [|g got] l Hl H; cbn [length] in Hl; try discriminate.
  - injection H as <-. cbn. auto.
  - cbn [map finish] in H. destruct g as [w|].
    + destruct (finish got _) as [l'|] eqn:E; [|discriminate]. injection H as <-. cbn. split; auto.
    + destruct (xabsent (snd f)) as [d|] eqn:Ea; [|discriminate]. destruct (finish got _) as [l'|] eqn:E; [|discriminate]. injection H as <-. cbn. split; auto.
      destruct (snd f) as [t| | |y| | | | | |]; try discriminate; [destruct t; try discriminate|]; injection Ea as <-; split; auto; [right|left]; eexists; reflexivity.
Qed.
Lemma pick_variant fo vs c : forall k u, untagged_pick fo vs k c = Some u -> exists i w, u = UVar (k + i) w /\ (i < length vs)%nat.
Proof.
  induction vs as [|f vs IH]; intros k u H; cbn [untagged_pick] in H; [discriminate|]. destruct (untagged_variant fo f c) as [w|].
  - injection H as <-. exists 0%nat, w. rewrite Nat.add_0_r. cbn. split; [reflexivity|lia].
  - destruct (IH _ _ H) as (i & w & -> & L). exists (S i), w. cbn. split; [f_equal; lia|lia].
Qed.
Lemma tag_variant fo tag vs c u : tagged_pick fo tag vs c = Some u -> exists i w, u = UVar i w /\ (i < length vs)%nat.
Proof.
  assert (B : forall x c, by_tag fo vs x c = Some u -> exists i w, u = UVar i w /\ (i < length vs)%nat).
  { intros x c' H. unfold by_tag in H. destruct (content_ident _ x) as [[i|]|]; try discriminate. destruct (nth_error vs i) as [[n [fs|]]|] eqn:E; try discriminate.
    - destruct (from_content _ _ _) as [w|]; [|discriminate]. injection H as <-. exists i, w. split; auto. apply nth_error_Some. congruence.
    - assert (u = UVar i UUnit) as -> by (destruct c' as [| | | | | | | | | |[|]| | |]; congruence). exists i, UUnit. split; auto. apply nth_error_Some. congruence. }
  intros H. destruct c; try discriminate; cbn [tagged_pick] in H.
  - destruct l as [|x l]; [discriminate|]. eapply B; eauto.
  - destruct (partition _ l) as [[|e [|]] r]; try discriminate. eapply B; eauto.
Qed.

Section Mp.
Context (ar : arch) (fo : float_ops) (Wide : wide ar).
Local Notation prog := (xdenote fo DeserializeError).
Local Notation sde := (sde ar fo).
Local Notation sound := (sound ar).
Local Notation run := (@mp_run ar fo val).

Lemma sde_after (p : deser val mp_de_error) g P (Q : val -> bytes -> Prop) : (exists m v post, p = DReq m v post) -> sde p P -> (forall e b, g (Err e) <> Ok b) ->
  (forall a b x, P a x -> g (Ok a) = Ok b -> Q b x) -> sde (then_ p g) Q.
Proof.
  intros (m & v & post & ->) H He Hk [|f]; [apply sound_fuel|]. intros s s' b Hr Hb E. cbn [mp_run r_de step_de then_] in E. unfold dpost, dtry, dlift in E.
  specialize (H (S f) s s'). cbn [mp_run r_de step_de] in H. unfold dpost, dtry, dlift in H. destruct (mp_method ar fo (run f) m v s) as [s1 r| |]; try discriminate.
  injection E as -> E. destruct (post r) as [a|e] eqn:Ep; [|exfalso; eapply He; eauto].
  destruct (H a Hr Hb) as (bs & A & Pa); [reflexivity|]. exists bs. split; auto. eapply Hk; eauto.
Qed.
Lemma any_is_req : exists m v post, any DeserializeError = DReq m v post.
Proof. do 3 eexists. rewrite (dfrob_eq (any _)). reflexivity. Qed.
Lemma sde_buffered f (Q : val -> bytes -> Prop) : (forall m c v bs, mp_fmt m bs -> denotes m (inl c) -> f c = Some v -> Q v bs) -> sde (buffered DeserializeError f) Q.
Proof.
  intros H. unfold buffered. eapply sde_after with (P := any_post); [exact any_is_req|intros fuel; apply (proj1 (any_sound ar fo fuel))|discriminate|].
  intros c v bs (m & F & D) E. destruct (f c) as [w|] eqn:Ef; [|discriminate]. injection E as <-. eapply H; eauto.
Qed.
Lemma no_default_all (ds : list (deser val mp_de_error)) j l : (j <= length ds)%nat -> length l = length ds ->
  all2 (fun (d : deser val mp_de_error * option val) v => snd d = Some v) (skipn j (map (fun d => (d, None)) ds)) (skipn j l) -> j = length ds.
Proof.
  intros Hj Ll Ha. destruct (Nat.eq_dec j (length ds)); auto. exfalso.
  destruct (skipn j (map (fun t => (t, @None val)) ds)) as [|d r] eqn:E1.
  - apply (f_equal (@length _)) in E1. rewrite skipn_length, map_length in E1. cbn in E1. lia.
  - assert (Hd : snd d = None).
    { assert (Hi : In d (map (fun t => (t, @None val)) ds)) by (rewrite <- (firstn_skipn j), E1; apply in_or_app; right; left; auto).
      apply in_map_iff in Hi. destruct Hi as (t & <- & _). auto. }
    destruct (skipn j l) as [|v r'] eqn:E2; cbn in Ha; [tauto|]. destruct Ha; congruence.
Qed.
Lemma ssq_fixed (ds : list (deser val mp_de_error)) ps f n : Forall2 sde ds ps -> 0 <= n ->
  sound (r_seq (run f) (tuple_prog DeserializeError (map (fun d => (d, None)) ds) []) n)
    (fun r b => snd r = 0 -> exists l, fst r = USeq l /\ length l = length ds /\ n = zlen ds /\ seq_enc (zip (fun p v => p v) ps l) b).
Proof.
  intros F Hn. eapply sound_weaken; [apply (ssq_tuple ar fo _ ps); [|exact Hn]|].
  { clear -F. induction F; cbn; constructor; auto. }
  intros [u m] b (l & j & Hu & Ll & Hj & Hm & _ & Hb & Ha) Z0. cbn [fst snd rev app] in *. rewrite map_length in *.
  pose proof (no_default_all ds j l Hj Ll Ha) as ->. exists l. split; auto. split; auto. split; [unfold zlen; lia|].
  assert (Lp : length ps = length ds) by (clear -F; induction F; cbn; auto).
  rewrite <- Lp in Hb at 1. rewrite <- Ll in Hb. rewrite !firstn_all in Hb. exact Hb.
Qed.

Theorem nested_sound x : xwf x -> sde (prog x) (xgot fo x).
Proof.
  unfold xgot. induction x as [t|vs|tag vs|x IH|x IH|xs IH|k x IH|fs IH|x IH|vs IH] using xty_ind'; intros W; cbn [xwf] in W; cbn [xdenote].
  - exact (denote_sound ar fo Wide t W).
  - unfold untagged. apply sde_buffered. intros m c v bs F D E. cbn [xform]. exists m, c. split; auto. split; auto.
    destruct (pick_variant fo vs c 0 v E) as (i & w & -> & L). exists i, w. split; auto. split; auto. intros N.
    pose proof (pick_decides fo vs c W N 0) as P. rewrite E in P. destruct P as (i' & w' & [= <- <-] & P). exact P.
  - unfold tagged. apply sde_buffered. intros m c v bs F D E. cbn [xform]. exists m, c. split; auto. split; auto. eapply tag_variant; eauto.
  - apply sde_request. intros f. cbn [mp_method]. apply sound_peek. intros c Hc. apply soundc_if; intros E.
    + apply soundc_eat. apply sound_lift. intros a [= <-]. cbn. consts. replace c with 0xc0 by lia. auto.
    + eapply soundc_of with (P := fun a bs => exists v, a = USome v /\ xgot fo x v bs).
      * cbn [visit_some mk_visitor v_option on_some]. eapply sde_after; [apply xreq|exact (IH W)|discriminate|]. intros a b y Px [= <-]. eauto.
      * intros a bs (y & -> & Hx) Hl. cbn. split; auto. intros ->. destruct Hl as [|(l & Hl)]; [discriminate|]. apply cons_inj in Hl. destruct Hl as [Hl _]. consts. lia.
  - apply sde_request. intros f. cbn [mp_method].
    apply sound_seq with (P := fun n r b => snd r = 0 /\ exists l, fst r = USeq (rev [] ++ l) /\ zlen l = n /\ seq_enc (map (xgot fo x) l) b); [intros n Hn|].
    + cbn [visit_seq mk_visitor v_seq on_seq]. destruct f as [|f]; [apply sound_fuel|]. cbn [mp_run r_seq step_seq]. exact (ssq_loop ar fo _ _ (IH W) f [] n Hn).
    + intros n u h b Hh (_ & l & Hu & Ll & Hl). cbn [fst rev app] in Hu. subst u. cbn [xform]. exists h, b. subst n. auto.
  - apply sde_request. intros f. cbn [mp_method]. rewrite <- (map_map prog (fun d => (d, None))).
    eapply sound_seq; [intros n Hn; apply (ssq_fixed (map prog xs) (map (xgot fo) xs) f n)|]; auto.
    { clear -IH W. revert W. induction IH as [|x xs Hx _ I0]; intros W; cbn in *; constructor; [apply Hx|apply I0]; apply W. }
    intros n u h b Hh H. destruct (H eq_refl) as (l & Hu & Ll & -> & Hb). cbn [fst] in Hu. subst u. cbn [xform]. exists h, b. unfold zlen in Hh. rewrite map_length in *. auto.
  - destruct W as [Wk Wx]. apply sde_request. intros f. cbn [mp_method].
    apply sound_map with (P := fun n r b => snd r = 0 /\ exists l, fst r = UMap (rev [] ++ l) /\ zlen l = n /\
       seq_enc (map (fun e b => exists y z, b = y ++ z /\ adm fo k (fst e) y /\ xgot fo x (snd e) z) l) b); [intros n Hn|].
    + cbn [visit_map mk_visitor v_map on_map]. destruct f as [|f]; [apply sound_fuel|]. cbn [mp_run r_map step_map]. exact (smp_loop ar fo _ _ _ _ (denote_sound ar fo Wide k Wk) (IH Wx) f [] n Hn).
    + intros n u h b Hh (_ & l & Hu & Ll & Hl). cbn [fst rev app] in Hu. subst u. cbn [xform]. exists h, b. subst n. auto.
  - destruct W as [_ W].
    assert (F : Forall2 sde (map (fun f => prog (snd f)) fs) (map (fun f => xgot fo (snd f)) fs)).
    { clear -IH W. revert W. induction IH as [|x xs Hx _ I0]; intros W; cbn in *; constructor; [apply Hx|apply I0]; apply W. }
    apply sde_request. intros f. cbn [mp_method].
    eapply sound_struct; [intros n Hn|intros n Hn|..].
    + cbn [visit_map mk_visitor v_struct on_map]. apply (smp_struct ar fo Wide _ _ _ _ F); auto. rewrite !map_length. auto.
    + cbn [visit_seq mk_visitor v_struct on_seq]. rewrite <- (map_map (fun f => prog (snd f)) (fun d => (d, None))). apply (ssq_fixed _ _ f n F Hn).
    + intros n u h b Hh (_ & l & got & Hu & He & Hf). cbn [fst] in Hu. subst u. cbn [xform]. right. exists n, h, b, got. split; auto. split; auto. split; auto.
      apply xfinish_sound; auto. rewrite (entries_length _ _ _ _ _ _ He), map_length. auto.
    + intros n u h b Hh H. destruct (H eq_refl) as (l & Hu & Ll & -> & Hb). cbn [fst] in Hu. subst u. cbn [xform]. left.
      exists h, b. unfold zlen in Hh. rewrite map_length in *. auto.
  - apply sde_request. intros f. cbn [mp_method]. exact (IH W f).
  - destruct W as [_ W]. apply sde_request. intros f. cbn [mp_method].
    apply sound_peek. intros c Hc. cbn [visit_enum mk_visitor v_enum on_enum]. apply soundc_if; intros E.
    + apply soundc_eat. destruct f as [|f]; [apply sound_fuel|]. cbn [mp_run r_enum step_enum enum_prog].
      eapply sound_try; [apply sde_ident; auto|intros e; apply never_ret|]. intros u x Px.
      destruct u as [| | | | | | | | | | | | |[i|]]; cbn [ident_post] in Px; try contradiction; [|destruct Px; discriminate].
      rewrite nth_error_map. destruct (nth_error vs i) as [[nm o]|] eqn:Ei; [|apply sound_never, never_ret].
      cbn [option_map xkind fst snd]. assert (c = 0x81) as -> by (change (Z.lor FIXMAP 1) with 0x81 in E; lia).
      pose proof (nth_error_In _ _ Ei) as Hi. rewrite Forall_forall in IH. specialize (IH _ Hi). pose proof (all_list_In _ _ W _ Hi) as Wi. cbn [snd] in *.
      destruct o as [y|]; [|cbn; apply sound_never, never_ret]. cbn [run_variant in_some] in *. specialize (IH Wi).
      eapply sound_post; [apply IH|discriminate|]. intros a b z Pa [= <-]. cbn [xform]. rewrite nth_error_map, Ei. cbn [option_map snd]. eauto 6.
    + eapply soundc_of with (P := xgot fo (XEnum vs)); [|auto].
      destruct f as [|f]; [apply sound_fuel|]. cbn [mp_run r_enum step_enum enum_prog].
      eapply sound_try; [apply sde_ident; auto|intros e; apply never_ret|]. intros u x Px.
      destruct u as [| | | | | | | | | | | | |[i|]]; cbn [ident_post] in Px; try contradiction; [|destruct Px; discriminate].
      rewrite nth_error_map. destruct (nth_error vs i) as [[nm o]|] eqn:Ei; [|apply sound_never, never_ret].
      destruct o as [y|]; cbn [option_map xkind fst snd].
      * cbn. apply sound_never. intros s s' a D. discriminate D.
      * cbn. apply sound_lift. intros a [= <-]. unfold xgot. cbn [xform]. rewrite nth_error_map, Ei. cbn. rewrite app_nil_r. auto.
Qed.
Theorem mp_nested_sound (A64 : arch64 ar) fuel x input s v n : xwf x -> slice64 input ->
  mp_from_slice ar fo fuel (prog x) input = Done s (Ok (v, n)) -> exists bs tail, input = bs ++ tail /\ zlen bs = n /\ xgot fo x v bs.
Proof.
  intros W Hs E. unfold mp_from_slice, dbind in E.
  assert (Hr : ready ar (de_from_slice input)).
  { apply ready64; auto. cbn. pose proof (zlen_nonneg input). lia. }
  destruct (r_de (run fuel) (prog x) (de_from_slice input)) as [s1 [a|e]| |] eqn:E1; try discriminate.
  assert (Hb : all_bytes (rest (de_from_slice input))) by apply Hs.
  destruct (nested_sound x W fuel _ _ _ Hr Hb E1) as (bs & A1 & P1).
  pose proof (ate_ready _ _ _ _ A1) as R1. unfold de_end in E. pose proof (rest_length _ _ R1) as L1.
  destruct (d_index s1 <=? zlen (sl_data (d_input s1))) eqn:E2; [|discriminate].
  destruct A1 as [_ A1]. change (rest (de_from_slice input)) with input in A1.
  assert (L : zlen input = zlen bs + zlen (rest s1)) by (rewrite A1 at 1; apply zlen_app).
  match type of E with (if ?b then _ else _) _ = _ => destruct b end; [|discriminate].
  injection E as _ <- <-. exists bs, (rest s1). split; auto. split; auto. lia.
Qed.
End Mp.

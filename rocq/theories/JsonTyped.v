(** Every document that represents a value of a type is read as that value. *)
From Verif Require Import Prelude PreludeFacts Utf8 Utf8Spec Utf8Facts SerdeDe SerdeSer MpSpec Base64Spec
  JsonSpec JsonTypeSpec JsonFacts JsonDe JsonDeSafe JsonStr JsonView JsonTok JsonMeth JsonEats Types TypesFacts MpTypeSpec MpTyped.
Ltac Zify.zify_post_hook ::= Z.div_mod_to_equations.

Section JvInd.
Variable P : jv -> Prop.
Hypothesis HNull : P JNull.
Hypothesis HBool : forall b, P (JBool b).
Hypothesis HNum : forall t, P (JNum t).
Hypothesis HStr : forall s, P (JStr s).
Hypothesis HArr : forall l, Forall P l -> P (JArr l).
Hypothesis HObj : forall l, Forall (fun m => P (snd m)) l -> P (JObj l).
Fixpoint jv_ind' (d : jv) : P d :=
  match d with
  | JNull => HNull | JBool b => HBool b | JNum t => HNum t | JStr s => HStr s
  | JArr l => HArr l ((fix go (l : list jv) : Forall P l :=
      match l with [] => Forall_nil _ | x :: l => Forall_cons x (jv_ind' x) (go l) end) l)
  | JObj l => HObj l ((fix go (l : list (bytes * jv)) : Forall (fun m => P (snd m)) l :=
      match l with [] => Forall_nil _ | x :: l => Forall_cons x (jv_ind' (snd x)) (go l) end) l)
  end.
End JvInd.

Section Typed.
Context (ar : arch) (fl : float_parser) (any_f32 : bool) (dec : byte_decoder).
Local Notation M := (DM jde js_de_error).
Local Notation inside := (inside ar dec).
Local Notation run := (js_run ar fl any_f32 dec).
Local Notation eats := (eats ar dec).
Local Notation accepts := (accepts ar fl any_f32 dec).
Local Notation kaccepts := (kaccepts ar fl any_f32 dec).
Local Notation feeds := (feeds ar fl any_f32 dec).
Local Notation feedm := (feedm ar fl any_f32 dec).
Local Notation den := (denote JDeserializeError).
(** ** Skipped values *)
Lemma ignored_num_eats {U} (r : result U js_de_error) u tok k : r = Ok u -> number_run tok -> cannot_extend (JNum tok) k ->
  eats (fun _ => input <-- match_float ;; _ <-- j_eat_some (length input) ;; dlift r) u (tok ++ k) k.
Proof.
  intros -> Hn Hk. exists O. intros f _ s I H. unfold dbind, match_float. rewrite (proj2 (Nat.leb_le _ _) (proj1 I)).
  fold (unparsed s). rewrite H, (prefix_number tok k); [|apply run_chars; auto|eapply extend_prefix; eauto].
  destruct (eat_state ar dec s tok k I H) as [I' U']. eexists. split; [reflexivity|]. auto.
Qed.
Lemma skip_eats {U} (r : result U js_de_error) u raw k : r = Ok u -> quoted_span raw ->
  eats (fun _ => _ <-- eat_str_content ;; dlift r) u (raw ++ 34 :: k) k.
Proof.
  intros -> Hq. apply (eats_bind ar dec (fun _ => eat_str_content) (fun _ _ => dlift (Ok u)) tt u _ k); [|apply eats_lift; auto].
  eapply eats_view; [apply view_skip|]. intros _. unfold p_skip. rewrite skip_span by auto. reflexivity.
Qed.
Lemma key_str_eats {U} m (v : visitor U js_de_error) post u0 u raw s :
  match m with DChar | DInt _ | DBool | DEnum => False | _ => True end -> literal raw s -> visit_str v s = Ok u0 -> post (Ok u0) = Ok u ->
  kaccepts (DReq m v post) raw u.
Proof.
  intros Hm L Hv Hp k. apply eats_S. cbn [js_run jr_de j_step_de]. eapply eats_post; [|exact Hp].
  eapply eats_ext; [|apply (str_eats ar dec v u0 raw s [] k L); [constructor|exact Hv]].
  intros f. destruct m; cbn [key_method]; (tauto || reflexivity).
Qed.
Lemma ignored_accepts d : skippable d -> accepts (@ignored js_de_error) d UUnit.
Proof.
  destruct (@ignored_req js_de_error) as (v & Ev & Vu & Vb & Vs & Vq & Vm).
  induction d as [|x|tok|raw|l IH|l IH] using jv_ind'; intros Hs; rewrite Ev; apply (proj1 (accepts_req ar fl any_f32 dec DIgnoredAny v _ _)); intros b w k Hb Hw Hk;
    cbn [js_method]; unfold j_deserialize_ignored_any.
  - inversion Hb; subst. cbn [app]. apply eats_ws; auto. cbn [Z.eqb Pos.eqb]. apply (unit_eats ar dec v UUnit [110; 117; 108; 108] [] k); auto. constructor.
  - inversion Hb; subst; cbn [app]; apply eats_ws; auto; cbn [Z.eqb Pos.eqb orb].
    + apply (bool_eats ar dec v UUnit true _ [] k Hb); auto. constructor.
    + apply (bool_eats ar dec v UUnit false _ [] k Hb); auto. constructor.
  - inversion Hb; subst. destruct Hs as (c & r & E & Hc). rewrite E. cbn [app]. unfold is_digit in Hc.
    apply eats_ws; auto; [unfold is_space; lia|].
    replace (c =? 110) with false by lia. replace ((c =? 116) || (c =? 102)) with false by lia. replace (c =? 34) with false by lia.
    replace (ascii_digit c || (c =? 45)) with true by (unfold ascii_digit; lia).
    change (c :: r ++ k) with ((c :: r) ++ k). rewrite <- E. apply ignored_num_eats; auto.
  - inversion Hb; subst. destruct H0 as [-> Hq]. cbn [app]. rewrite <- app_assoc. apply eats_ws; auto. cbn [Z.eqb Pos.eqb orb].
    apply eats_eat1. apply skip_eats; auto.
  - destruct (arr_text _ _ Hb) as (b' & Eb & _). rewrite Eb. cbn [app]. apply eats_ws; auto.
    replace (ascii_digit 91) with false by reflexivity. cbn [Z.eqb Pos.eqb orb].
    change (91 :: (b' ++ [93]) ++ k) with ([] ++ (91 :: b' ++ [93]) ++ k). rewrite <- Eb.
    apply (seq_eats ar fl any_f32 dec v l); [|auto|constructor]. rewrite Vq. clear - IH Hs. cbn [skippable] in Hs.
    induction IH as [|d l Hd _ IHl]; rewrite (sfrob_eq ignored_seq); cbn [sfrob ignored_seq].
    + apply FS_end, FS_ret.
    + destruct Hs as [H1 H2]. eapply FS_next; [apply Hd; auto|]. apply IHl; auto.
  - destruct (obj_text _ _ Hb) as (b' & Eb & _). rewrite Eb. cbn [app]. apply eats_ws; auto.
    replace (ascii_digit 123) with false by reflexivity. cbn [Z.eqb Pos.eqb orb].
    change (123 :: (b' ++ [125]) ++ k) with ([] ++ (123 :: b' ++ [125]) ++ k). rewrite <- Eb.
    apply (map_eats ar fl any_f32 dec v l); [|auto|constructor]. rewrite Vm. clear Hb Hk b' Eb. cbn [skippable] in Hs.
    induction IH as [|[raw d] l Hd _ IHl]; rewrite (mfrob_eq ignored_map); cbn [mfrob ignored_map].
    + apply FM_end, FM_ret.
    + destruct Hs as [[[s Hl] H1] H2].
      assert (HK : kaccepts (@ignored js_de_error) raw UUnit) by (rewrite Ev; eapply key_str_eats; [exact I|exact Hl|apply Vs|reflexivity]).
      eapply FM_next; [exact HK|reflexivity|apply Hd; auto|apply IHl; auto].
Qed.

(** ** Keys *)
Lemma ident_literal strict ns i n raw : NoDup ns -> nth_error ns i = Some n -> literal raw n -> forall w k, blank w ->
  eats (fun f => jr_de (run f) false (ident JDeserializeError strict ns)) (UIdent (Some i)) (w ++ 34 :: raw ++ 34 :: k) k.
Proof.
  intros Hd Hn L w k Hw. apply eats_S. cbn [js_run jr_de j_step_de ident request]. eapply eats_post; [|reflexivity].
  cbn [js_method]. eapply str_eats; [exact L|auto|]. cbn. rewrite (find_name_spec ns Hd i n 0 Hn). reflexivity.
Qed.
Lemma ident_key strict ns i n raw : NoDup ns -> nth_error ns i = Some n -> literal raw n ->
  kaccepts (ident JDeserializeError strict ns) raw (UIdent (Some i)).
Proof.
  intros Hd Hn L. eapply key_str_eats; [exact I|exact L| |reflexivity]. cbn. rewrite (find_name_spec ns Hd i n 0 Hn). reflexivity.
Qed.
Lemma unknown_key ns s raw : ~ In s ns -> literal raw s -> kaccepts (ident JDeserializeError false ns) raw (UIdent None).
Proof.
  intros Hn L. eapply key_str_eats; [exact I|exact L| |reflexivity]. cbn. rewrite find_name_none; auto.
Qed.
Lemma unit_variant_eats vs i n raw c : NoDup (map name_of vs) -> nth_error vs i = Some (n, KUnit, c) -> literal raw n -> forall w k, blank w ->
  eats (fun f => jr_enum (run f) true (enum_prog JDeserializeError (map name_of vs) (map (fun f => (attr_of f, den (snd f))) vs))) (UVar i UUnit) (w ++ 34 :: raw ++ 34 :: k) k.
Proof.
  intros Hd Hn L w k Hw. apply eats_S. cbn [js_run jr_enum j_step_enum enum_prog].
  eapply eats_try. 
  - eapply eats_bind; [eapply (ident_literal true (map name_of vs) i n); eauto; rewrite nth_error_map, Hn; reflexivity|].
    eapply eats_bind; [apply eats_ret|apply eats_ret].
  - cbn iota beta. rewrite nth_error_map, Hn. cbn [option_map attr_of fst snd j_run_variant]. apply eats_lift. reflexivity.
Qed.
Context (key_ws : bytes -> Prop) (Hkw : forall w, key_ws w -> any_ws w).
Local Notation reads := (reads_as key_ws (f32_from_str fl) (f64_from_str fl) (bytes_of dec)).
Lemma key_reads t v raw : wf t -> key_as key_ws t v raw -> kaccepts (den t) raw v.
Proof.
  intros Hwf H. destruct t; cbn [key_as] in H; try contradiction.
  - destruct v; try contradiction. destruct H as (w & Hw & ->). apply Hkw in Hw. intros k. rewrite <- app_assoc. cbn [denote request]. apply eats_S. cbn [js_run jr_de j_step_de]. eapply eats_post; [|reflexivity].
    cbn [key_method]. unfold key_bool. apply eats_eat1.
    apply (eats_bind ar dec (fun _ => j_deserialize_bool _) (fun _ b => c <-- j_peek ;; if c =? 34 then _ <-- j_eat_some 1 ;; dret b else dfail JInvalidType) (UBool b) (UBool b) _ (34 :: k)).
    + destruct b.
      * apply (bool_eats ar dec (mk_visitor (v_bool JDeserializeError)) (UBool true) true [116; 114; 117; 101] w (34 :: k)); [constructor|exact Hw|reflexivity].
      * apply (bool_eats ar dec (mk_visitor (v_bool JDeserializeError)) (UBool false) false [102; 97; 108; 115; 101] w (34 :: k)); [constructor|exact Hw|reflexivity].
    + eapply eats_view; [apply view_quote|]. reflexivity.
  - destruct v; try contradiction. destruct H as (w & tok & Hw & -> & H). apply Hkw in Hw. intros r. rewrite <- app_assoc. cbn [denote request]. apply eats_S. cbn [js_run jr_de j_step_de]. eapply eats_post; [|reflexivity].
    cbn [key_method]. unfold parse_numkey.
    eapply eats_bind.
    + apply eats_eat1. eapply (eats_bind ar dec (fun _ => parse_int k) (fun _ n => c <-- j_peek ;; if c =? 34 then _ <-- j_eat_some 1 ;; dret n else dfail JInvalidNumber) z z _ (34 :: r)).
      * eapply eats_view; [apply view_int|]. intros _. apply (p_int_lit k z tok w (34 :: r) H); [exact Hw|]. cbn. unfold is_digit. lia.
      * eapply eats_view; [apply view_quote|]. reflexivity.
    + apply eats_lift. cbn. rewrite (proj2 (in_ikindb_spec _ _) (proj1 H)). reflexivity.
  - destruct v; try contradiction. destruct H as [L Hc]. intros k. cbn [denote request]. apply eats_S. cbn [js_run jr_de j_step_de]. eapply eats_post; [|reflexivity].
    cbn [key_method]. apply (char_eats ar dec _ (UChar c) raw c [] k); auto. constructor.
  - destruct v; try contradiction. eapply key_str_eats; [exact I|exact H|reflexivity|reflexivity].
  - destruct v; try contradiction. eapply key_str_eats; [exact I|exact H|reflexivity|reflexivity].
  - destruct v; try contradiction. destruct H as (-> & n & Hn & L). rewrite nth_error_map in Hn. destruct (nth_error vs i) as [[[n' kd] c]|] eqn:E; [|discriminate].
    cbn in Hn. injection Hn as -> ->. intros k. cbn [denote request]. apply eats_S. cbn [js_run jr_de j_step_de]. eapply eats_post; [|reflexivity].
    cbn [key_method]. apply (unit_variant_eats vs i n raw c) with (w := []); auto; [apply Hwf|constructor].
Qed.

(** ** Values *)
Lemma denote_req t : exists m v, den t = DReq m v (fun r => r).
Proof. destruct t; cbn [denote]; unfold request; do 2 eexists; reflexivity. Qed.

Lemma seq_feeds t l ds : Forall2 (fun v d => accepts (den t) d v) l ds -> forall acc, feeds (seq_loop (den t) acc) ds (USeq (rev acc ++ l)).
Proof.
  induction 1 as [|v d l ds Hv _ IH]; intros acc; rewrite (sfrob_eq (seq_loop _ _)); cbn [sfrob seq_loop].
  - apply FS_end. rewrite app_nil_r. apply FS_ret.
  - eapply FS_next; [exact Hv|]. specialize (IH (v :: acc)). cbn [rev] in IH. rewrite <- app_assoc in IH. exact IH.
Qed.
Lemma map_feeds kt vt l ms : Forall2 (fun e m => kaccepts (den kt) (fst m) (fst e) /\ accepts (den vt) (snd m) (snd e)) l ms ->
  forall acc, feedm (map_loop (den kt) (den vt) acc) ms (UMap (rev acc ++ l)).
Proof.
  induction 1 as [|[x y] [raw d] l ms [Hk Hv] _ IH]; intros acc; rewrite (mfrob_eq (map_loop _ _ _)); cbn [mfrob map_loop].
  - apply FM_end. rewrite app_nil_r. apply FM_ret.
  - eapply FM_next; [exact Hk|reflexivity|exact Hv|]. specialize (IH ((x, y) :: acc)). cbn [rev] in IH. rewrite <- app_assoc in IH. exact IH.
Qed.
Lemma tuple_feeds ts : Forall (fun t => wf t -> forall v d, reads t v d -> accepts (den t) d v) ts -> all_list wf ts -> forall l ds acc,
  all3 (fun p v d => p v d) (map reads ts) l ds ->
  feeds (tuple_prog JDeserializeError (map (fun t => (den t, None)) ts) acc) ds (USeq (rev acc ++ l)).
Proof.
  induction 1 as [|t ts Ht _ IH]; intros Hwf l ds acc H.
  - destruct l, ds; try contradiction. cbn. rewrite app_nil_r. apply FS_ret.
  - destruct l as [|v l], ds as [|d ds]; try contradiction. destruct H as [H1 H2]. destruct Hwf as [W1 W2]. cbn [map tuple_prog].
    eapply FS_next; [apply Ht; auto; exact H1|]. specialize (IH W2 l ds (v :: acc) H2). cbn [rev] in IH. rewrite <- app_assoc in IH. exact IH.
Qed.
Lemma fields_feeds (fs : list (bytes * fattr * ty)) : Forall (fun f => wf (snd f) -> forall v d, reads (snd f) v d -> accepts (den (snd f)) d v) fs ->
  all_list (fun f => wf (snd f)) fs -> forall l ds acc,
  (length ds <= length fs)%nat -> length l = length fs ->
  all3 (fun p v d => p v d) (firstn (length ds) (map (fun f => reads (snd f)) fs)) (firstn (length ds) l) ds ->
  all2 (fun f v => attr_of f = FDefault v) (skipn (length ds) fs) (skipn (length ds) l) ->
  feeds (tuple_prog JDeserializeError (map (fun f => (den (snd f), default_of (attr_of f))) fs) acc) ds (USeq (rev acc ++ l)).
Proof.
  induction 1 as [|f fs Hf _ IH]; intros Hwf l ds acc Ld Ll Ha Hd.
  - destruct l, ds; try discriminate; cbn in Ld; try lia. cbn. rewrite app_nil_r. apply FS_ret.
  - destruct l as [|v l]; [discriminate|]. destruct Hwf as [W1 W2]. cbn [map tuple_prog]. cbn [length] in Ld, Ll.
    assert (A : forall ds', feeds (tuple_prog JDeserializeError (map (fun f => (den (snd f), default_of (attr_of f))) fs) (v :: acc)) ds' (USeq (rev (v :: acc) ++ l)) ->
                feeds (tuple_prog JDeserializeError (map (fun f => (den (snd f), default_of (attr_of f))) fs) (v :: acc)) ds' (USeq (rev acc ++ v :: l))).
    { intros ds'. cbn [rev]. rewrite <- app_assoc. auto. }
    destruct ds as [|d ds].
    + cbn [length firstn skipn all2] in Ha, Hd. destruct Hd as [E Hd]. apply FS_end. rewrite E. cbn [default_of]. apply A.
      apply IH; auto; cbn; lia.
    + cbn [length firstn skipn map all3] in Ha, Hd. destruct Ha as [H1 H2]. cbn [length] in Ld. eapply FS_next; [apply Hf; auto; exact H1|].
      apply A. apply IH; auto; lia.
Qed.
Lemma struct_feeds (fs : list (bytes * fattr * ty)) : Forall (fun f => wf (snd f) -> forall v d, reads (snd f) v d -> accepts (den (snd f)) d v) fs ->
  all_list (fun f => wf (snd f)) fs -> NoDup (map name_of fs) -> forall got ms got', 
  obj_fields (map name_of fs) (map (fun f => reads (snd f)) fs) got ms got' -> forall l, all_fields fs got' l ->
  feedm (struct_loop JDeserializeError (map name_of fs) (map (fun f => den (snd f)) fs) (map absent_val fs) got) ms (USeq l).
Proof.
  intros Hf Hwf Hnd got ms got' H. induction H as [got|got i n p v raw d ms got' Hg Hp Hn L Hv _ IH|got raw s d ms got' L Hs Hd _ IH]; intros l Hl;
    rewrite (mfrob_eq (struct_loop _ _ _ _ _)); cbn [mfrob struct_loop].
  - apply FM_end. rewrite (finish_all _ _ _ Hl). apply FM_ret.
  - rewrite nth_error_map in Hp. destruct (nth_error fs i) as [f|] eqn:Ef; [|discriminate]. cbn in Hp. injection Hp as <-.
    eapply FM_next; [eapply ident_key; eauto|cbn iota beta; rewrite nth_error_map, Ef, Hg; reflexivity| |apply IH; auto].
    + rewrite Forall_forall in Hf. apply Hf; [eapply nth_error_In; eauto| |exact Hv].
      clear - Hwf Ef. revert i Ef. induction fs as [|g fs IHf]; intros i Ef; [destruct i; discriminate|]. destruct Hwf as [W1 W2].
      destruct i; cbn in Ef; [injection Ef as <-; auto|eauto].
  - eapply FM_next; [eapply unknown_key; eauto|reflexivity|apply ignored_accepts; auto|apply IH; auto].
Qed.

Lemma struct_eats fs l d b w k : Forall (fun f => wf (snd f) -> forall v d, reads (snd f) v d -> accepts (den (snd f)) d v) fs ->
  wf (TStruct fs) -> reads (TStruct fs) (USeq l) d -> loose_text d b -> blank w ->
  eats (fun f => j_deserialize_struct (run f) (mk_visitor (v_struct JDeserializeError
      (tuple_prog JDeserializeError (map (fun f => (den (snd f), default_of (attr_of f))) fs) [])
      (struct_loop JDeserializeError (map name_of fs) (map (fun f => den (snd f)) fs) (map absent_val fs) (map (fun _ => None) fs))))) (USeq l) (w ++ b ++ k) k.
Proof.
  intros Hf [[Hnd _] Hwf] H Hb Hw. assert (W : all_list (fun f => wf (snd f)) fs).
  { clear - Hwf. induction fs as [|f fs IH]; [exact I|]. destruct Hwf as [[W1 _] W2]. split; auto. }
  cbn [reads_as] in H. unfold j_deserialize_struct. destruct H as [(ds & -> & Ld & Ll & Ha & Hd)|(ms & got & -> & Ho & Hl)].
  - destruct (arr_text _ _ Hb) as (b' & Eb & _). rewrite Eb. cbn [app]. apply eats_ws; auto. cbn [Z.eqb Pos.eqb].
    change (91 :: (b' ++ [93]) ++ k) with ([] ++ (91 :: b' ++ [93]) ++ k). rewrite <- Eb.
    apply (seq_eats ar fl any_f32 dec _ ds); [|auto|constructor]. cbn. apply (fields_feeds fs Hf W l ds []); auto.
  - destruct (obj_text _ _ Hb) as (b' & Eb & _). rewrite Eb. cbn [app]. apply eats_ws; auto. cbn [Z.eqb Pos.eqb].
    change (123 :: (b' ++ [125]) ++ k) with ([] ++ (123 :: b' ++ [125]) ++ k). rewrite <- Eb.
    apply (map_eats ar fl any_f32 dec _ ms); [|auto|constructor]. cbn. eapply struct_feeds; eauto.
Qed.

Lemma reads_all2 t : (wf t -> forall v d, reads t v d -> accepts (den t) d v) -> wf t -> forall l ds, Forall2 (reads t) l ds ->
  Forall2 (fun v d => accepts (den t) d v) l ds.
Proof. intros H W l ds. induction 1; constructor; auto. Qed.

Theorem typed_accepts t : wf t -> forall v d, reads t v d -> accepts (den t) d v.
Proof.
  induction t as [|k| | | | | | | |t IH|t IH|t IH|ts IH|ts IH|kt vt IHk IHv|fs IH|vs IH] using ty_ind'; intros Hwf v d H; cbn [reads_as] in H;
    try (match type of H with match v with _ => _ end => destruct v; try contradiction end);
    cbn [denote request]; apply (proj1 (accepts_req ar fl any_f32 dec _ _ _ _)); intros tx w r Hb Hw Hr; cbn [js_method].
  - subst d. eapply bool_eats; eauto.
  - destruct H as (tok & -> & L). inversion Hb; subst. eapply int_eats; eauto.
    + eapply extend_digit; eauto.
    + cbn. rewrite (proj2 (in_ikindb_spec _ _) (proj1 L)). reflexivity.
  - destruct H as [(tok & -> & E)|[-> ->]]; inversion Hb; subst; (eapply eats_view; [apply view_m_f32|]; intros _; unfold p_m_f32).
    + rewrite (p_float_num _ _ bits w r) by auto. reflexivity.
    + rewrite p_float_null by auto. reflexivity.
  - destruct H as [(tok & -> & E)|[-> ->]]; inversion Hb; subst; (eapply eats_view; [apply view_m_f64|]; intros _; unfold p_m_f64).
    + rewrite (p_float_num _ _ bits w r) by auto. reflexivity.
    + rewrite p_float_null by auto. reflexivity.
  - destruct H as (raw & -> & L & Hc). inversion Hb; subst. destruct H0 as [-> _]. cbn [app]. rewrite <- app_assoc. eapply char_eats; eauto.
  - destruct H as (raw & -> & L). inversion Hb; subst. destruct H0 as [-> _]. cbn [app]. rewrite <- app_assoc. eapply str_eats; eauto.
  - eapply eats_view; [apply view_m_bytes|]. intros Hfit. unfold p_m_bytes, p_bytes. destruct H as [(raw & -> & L)|(toks & -> & L)].
    + inversion Hb; subst. destruct H0 as [-> _]. cbn [app] in *. rewrite <- app_assoc in *. rewrite p_ws_blank by auto. cbn [Z.eqb Pos.eqb].
      cbn [app]. rewrite (p_bytes_literal ar dec raw b r L); [reflexivity|]. eapply fits_mono; [exact Hfit|]. cbn [length app]. repeat (rewrite app_length; cbn [length app]). lia.
    + destruct (arr_text _ _ Hb) as (b' & -> & Hb'). cbn [app]. rewrite <- app_assoc. rewrite p_ws_blank by auto. cbn [Z.eqb Pos.eqb app].
      rewrite (p_array_lits _ _ _ r L Hb'). reflexivity.
  - subst d. eapply unit_eats; eauto.
  - subst d. eapply unit_eats; eauto.
  - unfold j_deserialize_option.
    subst d. inversion Hb; subst. cbn [app]. apply eats_ws; auto. cbn [Z.eqb Pos.eqb]. apply eats_eat1.
    eapply (eats_bind ar dec (fun _ => parse_token_content tok_ull)); [|apply eats_lift; reflexivity].
    eapply eats_view; [apply view_tok|]. intros _. apply tok_ull_app.
  - unfold j_deserialize_option. destruct H as [H Hn]. destruct (text_head _ _ Hb) as (c & b' & -> & Hs & _ & _ & _ & Hc). cbn [app]. apply eats_ws; auto.
      replace (c =? 110) with false by (destruct (Z.eqb_spec c 110); [exfalso; auto|auto]).
      change (eats (fun f => jr_de (run f) false (then_ (den t) (map_ok USome))) (USome v) ([] ++ (c :: b') ++ r) r).
      destruct (denote_req t) as (m & vis & E). pose proof (IH Hwf v d H) as A. rewrite E in *. cbn [then_].
      apply (accepts_post ar fl any_f32 dec m vis (fun x => map_ok USome x) d v (USome v) A eq_refl); auto. constructor.
  - unfold j_deserialize_newtype_struct.
    change (eats (fun f => jr_de (run f) false (den t)) v (w ++ tx ++ r) r). apply (IH Hwf v d H); auto.
  - destruct H as (ds & -> & H). apply (seq_eats ar fl any_f32 dec _ ds); auto. cbn. apply FS_hint. apply (seq_feeds t l ds (reads_all2 t IH Hwf l ds H) []).
  - destruct H as (ds & -> & H). apply (seq_eats ar fl any_f32 dec _ ds); auto. cbn. apply (tuple_feeds ts IH (proj1 Hwf) l ds [] H).
  - destruct H as (ds & -> & H). apply (seq_eats ar fl any_f32 dec _ ds); auto. cbn. apply (tuple_feeds ts IH (proj1 Hwf) l ds [] H).
  - destruct H as (ms & -> & H). apply (map_eats ar fl any_f32 dec _ ms); auto. cbn. apply FM_hint. apply (map_feeds kt vt l ms) with (acc := []).
    destruct Hwf as [Wk Wv]. clear - H IHv Wk Wv Hkw. induction H as [|[x y] [raw d] l ms [H1 H2] _ IH]; constructor; [|auto].
    split; [apply key_reads; auto|apply IHv; auto].
  - eapply struct_eats; eauto.
  - unfold j_deserialize_enum. rewrite nth_error_map in H. destruct (nth_error vs i) as [[[n kd] ct]|] eqn:E; [|contradiction].
    cbn [option_map name_of attr_of fst snd] in H. pose proof Hwf as [[Hnd _] Hall].
    assert (C : kd = KUnit \/ (kd <> KUnit /\ exists raw d', d = JObj [(raw, d')] /\ literal raw n /\ reads ct v d')).
    { destruct kd; [left; auto|right..]; (split; [discriminate|exact H]). }
    destruct C as [-> |(Nk & raw & d' & -> & L & Hd')].
    + destruct H as (-> & raw & -> & L). inversion Hb; subst. destruct H0 as [-> _]. cbn [app]. rewrite <- app_assoc.
      apply eats_ws; auto. cbn [Z.eqb Pos.eqb]. apply (unit_variant_eats vs i n raw ct) with (w := []); auto. constructor.
    + clear H. destruct (obj_text _ _ Hb) as (b1 & -> & Hb1). cbn [app]. rewrite <- app_assoc. apply eats_ws; auto. cbn [Z.eqb Pos.eqb app]. apply eats_eat1.
      destruct (obj_cons _ _ _ _ _ Hb1) as (w0 & w1 & w2 & w3 & t & b2 & -> & _ & H1 & H2 & H3 & Ht & Hb2).
      assert (A : accepts (den ct) d' v /\ kind_ok kd ct).
      { rewrite Forall_forall in IH. assert (W : wf ct /\ kind_ok kd ct).
        { clear - Hall E. revert i E. induction vs as [|g vs IHf]; intros i E; [destruct i; discriminate|]. destruct Hall as [W1 W2].
          destruct i; cbn in E; [injection E as ->; auto|eauto]. }
        split; [|apply W]. apply (IH (n, kd, ct)); [eapply nth_error_In; eauto|apply W|exact Hd']. }
      destruct A as [A Hkind].
      apply (eats_bind ar dec (fun f => jr_enum (run f) false _) (fun _ value => c <-- eat_whitespace ;; if c =? 125 then _ <-- j_eat_some 1 ;; dret value else dfail JExpectedEnumObjectEnd)
        (UVar i v) (UVar i v) _ (b2 ++ 125 :: r)).
      2:{ apply eats_ws; auto; [eapply obj_nil; eauto|]. cbn [Z.eqb Pos.eqb]. apply eats_eat1, eats_ret. }
      apply eats_S. cbn [js_run jr_enum j_step_enum mk_visitor visit_enum v_enum on_enum enum_prog].
      eapply eats_try.
      * eapply eats_bind; [|eapply eats_bind; [|apply eats_ret]].
        -- cbn [app]. rewrite <- !app_assoc. cbn [app]. rewrite <- !app_assoc. cbn [app].
           eapply (ident_literal true (map name_of vs) i n); eauto. rewrite nth_error_map, E. reflexivity.
        -- rewrite <- app_assoc. cbn [app]. apply eats_colon. auto.
      * cbn iota beta. rewrite nth_error_map, E. cbn [option_map attr_of fst snd]. rewrite <- !app_assoc.
        assert (Hx : cannot_extend d' (b2 ++ 125 :: r)) by (eapply obj_extends; eauto).
        destruct kd; [congruence| | |].
        -- cbn [j_run_variant]. eapply eats_post; [apply A; auto|reflexivity].
        -- destruct ct; try contradiction. cbn [denote request] in *. cbn [j_run_variant]. eapply eats_post; [|reflexivity].
           apply (proj2 (accepts_req ar fl any_f32 dec DTuple _ d' v) A); auto.
        -- destruct ct; try contradiction. cbn [denote request] in *. cbn [j_run_variant]. eapply eats_post; [|reflexivity].
           apply (proj2 (accepts_req ar fl any_f32 dec DStruct _ d' v) A); auto.
Qed.
End Typed.

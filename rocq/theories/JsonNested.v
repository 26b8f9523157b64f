(** Enums read through a buffer inside other types, in JSON (C76). *)
From Verif Require Import Prelude PreludeFacts Utf8Spec Utf8 Utf8Facts SerdeSer SerdeDe FloatOps Arch MpSpec Base64Spec JsonSpec JsonTypeSpec JsonFacts JsonSer JsonErrMap
  JsonSerFacts JsonDe JsonDeSafe JsonStr JsonView JsonTok JsonMeth JsonEats JsonTyped Types TypesFacts MpTypeSpec MpTyped MpTypedSer JsonTypedTop JsonTypedSer JsonAnySpec JsonAny JsonReadBack
  Content ContentSpec ContentFacts JsonContent MpTagged JsonTagged Nested NestedSpec MpNested JsonCases.
Ltac Zify.zify_post_hook ::= Z.div_mod_to_equations.

(** ** What can be written *)
Section W.
Context (fp : float_printer) (enc : byte_encoder) (He : enc <> PassThroughByteEncoder) (Hp : printer_ok fp) (ok32 ok64 : Z -> Prop).
Local Notation doc := (js_value fp enc).
Local Notation made := (js_made ok32 ok64 (enc = ArrayByteEncoder)).
Lemma nested_strings x : forall v, made x v -> strings_ok (xtrace x v) /\ maps_ok (xtrace x v).
Proof.
  induction x as [t|vs|tag vs|x IH|x IH|xs IH|k x IH|fs IH|x IH|vs IH] using xty_ind'; intros v H; unfold js_made in H; cbn [made_of] in H; fold made in H.
  - apply typed_strings; apply H.
  - destruct H as (i & k & t & u & -> & En & _ & W & _ & H & _). cbn [xtrace untagged_trace]. rewrite En. apply typed_strings; auto.
  - destruct H as (Nv & i & f & u & -> & En & W & _ & _ & H & _). cbn [xtrace]. destruct (tagged_call tag vs i f u En H) as (l & Et & Hl & Hv). rewrite Et.
    apply typed_strings; [exact W|]. split; [|exact Hl]. destruct Nv as (_ & N2 & _). rewrite Forall_forall in N2. apply (N2 (fst f)). apply in_map. eapply nth_error_In; eauto.
  - destruct v; try tauto; cbn [xtrace strings_ok maps_ok]; auto.
  - destruct v; try tauto. destruct H as [H _]. cbn [xtrace strings_ok maps_ok]. induction H as [|a l Ha _ I]; cbn; auto. specialize (IH a Ha). cbn in I. tauto.
  - destruct v; try tauto. destruct H as [H _]. cbn [xtrace strings_ok maps_ok].
    revert l H. induction IH as [|t ts Ht _ I]; intros [|a l] H; cbn in H; try tauto; cbn; auto. destruct H as [H1 H2]. specialize (Ht a H1). specialize (I l H2). tauto.
  - destruct v; try tauto. destruct H as [H _]. cbn [xtrace strings_ok maps_ok]. induction H as [|[a b] l [[W [Ht _]] Hb] _ I]; cbn; auto.
    cbn [fst snd] in *. specialize (IH b Hb). pose proof (typed_strings k W a Ht). cbn in I. tauto.
  - destruct v; try tauto. destruct H as [(_ & Hn & _) H]. cbn [xtrace]. unfold struct_call. cbn [strings_ok maps_ok].
    revert l H. induction IH as [|f fs Hf _ I]; intros [|a l] H; cbn in H; try tauto; cbn; auto.
    destruct H as [H1 H2]. cbn in Hn. inversion Hn as [|? ? [N1 _] N2]; subst. specialize (I N2 l H2). specialize (Hf a H1). tauto.
  - apply (IH v H).
  - destruct v as [| | | | | | | | | | | |i v|]; try tauto. destruct H as [(_ & Hn & _) H]. cbn [xtrace]. rewrite nth_error_map in *.
    destruct (nth_error vs i) as [[nm o]|] eqn:Ei; [|cbn in H; tauto]. cbn [option_map snd fst] in *. pose proof (nth_error_In _ _ Ei) as Hi.
    rewrite Forall_forall in Hn. destruct (Hn nm (in_map fst _ _ Hi)) as [U _].
    destruct o as [x|]; cbn [option_map strings_ok maps_ok] in *; auto. rewrite Forall_forall in IH. specialize (IH _ Hi v H). cbn in IH. tauto.
Qed.

Lemma nested_writes x : xgood_keys x -> forall v, made x v -> exists j, doc (xtrace x v) = Some j.
Proof.
  induction x as [t|vs|tag vs|x IH|x IH|xs IH|k x IH|fs IH|x IH|vs IH] using xty_ind'; intros G v H; unfold js_made in H; cbn [made_of] in H; fold made in H; cbn [xgood_keys] in G.
  - apply typed_writes; auto; apply H.
  - destruct H as (i & k & t & u & -> & En & _ & W & _ & H & _). cbn [xtrace untagged_trace]. rewrite En. apply typed_writes; auto. apply (all_list_In' _ _ G _ (nth_error_In _ _ En)).
  - destruct H as (Nv & i & f & u & -> & En & W & _ & _ & H & _). cbn [xtrace]. destruct (tagged_call tag vs i f u En H) as (l & Et & Hl & Hv). rewrite Et.
    apply typed_writes; [exact He|exact W| |].
    + split; [exact I|]. apply (all_list_In' _ _ G _ (nth_error_In _ _ En)).
    + split; [|exact Hl]. destruct Nv as (_ & N2 & _). rewrite Forall_forall in N2. apply (N2 (fst f)). apply in_map. eapply nth_error_In; eauto.
  - destruct v; try tauto; [eexists; reflexivity|]. apply (IH G v H).
  - destruct v; try tauto. destruct H as [H _]. cbn [xtrace]. assert (X : exists js, doc_list doc (map (xtrace x) l) = Some js).
    { induction H as [|v l Hv _ (js & I0)]; cbn; eauto. destruct (IH G v Hv) as (j & E). rewrite E, I0. cbn. eauto. }
    destruct X as (js & X). cbn. rewrite X. cbn. eauto.
  - destruct v; try tauto. destruct H as [H _]. cbn [xtrace]. assert (X : exists js, doc_list doc (zip (fun f v => f v) (map xtrace xs) l) = Some js).
    { revert l H. induction IH as [|y ys Hy _ I0]; intros [|v l] H; cbn in H; try tauto; cbn; eauto. destruct G as [G1 G2], H as [H1 H2].
      destruct (Hy G1 v H1) as (j & Ej), (I0 G2 l H2) as (js & Ejs). rewrite Ej, Ejs. cbn. eauto. }
    destruct X as (js & X). cbn. rewrite X. cbn. eauto.
  - destruct v; try tauto. destruct H as [H _], G as [G1 G2]. cbn [xtrace].
    assert (X : exists js, doc_entries doc (flat_map (fun e => [(true, trace k (fst e)); (false, xtrace x (snd e))]) l) = Some js).
    { induction H as [|[a b] l [[W [Ht _]] Hb] _ (js & I0)]; cbn; eauto. destruct (IH G2 b Hb) as (j & E), (good_key k a G1 Ht) as (raw & R).
      rewrite R, E, I0. cbn. eauto. }
    destruct X as (js & X). cbn. rewrite X. cbn. eauto.
  - destruct v; try tauto. destruct H as [_ H]. cbn [xtrace]. unfold struct_call. cbn.
    assert (X : exists js, doc_fields doc (zip (fun f v => f v) (map (fun f v => (fst f, Some (xtrace (snd f) v))) fs) l) = Some js).
    { revert l H. induction IH as [|f fs Hf _ I0]; intros [|v l] H; cbn in *; try tauto; eauto. destruct G as [G1 G2], H as [H1 H2].
      destruct (I0 G2 l H2) as (js & Ejs), (Hf G1 v H1) as (j & Ej). rewrite Ej, Ejs. cbn. eauto. }
    destruct X as (js & X). rewrite X. cbn. eauto.
  - apply (IH G v H).
  - destruct v as [| | | | | | | | | | | |i v|]; try tauto. destruct H as [_ H]. cbn [xtrace]. rewrite nth_error_map in *.
    destruct (nth_error vs i) as [[nm o]|] eqn:Ei; [|cbn in H; tauto]. cbn [option_map snd fst] in *. pose proof (nth_error_In _ _ Ei) as Hi.
    destruct o as [x|]; cbn [option_map] in *; [|eexists; reflexivity]. rewrite Forall_forall in IH.
    destruct (IH _ Hi (all_list_In' _ _ G _ Hi) v H) as (j & E). unfold js_value in *. cbn [js_doc]. rewrite E. cbn. eauto.
Qed.
Theorem js_nested_writable x v : xgood_keys x -> made x v -> exists out, js_to_string fp enc (xtrace x v) = Ok out.
Proof.
  intros G H. destruct (nested_writes x G v H) as (j & E), (nested_strings x v H) as [S M].
  pose proof (to_string_canon fp enc (xtrace x v) He Hp S M) as C. rewrite E in C. destruct C as (out & C & _). eauto.
Qed.
End W.

Section N.
Context (ar : arch) (fl : float_parser) (fp : float_printer) (fo : float_ops) (any_f32 : bool) (enc : byte_encoder) (dec : byte_decoder).
Context (L32 : inverse32 fp fl) (L64 : inverse64 fp fl) (Hm : matching enc dec) (Hp : printer_ok fp).
Local Notation float_of := (if any_f32 then f32_from_str fl else f64_from_str fl).
Local Notation prog := (xdenote fo JDeserializeError).
Local Notation doc := (js_value fp enc).
Local Notation accepts := (accepts ar fl any_f32 dec).
Local Notation feedm := (feedm ar fl any_f32 dec).
Local Notation feeds := (feeds ar fl any_f32 dec).
Local Notation ok32 := (good32 fo any_f32 float_of fp).
Local Notation ok64 := (good64 fo any_f32 float_of fp).
Local Notation made := (js_made ok32 ok64 (enc = ArrayByteEncoder)).
Local Notation keyed := (map (fun m : bytes * jv => (esc_text (fst m), tok_doc (snd m)))).

Lemma jxreq x : exists m v post, prog x = DReq m v post.
Proof.
  destruct x; cbn [xdenote]; unfold untagged, tagged, buffered, request; try rewrite (any_eq); cbn [then_]; eauto.
  destruct (JsonTyped.denote_req t) as (m & v & ->). eauto.
Qed.
Lemma accepts_then (p : deser val js_de_error) g d u u' : (exists m v post, p = DReq m v post) -> accepts p d u -> g (Ok u) = Ok u' -> accepts (then_ p g) d u'.
Proof.
  intros (m & v & post & ->) A G b w k Hb Hw Hk. specialize (A b w k Hb Hw Hk). apply eats_up in A. apply eats_S. cbn [then_ js_run jr_de j_step_de] in A |- *.
  destruct A as [N A]. exists N. intros f Hf s Is U. destruct (A f Hf s Is U) as (s' & E & R). exists s'. split; [|exact R].
  unfold dpost, dtry, dlift in *. destruct (js_method _ _ _ _ _ _ _ s) as [s2 r| |]; try discriminate. injection E as -> E. rewrite E, G. reflexivity.
Qed.

(** ** Enums read through a buffer *)
Lemma buffered_accepts f tree w j v : strings_ok tree -> maps_ok tree -> doc tree = Some j -> value_as any_f32 float_of w j -> f w = Some v ->
  accepts (buffered JDeserializeError f) (tok_doc j) v.
Proof.
  intros S M D V F. pose proof (to_string_canon fp enc tree (matching_pass enc dec Hm) Hp S M) as C. rewrite D in C. destruct C as (out & _ & T).
  unfold buffered. eapply accepts_then; [rewrite any_eq; eauto| |cbn beta iota; rewrite F; reflexivity].
  apply any_accepts. pose proof (proj1 (value_any any_f32 float_of) j out T w V) as A. destruct any_f32; exact A.
Qed.
Lemma value_of tree j : strings_ok tree -> all_floats ok32 ok64 tree -> doc tree = Some j -> exists w, value_as any_f32 float_of w j.
Proof.
  intros S F D. eapply doc_good; eauto. revert F. apply all_floats_mono; intros b [_ (w & Nw & _)] _; exists w; exact Nw.
Qed.
Lemma null_doc t : forall v j, hastype t v -> doc (trace t v) = Some j -> (json_null t v = true <-> j = JNull).
Proof.
  induction t as [ |k| | | | | | | |t IH|t IH|t IH|ts IH|ts IH|kt vt IHk IHv|fs IH|vs IH] using ty_ind'; intros v j H E.
  11:{ exact (IH v j H E). }
  all: destruct v; cbn [hastype] in H; try tauto; cbn [trace] in E.
  all: try (injection E as <-; cbn; split; (discriminate || tauto)).
  - injection E as <-. cbn [json_null]. unfold f32_num. destruct (_ =? _); cbn; split; (discriminate || tauto).
  - injection E as <-. cbn [json_null]. unfold f64_num. destruct (_ =? _); cbn; split; (discriminate || tauto).
  - cbn in E. destruct enc; cbn in E; try discriminate; injection E as <-; cbn; split; discriminate.
  - cbn [json_null]. apply (IH v j H E).
  - cbn in E. destruct (doc_list _ _); [|discriminate]. injection E as <-. cbn; split; discriminate.
  - cbn in E. destruct (doc_list _ _); [|discriminate]. injection E as <-. cbn; split; discriminate.
  - cbn in E. destruct (doc_list _ _); [|discriminate]. injection E as <-. cbn; split; discriminate.
  - cbn in E. destruct (doc_entries _ _); [|discriminate]. injection E as <-. cbn; split; discriminate.
  - cbn in E. destruct (doc_fields _ _); [|discriminate]. injection E as <-. cbn; split; discriminate.
  - rewrite nth_error_map in *. destruct (nth_error vs i) as [[[n kd] ct]|] eqn:En; cbn [option_map] in *; [|tauto].
    cbn [name_of attr_of fst snd] in *. cbn [json_null]. unfold variant_call in E. split; [discriminate|]. intros ->. exfalso. destruct kd; cbn in E.
    + discriminate.
    + destruct (doc (trace ct v)); discriminate.
    + destruct (trace ct v); cbn in E; try discriminate; repeat match type of E with option_map _ ?y = _ => destruct y; try discriminate | match ?y with _ => _ end = _ => destruct y; try discriminate end.
    + destruct (trace ct v); cbn in E; try discriminate; repeat match type of E with option_map _ ?y = _ => destruct y; try discriminate | match ?y with _ => _ end = _ => destruct y; try discriminate end.
Qed.

Definition comes (x : xty) (v : val) (j : jv) : Prop := accepts (prog x) (tok_doc j) (js_image x v) /\ (xnull json_null x v = true <-> j = JNull).

Lemma ordinary_comes t v j : js_ordinary t v -> doc (trace t v) = Some j -> comes (XTy t) v j.
Proof.
  intros (W & H & K) E. destruct (typed_doc fp fl enc dec L32 L64 Hm t W K v j H E) as [S N]. split; [|exact N].
  apply (JsonTyped.typed_accepts ar fl any_f32 dec no_ws); auto. intros w ->. constructor.
Qed.
Lemma untagged_comes vs v j : js_untagged_ok ok32 ok64 (enc = ArrayByteEncoder) vs v -> doc (untagged_trace vs v) = Some j -> comes (XUntagged vs) v j.
Proof.
  intros (i & k & t & u & -> & En & K & W & S & H & T & F & Ap) D. cbn [untagged_trace] in D. rewrite En in D. cbn [snd] in D.
  unfold comes. cbn [xnull xdenote]. rewrite En. split; [|apply null_doc; auto]. unfold js_image. cbn [ximage]. destruct (typed_strings t W u H) as [St M].
  destruct (value_of _ _ St F D) as [w V]. destruct (jcontent_back fo any_f32 float_of fp enc t W S T u j w H F D V) as (B & sh & Sh & In_).
  assert (Vr : untagged_variant fo (k, t) w = Some u).
  { unfold untagged_variant. cbn [fst snd]. destruct k; auto.
    - destruct t; cbn in K; try contradiction. destruct u; cbn in H; try contradiction. cbn in D. injection D as <-. inversion V; subst. reflexivity.
    - destruct t; cbn in K; try contradiction. destruct In_ as [Q|[]]. subst sh. destruct w; try discriminate. exact B. }
  assert (Pk : untagged_pick fo (firstn i vs ++ (k, t) :: skipn (Datatypes.S i) vs) 0 w = Some (UVar (0 + length (firstn i vs)) u)) by (eapply pick_first; eauto).
  rewrite <- (vs_split vs i (k, t) En) in Pk. assert (Li : (i < length vs)%nat) by (apply nth_error_Some; congruence). rewrite firstn_length_le in Pk by lia.
  unfold untagged. eapply buffered_accepts; eauto.
Qed.
Lemma tagged_js_comes tag vs v j : js_tagged_ok ok32 ok64 (enc = ArrayByteEncoder) tag vs v -> doc (tagged_trace tag vs v) = Some j ->
  comes (XTagged tag vs) v j /\ strings_ok (tagged_trace tag vs v) /\ maps_ok (tagged_trace tag vs v).
Proof.
  intros (Nv & i & f & u & -> & En & W & S & T & H & F) D. destruct (tagged_call tag vs i f u En H) as (l & Et & Hl & Hv). rewrite Et in D, F |- *.
  assert (Hn : hastype TStr (UStr (fst f))).
  { destruct Nv as (_ & N2 & _). rewrite Forall_forall in N2. apply (N2 (fst f)). apply in_map. eapply nth_error_In; eauto. }
  assert (Hw : hastype (with_tag tag (variant_fields f)) (USeq (UStr (fst f) :: l))) by (split; [exact Hn|exact Hl]).
  destruct (typed_strings _ W _ Hw) as [St M]. split; [|auto]. destruct (value_of _ _ St F D) as [w V]. pose proof D as D0.
  set (fs := variant_fields f) in *.
  assert (Dt : exists js, js_value fp enc (trace (TStruct fs) (USeq l)) = Some (JObj js) /\ j = JObj ((tag, JStr (fst f)) :: js) /\ Forall (fun m => In (fst m) (map name_of fs)) js).
  { unfold js_value in *. cbn [trace struct_call js_doc map zip name_of attr_of fst snd skipped] in D |- *. rewrite zip_map in D |- *. fold item in D |- *. cbn [doc_fields] in D.
    cbn [js_doc omap2] in D. match type of D with context [doc_fields ?g ?y] => fold (doc_fields g y) in D; destruct (doc_fields g y) as [js|] eqn:Ej; [|discriminate] end.
    cbn in D. injection D as <-. exists js. split; [reflexivity|]. split; [reflexivity|]. eapply field_keys. exact Ej. }
  destruct Dt as (js & Dj & -> & Kj). split; [|cbn; split; discriminate]. unfold js_image. cbn [ximage xdenote]. unfold tagged. eapply (buffered_accepts _ _ w); eauto.
  clear D D0. inversion V as [| | | | |ws ? F2]; subst. inversion F2 as [|[k x] ? ws' ? [K V1] F3]; subst. cbn [fst snd] in K, V1. subst k. inversion V1; subst.
  assert (Fl : all_floats ok32 ok64 (trace (TStruct fs) (USeq l))) by (destruct F as [_ F]; exact F).
  assert (Ws : wf (TStruct fs)).
  { destruct W as [(N1 & N2 & N3) [_ W]]. split; [|exact W]. cbn [map] in *. inversion N1; inversion N2; subst. repeat split; auto. unfold short, zlen in *. cbn in N3. lia. }
  assert (B : from_content fo (TStruct fs) (UMap ws') = Some (USeq l)).
  { refine (proj1 (jcontent_back fo any_f32 float_of fp enc (TStruct fs) Ws S T (USeq l) (JObj js) (UMap ws') Hl Fl Dj _)). constructor. exact F3. }
  assert (Kw : Forall (fun e => exists nm, fst e = UStr nm /\ In nm (map name_of fs)) ws').
  { clear -F3 Kj. induction F3 as [|e m ws js [E _] _ IH]; constructor; inversion Kj; subst; eauto. }
  cbn [tagged_pick]. rewrite (split_tag tag (UStr (fst f)) ws' (map name_of fs)); auto.
  2:{ destruct W as [(N1 & _) _]. inversion N1; auto. }
  cbn [snd]. destruct f as [n [fs0|]]; cbn [fst snd variant_fields] in *.
  - rewrite (by_tag_struct fo vs i n fs0 _ l (proj1 Nv) En B). reflexivity.
  - rewrite (by_tag_unit fo vs i n _ (proj1 Nv) En); eauto.
Qed.

(** ** Structs *)
Definition jxfield (f : bytes * xty) (v : val) : Prop := forall j, doc (xtrace (snd f) v) = Some j -> accepts (prog (snd f)) (tok_doc j) (js_image (snd f) v).
Lemma xstruct_feeds fs : names_ok (map fst fs) -> forall fs2 fs1 l g1 js, fs = fs1 ++ fs2 -> length g1 = length fs1 ->
  all2 jxfield fs2 l -> doc_fields doc (zip xitem fs2 l) = Some js ->
  feedm (struct_loop JDeserializeError (map fst fs) (map (fun f => prog (snd f)) fs) (map (fun f => xabsent (snd f)) fs) (map Some g1 ++ map (fun _ => None) fs2)) (keyed js)
    (USeq (g1 ++ zip (fun f v => js_image (snd f) v) fs2 l)).
Proof.
  intros Hn. induction fs2 as [|f fs2 IH]; intros fs1 [|v l] g1 js Hfs Hg H E; cbn [all2] in H; try tauto;
    rewrite (mfrob_eq (struct_loop _ _ _ _ _)); cbn [mfrob struct_loop].
  - cbn in E. injection E as <-. cbn [map zip]. apply FM_end. rewrite !app_nil_r, finish_some; [apply FM_ret|]. rewrite map_length, Hfs, app_nil_r. auto.
  - destruct H as [Hf H]. cbn [zip map] in *. unfold xitem at 1 in E. cbn [doc_fields] in E.
    destruct (doc (xtrace (snd f) v)) as [j|] eqn:Ej; [|discriminate]. cbn in E.
    destruct (doc_fields doc (zip xitem fs2 l)) as [js'|] eqn:Ejs; [|discriminate]. injection E as <-. cbn [map fst snd].
    assert (Lg : length (map (@Some val) g1) = length fs1) by (rewrite map_length; auto).
    eapply FM_next; [eapply (ident_key ar fl any_f32 dec false (map fst fs) (length fs1) (fst f)); [apply Hn| |]| | |].
    + rewrite nth_error_map, Hfs, nth_error_mid. reflexivity.
    + apply esc_literal. destruct Hn as (_ & Hn & _). rewrite Forall_forall in Hn. apply (Hn (fst f)).
      apply in_map. rewrite Hfs. apply in_or_app. right. left. auto.
    + cbn iota beta. rewrite nth_error_map, Hfs, nth_error_mid. cbn [option_map]. rewrite <- Lg, nth_error_mid. reflexivity.
    + apply (Hf j Ej).
    + cbn iota beta. rewrite Lg, <- Hfs. rewrite <- Lg, set_nth_app. specialize (IH (fs1 ++ [f]) l (g1 ++ [js_image (snd f) v]) js').
      rewrite map_app in IH. cbn [map] in IH. rewrite <- !app_assoc in IH. rewrite <- !app_assoc. cbn [app] in IH |- *. apply IH; auto. rewrite !app_length. cbn. lia.
Qed.

(** ** Enums with names outside *)
Lemma xenum_accepts vs i v d : NoDup (map fst vs) ->
  match nth_error vs i with
  | Some (n, None) => v = UUnit /\ exists raw, d = JStr raw /\ literal raw n
  | Some (n, Some x) => exists raw d', d = JObj [(raw, d')] /\ literal raw n /\ accepts (prog x) d' v
  | None => False
  end -> accepts (prog (XEnum vs)) d (UVar i v).
Proof.
  intros Hn H. destruct (nth_error vs i) as [[nm o]|] eqn:Ei; [|tauto].
  assert (Hk : nth_error (map (fun f => (xkind f, match snd f with Some x => prog x | None => denote JDeserializeError TUnit end)) vs) i =
    Some (xkind (nm, o), match o with Some x => prog x | None => denote JDeserializeError TUnit end)) by (rewrite nth_error_map, Ei; reflexivity).
  assert (Hnm : nth_error (map fst vs) i = Some nm) by (rewrite nth_error_map, Ei; reflexivity).
  cbn [xdenote]. apply (proj1 (accepts_req ar fl any_f32 dec _ _ _ _)). intros tx w r Hb Hw Hr; cbn [js_method]. unfold j_deserialize_enum.
  destruct o as [x|]; cbn [xkind snd] in Hk.
  - destruct H as (raw & d' & -> & L & A). destruct (obj_text _ _ Hb) as (b1 & -> & Hb1). cbn [app]. rewrite <- app_assoc. apply eats_ws; auto. cbn [Z.eqb Pos.eqb app]. apply eats_eat1.
    destruct (obj_cons _ _ _ _ _ Hb1) as (w0 & w1 & w2 & w3 & t & b2 & -> & _ & H1 & H2 & H3 & Ht & Hb2).
    apply (eats_bind ar dec (fun f => jr_enum (js_run ar fl any_f32 dec f) false _) (fun _ value => c <-- eat_whitespace ;; if c =? 125 then _ <-- j_eat_some 1 ;; dret value else dfail JExpectedEnumObjectEnd)
      (UVar i v) (UVar i v) _ (b2 ++ 125 :: r)).
    2:{ apply eats_ws; auto; [eapply obj_nil; eauto|]. cbn [Z.eqb Pos.eqb]. apply eats_eat1, eats_ret. }
    apply eats_S. cbn [js_run jr_enum j_step_enum mk_visitor visit_enum v_enum on_enum enum_prog].
    eapply eats_try.
    + eapply eats_bind; [|eapply eats_bind; [|apply eats_ret]].
      * cbn [app]. rewrite <- !app_assoc. cbn [app]. rewrite <- !app_assoc. cbn [app].
        eapply (ident_literal ar fl any_f32 dec true (map fst vs) i nm); eauto.
      * rewrite <- app_assoc. cbn [app]. apply eats_colon. auto.
    + cbn iota beta. rewrite Hk. rewrite <- !app_assoc.
      assert (Hx : cannot_extend d' (b2 ++ 125 :: r)) by (eapply obj_extends; eauto).
      cbn [j_run_variant]. eapply eats_post; [apply A; auto|reflexivity].
  - destruct H as (-> & raw & -> & L). inversion Hb as [| | | |? ? Hs| | | | ]; subst. destruct Hs as [-> _]. cbn [app]. rewrite <- app_assoc.
    apply eats_ws; auto. cbn [Z.eqb Pos.eqb]. apply eats_S. cbn [js_run jr_enum j_step_enum mk_visitor visit_enum v_enum on_enum enum_prog].
    eapply eats_try.
    + eapply eats_bind; [eapply (ident_literal ar fl any_f32 dec true (map fst vs) i nm raw) with (w := []); eauto; constructor|].
      eapply eats_bind; [apply eats_ret|apply eats_ret].
    + cbn iota beta. rewrite Hk. cbn [j_run_variant]. apply eats_lift. reflexivity.
Qed.
Lemma xnewtype_accepts x v d : accepts (prog x) d v -> accepts (prog (XNewtype x)) d v.
Proof.
  intros A. cbn [xdenote]. apply (proj1 (accepts_req ar fl any_f32 dec _ _ _ _)). intros tx w r Hb Hw Hr; cbn [js_method]. unfold j_deserialize_newtype_struct.
  change (eats ar dec (fun f => jr_de (js_run ar fl any_f32 dec f) false (prog x)) v (w ++ tx ++ r) r). apply A; auto.
Qed.

(** ** Everything *)
Lemma list_feeds x l js : Forall (fun v => forall j, doc (xtrace x v) = Some j -> comes x v j) l -> doc_list doc (map (xtrace x) l) = Some js ->
  forall acc, feeds (seq_loop (prog x) acc) (map tok_doc js) (USeq (rev acc ++ map (js_image x) l)).
Proof.
  intros H. revert js. induction H as [|v l Hv _ IH]; intros js E acc; rewrite (sfrob_eq (seq_loop _ _)); cbn [sfrob seq_loop]; cbn in E.
  - injection E as <-. apply FS_end. cbn [map]. rewrite app_nil_r. apply FS_ret.
  - destruct (doc (xtrace x v)) as [j|] eqn:Ej; [|discriminate]. cbn in E. fold (doc_list doc (map (xtrace x) l)) in E.
    destruct (doc_list _ _) as [js'|] eqn:Ejs; [|discriminate]. injection E as <-. cbn [map]. eapply FS_next; [exact (proj1 (Hv j eq_refl))|].
    specialize (IH js' eq_refl (js_image x v :: acc)). cbn [rev] in IH. rewrite <- app_assoc in IH. exact IH.
Qed.
Lemma tuple_xfeeds xs : forall l js acc, all2 (fun x v => forall j, doc (xtrace x v) = Some j -> comes x v j) xs l ->
  doc_list doc (zip (fun f v => f v) (map xtrace xs) l) = Some js ->
  feeds (tuple_prog JDeserializeError (map (fun x => (prog x, None)) xs) acc) (map tok_doc js) (USeq (rev acc ++ zip (fun f v => f v) (map js_image xs) l)).
Proof.
  induction xs as [|x xs IH]; intros [|v l] js acc H E; cbn in H; try tauto; cbn [map zip doc_list] in E.
  - injection E as <-. cbn. rewrite app_nil_r. apply FS_ret.
  - destruct H as [H1 H2]. destruct (doc (xtrace x v)) as [j|] eqn:Ej; [|discriminate]. cbn in E. destruct (doc_list _ _) as [js'|] eqn:Ejs; [|discriminate].
    injection E as <-. cbn [map tuple_prog]. eapply FS_next; [exact (proj1 (H1 j eq_refl))|]. cbn iota beta.
    specialize (IH l js' (js_image x v :: acc) H2 Ejs). cbn [rev] in IH. rewrite <- app_assoc in IH. exact IH.
Qed.
Lemma map_xfeeds k x l js : Forall (fun e => js_key k (fst e) /\ forall j, doc (xtrace x (snd e)) = Some j -> comes x (snd e) j) l ->
  doc_entries doc (flat_map (fun e => [(true, trace k (fst e)); (false, xtrace x (snd e))]) l) = Some js ->
  forall acc, feedm (map_loop (denote JDeserializeError k) (prog x) acc) (keyed js) (UMap (rev acc ++ map (fun e => (fst e, js_image x (snd e))) l)).
Proof.
  intros H. revert js. induction H as [|[a b] l [Hk Hv] _ IH]; intros js E acc; rewrite (mfrob_eq (map_loop _ _ _)); cbn [mfrob map_loop]; cbn in E.
  - injection E as <-. apply FM_end. cbn [map]. rewrite app_nil_r. apply FM_ret.
  - cbn [fst snd] in *. destruct (key_doc (trace k a)) as [raw|] eqn:Er; [|discriminate]. destruct (doc (xtrace x b)) as [j|] eqn:Ej; [|discriminate]. cbn in E.
    destruct (doc_entries _ _) as [js'|] eqn:Ejs; [|discriminate]. injection E as <-. cbn [map fst snd]. destruct Hk as (W & T & Nk).
    eapply FM_next; [apply (key_reads ar fl any_f32 dec no_ws); [intros w ->; constructor|exact W|apply key_reads_back; eauto]|reflexivity|exact (proj1 (Hv j eq_refl))|].
    cbn iota beta. specialize (IH js' eq_refl ((a, js_image x b) :: acc)). cbn [rev] in IH. rewrite <- app_assoc in IH. exact IH.
Qed.

Theorem nested_comes x : forall v j, made x v -> doc (xtrace x v) = Some j -> comes x v j.
Proof.
  induction x as [t|vs|tag vs|x IH|x IH|xs IH|k x IH|fs IH|x IH|vs IH] using xty_ind'; intros v j H E; unfold js_made in H; cbn [made_of] in H; fold made in H.
  - apply ordinary_comes; auto.
  - apply untagged_comes; auto.
  - apply tagged_js_comes; auto.
  - destruct v; try tauto; cbn [xtrace] in E.
    + injection E as <-. split; [|cbn; tauto]. unfold js_image. cbn [ximage xdenote tok_doc]. apply (proj1 (accepts_req ar fl any_f32 dec _ _ _ _)). intros tx w r Hb Hw Hr; cbn [js_method].
      unfold j_deserialize_option. inversion Hb; subst. cbn [app]. apply eats_ws; auto. cbn [Z.eqb Pos.eqb]. apply eats_eat1.
      eapply (eats_bind ar dec (fun _ => parse_token_content tok_ull)); [|apply eats_lift; reflexivity].
      eapply eats_view; [apply view_tok|]. intros _. apply tok_ull_app.
    + specialize (IH v j H E). destruct IH as [A N]. unfold comes, js_image. cbn [xnull ximage]. fold js_image. split; [|exact N].
      destruct (xnull json_null x v) eqn:En.
      * rewrite (proj1 N eq_refl). cbn [xdenote tok_doc]. apply (proj1 (accepts_req ar fl any_f32 dec _ _ _ _)). intros tx w r Hb Hw Hr; cbn [js_method].
        unfold j_deserialize_option. inversion Hb; subst. cbn [app]. apply eats_ws; auto. cbn [Z.eqb Pos.eqb]. apply eats_eat1.
        eapply (eats_bind ar dec (fun _ => parse_token_content tok_ull)); [|apply eats_lift; reflexivity].
        eapply eats_view; [apply view_tok|]. intros _. apply tok_ull_app.
      * assert (Nj : tok_doc j <> JNull) by (intros Q; destruct j; try discriminate; destruct N as [_ N]; discriminate (N eq_refl)).
        cbn [xdenote]. apply (proj1 (accepts_req ar fl any_f32 dec _ _ _ _)). intros tx w r Hb Hw Hr; cbn [js_method].
        unfold j_deserialize_option. destruct (text_head _ _ Hb) as (c & b' & -> & Hs & _ & _ & _ & Hcn). cbn [app]. apply eats_ws; auto.
        replace (c =? 110) with false by (destruct (Z.eqb_spec c 110); [exfalso; auto|auto]).
        change (eats ar dec (fun f => jr_de (js_run ar fl any_f32 dec f) false (then_ (prog x) (map_ok USome))) (USome (js_image x v)) ([] ++ (c :: b') ++ r) r).
        apply (accepts_then (prog x) (map_ok USome) _ _ _ (jxreq x) A eq_refl); auto. constructor.
  - destruct v; try tauto. destruct H as [H _]. cbn in E. destruct (doc_list _ _) as [js|] eqn:Ejs; [|discriminate]. injection E as <-.
    split; [|cbn; split; discriminate]. unfold js_image. cbn [ximage xdenote tok_doc]. fold js_image. apply (proj1 (accepts_req ar fl any_f32 dec _ _ _ _)). intros tx w r Hb Hw Hr; cbn [js_method].
    apply (seq_eats ar fl any_f32 dec _ (map tok_doc js)); auto. cbn. apply FS_hint. apply (list_feeds x l js) with (acc := []); auto.
    eapply Forall_impl; [|exact H]. cbn. intros a Ha j Ej. apply IH; auto.
  - destruct v; try tauto. destruct H as [H _]. cbn in E. destruct (doc_list _ _) as [js|] eqn:Ejs; [|discriminate]. injection E as <-.
    split; [|cbn; split; discriminate]. unfold js_image. cbn [ximage xdenote tok_doc]. fold js_image. apply (proj1 (accepts_req ar fl any_f32 dec _ _ _ _)). intros tx w r Hb Hw Hr; cbn [js_method].
    apply (seq_eats ar fl any_f32 dec _ (map tok_doc js)); auto. cbn. apply (tuple_xfeeds xs l js []); auto.
    clear -IH H. revert l H. induction IH as [|y ys Hy _ I]; intros [|v l] H; cbn in H |- *; try tauto. destruct H as [H1 H2]. split; [|apply I, H2].
    intros j Ej. apply Hy; auto.
  - destruct v; try tauto. destruct H as [H _]. cbn in E. destruct (doc_entries _ _) as [js|] eqn:Ejs; [|discriminate]. injection E as <-.
    split; [|cbn; split; discriminate]. unfold js_image. cbn [ximage xdenote tok_doc]. fold js_image. apply (proj1 (accepts_req ar fl any_f32 dec _ _ _ _)). intros tx w r Hb Hw Hr; cbn [js_method].
    apply (map_eats ar fl any_f32 dec _ (keyed js)); auto. cbn. apply FM_hint. apply (map_xfeeds k x l js) with (acc := []); auto.
    eapply Forall_impl; [|exact H]. cbn. intros e [H1 H2]. split; [exact H1|]. intros j Ej. apply IH; auto.
  - destruct v; try tauto. destruct H as [Hn H]. cbn [xtrace] in E. unfold struct_call in E. rewrite zip_map in E. fold xitem in E. cbn in E.
    destruct (doc_fields _ _) as [js|] eqn:Ejs; [|discriminate]. injection E as <-.
    split; [|cbn; split; discriminate]. unfold js_image. cbn [ximage xdenote tok_doc]. fold js_image. rewrite zip_map.
    apply (proj1 (accepts_req ar fl any_f32 dec _ _ _ _)). intros tx w r Hb Hw Hr; cbn [js_method]. unfold j_deserialize_struct.
    destruct (obj_text _ _ Hb) as (b' & Eb & _). rewrite Eb. cbn [app]. apply eats_ws; auto. cbn [Z.eqb Pos.eqb].
    change (123 :: (b' ++ [125]) ++ r) with ([] ++ (123 :: b' ++ [125]) ++ r). rewrite <- Eb.
    apply (map_eats ar fl any_f32 dec _ (keyed js)); [|auto|constructor]. cbn.
    apply (xstruct_feeds fs Hn fs [] l [] js); auto. clear Hn Ejs Hb. revert l H.
    induction IH as [|f fs Hf _ I]; intros [|v l] H; cbn in *; try tauto. destruct H as [H1 H2]. split; [|apply I, H2]. intros j Ej. apply (Hf v j H1 Ej).
  - destruct (IH v j H E) as [A N]. split; [apply xnewtype_accepts; exact A|exact N].
  - destruct v as [| | | | | | | | | | | |i v|]; try tauto. destruct H as [Hn H]. cbn [xtrace] in E. rewrite nth_error_map in *.
    destruct (nth_error vs i) as [[nm o]|] eqn:Ei; [|cbn in H; tauto]. cbn [option_map snd fst] in *. pose proof (nth_error_In _ _ Ei) as Hi.
    assert (U : literal (esc_text nm) nm).
    { apply esc_literal. destruct Hn as (_ & Hu & _). rewrite Forall_forall in Hu. apply (Hu nm (in_map fst _ _ Hi)). }
    destruct o as [x|]; cbn [option_map] in *.
    + destruct (doc (xtrace x v)) as [j'|] eqn:Ej; pose proof Ej as Ej'; unfold js_value in Ej', E; cbn [js_doc] in E; rewrite Ej' in E; [|discriminate]. injection E as <-. rewrite Forall_forall in IH.
      destruct (IH _ Hi v j' H Ej) as [A _]. split; [|cbn; split; discriminate]. unfold js_image. cbn [ximage]. rewrite nth_error_map, Ei. cbn [option_map snd]. fold js_image.
      apply xenum_accepts; [apply Hn|]. rewrite Ei. exists (esc_text nm), (tok_doc j'). split; [reflexivity|]. split; [exact U|exact A].
    + injection E as <-. subst v. split; [|cbn; split; discriminate]. unfold js_image. cbn [ximage]. rewrite nth_error_map, Ei. cbn [option_map snd].
      apply xenum_accepts; [apply Hn|]. rewrite Ei. cbn [tok_doc]. eauto.
Qed.

Theorem js_nested_trip x v out w1 w2 : made x v -> js_to_string fp enc (xtrace x v) = Ok out -> any_ws w1 -> any_ws w2 ->
  (dec = Base64Decoder -> 3 * zlen (w1 ++ out ++ w2) <= usize_max ar) ->
  exists N, forall fuel, (N <= fuel)%nat ->
    exists s, js_from_mut_slice ar fl any_f32 dec fuel (prog x) (w1 ++ out ++ w2) = Done s (Ok (js_image x v)).
Proof.
  intros H E W1 W2 R. destruct (nested_strings enc _ _ x v H) as [S M].
  pose proof (to_string_canon fp enc (xtrace x v) (matching_pass enc dec Hm) Hp S M) as C.
  destruct (js_value fp enc (xtrace x v)) as [j|] eqn:Ej; [|destruct C as (e & C & _); congruence].
  destruct C as (out' & C & T). assert (out' = out) by congruence. subst out'.
  apply (accepts_top ar fl any_f32 dec (prog x) (tok_doc j)); auto; [apply nested_comes; auto|]. apply raw_loose, canon_raw. exact T.
Qed.
End N.

Theorem js_nested_cases ar fl fp fo (any_f32 : bool) enc dec x v out w1 w2 : let float_of := if any_f32 then f32_from_str fl else f64_from_str fl in
  law32 fl fp -> law64 fl fp -> printer_ok fp -> In (enc, dec) flavours ->
  js_made (fun b => finite32 b /\ told32 fo any_f32 float_of (format_f32 fp b) b) (fun b => finite64 b /\ told64 fo any_f32 float_of (format_f64 fp b) b)
    (enc = ArrayByteEncoder) x v ->
  js_to_string fp enc (xtrace x v) = Ok out -> any_ws w1 -> any_ws w2 ->
  (dec = Base64Decoder -> 3 * zlen (w1 ++ out ++ w2) <= usize_max ar) ->
  exists N, forall fuel, (N <= fuel)%nat ->
    exists s, js_from_mut_slice ar fl any_f32 dec fuel (xdenote fo JDeserializeError x) (w1 ++ out ++ w2) = Done s (Ok (js_image x v)).
Proof.
  intros float_of L32 L64 P F. apply js_nested_trip; auto using law_inverse32, law_inverse64, flavours_match.
Qed.

(** Internally tagged enums in MessagePack (C66). *)
From Verif Require Import Prelude PreludeFacts Utf8Spec Utf8 Utf8Facts SerdeSer SerdeDe FloatOps Arch MpSpec MpErrMap MpSer MpDe MpDeView MpDeTop Types TypesFacts
  MpTypeSpec MpTyped MpTypedSer MpTypedTop MpReadBack JsonTypedSer Content ContentSpec ContentFacts MpContent.

(** ** Traces *)
Local Notation with_tag tag fs := (TStruct ((tag, FPlain, TStr) :: fs)).
Lemma tagged_struct tag vs i n fs l : nth_error vs i = Some (n, Some fs) ->
  tagged_trace tag vs (UVar i (USeq l)) = trace (with_tag tag fs) (USeq (UStr n :: l)).
Proof.
  intros E. unfold tagged_trace. rewrite E. cbn [trace map zip]. unfold struct_call, count_some, zlen. cbn [filter snd name_of attr_of fst skipped length]. f_equal. lia.
Qed.
Lemma tagged_unit tag vs i n : nth_error vs i = Some (n, None) -> tagged_trace tag vs (UVar i UUnit) = trace (with_tag tag []) (USeq [UStr n]).
Proof. intros E. cbn. rewrite E. reflexivity. Qed.

(** ** Splitting off the tag *)
Lemma list_eqb_refl s : list_eqb Z.eqb s s = true.
Proof. induction s; cbn; auto. rewrite Z.eqb_refl. exact IHs. Qed.
Lemma list_eqb_ne a b : a <> b -> list_eqb Z.eqb a b = false.
Proof. revert b. induction a as [|x a IH]; intros [|y b] H; cbn; auto; [congruence|]. destruct (Z.eqb_spec x y); auto. apply IH. congruence. Qed.
Lemma partition_none {A} (f : A -> bool) l : Forall (fun e => f e = false) l -> partition f l = ([], l).
Proof. induction 1 as [|a l H _ IH]; cbn; auto. rewrite IH, H. reflexivity. Qed.
Lemma split_tag tag x l names : ~ In tag names -> Forall (fun e => exists nm, fst e = UStr nm /\ In nm names) l ->
  partition (is_tag tag) ((UStr tag, x) :: l) = ([(UStr tag, x)], l).
Proof.
  intros T H. cbn [partition]. rewrite partition_none; [unfold is_tag; cbn; rewrite list_eqb_refl; reflexivity|].
  eapply Forall_impl; [|exact H]. intros e (nm & E & I). unfold is_tag. rewrite E. apply list_eqb_ne. intros ->. contradiction.
Qed.
Lemma by_tag_struct fo vs i n fs c l : NoDup (map fst vs) -> nth_error vs i = Some (n, Some fs) -> from_content fo (TStruct fs) c = Some (USeq l) ->
  by_tag fo vs (UStr n) c = Some (UVar i (USeq l)).
Proof.
  intros D E F. unfold by_tag, content_ident. rewrite (find_name_spec _ D i n 0); [|rewrite nth_error_map, E; reflexivity]. cbn [Nat.add]. rewrite E, F. reflexivity.
Qed.
Lemma by_tag_unit fo vs i n c : NoDup (map fst vs) -> nth_error vs i = Some (n, None) -> c = USeq [] \/ (exists l, c = UMap l) ->
  by_tag fo vs (UStr n) c = Some (UVar i UUnit).
Proof.
  intros D E F. unfold by_tag, content_ident. rewrite (find_name_spec _ D i n 0); [|rewrite nth_error_map, E; reflexivity]. cbn [Nat.add]. rewrite E.
  destruct F as [->|[l ->]]; reflexivity.
Qed.

Section C.
Context (fo : float_ops) (st : style).
Local Notation pairs := (omap (fun e : mpv * mpv => match den (fst e), den (snd e) with Some a, Some b => Some (a, b) | _, _ => None end)).
Lemma name_keys fs l ds : items3 fo st fs l ds -> forall ms ws, doc_fields_name ds = Some ms -> pairs ms = Some ws ->
  Forall (fun e => exists nm, fst e = UStr nm /\ In nm (map name_of fs)) ws.
Proof.
  induction 1 as [|f v d fs l ds [Hn Hf] Hb Hi IH]; intros ms ws E W.
  - cbn in E. injection E as <-. cbn in W. injection W as <-. constructor.
  - destruct d as [n d]. cbn [fst snd] in Hf, Hn. cbn [doc_fields_name] in E.
    assert (X : forall ws, Forall (fun e : val * val => exists nm, fst e = UStr nm /\ In nm (map name_of fs)) ws ->
      Forall (fun e : val * val => exists nm, fst e = UStr nm /\ In nm (map name_of (f :: fs))) ws).
    { intros u H. eapply Forall_impl; [|exact H]. intros e (nm & Q & I). exists nm. split; [exact Q|right; exact I]. }
    destruct d as [m|]; [|apply X; eauto].
    unfold doc_str in E. destruct (lt32 _); [|discriminate]. destruct (doc_fields_name ds) as [ms'|] eqn:Ems; [|discriminate]. injection E as <-.
    cbn [omap fst snd] in W. cbn [den] in W. destruct (den m) as [w|] eqn:Ew; [|discriminate].
    match type of W with match ?x with _ => _ end = _ => destruct x as [ws'|] eqn:Ews; [|discriminate] end. injection W as <-.
    constructor; [|apply X; eauto]. exists n. split; [reflexivity|left; congruence].
Qed.
Lemma index_keys ds : forall i ws, pairs (doc_fields_index i ds) = Some ws -> Forall (fun e => exists z, fst e = UInt z) ws.
Proof.
  induction ds as [|[n [m|]] ds IH]; intros i ws W; cbn [doc_fields_index] in W; [cbn in W; injection W as <-; constructor| |eauto].
  cbn [omap fst snd] in W. cbn [den] in W. destruct (den m) as [w|] eqn:Ew; [|discriminate].
  match type of W with match ?x with _ => _ end = _ => destruct x as [ws'|] eqn:Ews; [|discriminate] end. injection W as <-.
  constructor; [eexists; reflexivity|eauto].
Qed.

End C.

(** What is written for a tagged struct, as content. *)
Section D.
Context (fo : float_ops) (st : style).
Local Notation pairs := (omap (fun e : mpv * mpv => match den (fst e), den (snd e) with Some a, Some b => Some (a, b) | _, _ => None end)).
Lemma tag_content tag n fs l m w : wf (with_tag tag fs) -> strict (TStruct fs) -> told_apart st (TStruct fs) -> hastype (TStruct fs) (USeq l) -> hastype TStr (UStr n) ->
  mp_doc st (trace (with_tag tag fs) (USeq (UStr n :: l))) = Some m -> den m = Some w ->
  match st with
  | SArray => exists ws, w = USeq (UStr n :: ws) /\ from_content fo (TStruct fs) (USeq ws) = Some (USeq l)
  | SNameMap => exists ws, w = UMap ((UStr tag, UStr n) :: ws) /\ from_content fo (TStruct fs) (UMap ws) = Some (USeq l) /\
      Forall (fun e => exists nm, fst e = UStr nm /\ In nm (map name_of fs)) ws
  | SIndexMap => exists ws, w = UMap ws /\ Forall (fun e => exists z, fst e = UInt z) ws
  end.
Proof.
  intros W S T H Hn D E. cbn [trace struct_call mp_doc] in D. rewrite zip_map in D.
  destruct (omap _ _) as [ds|] eqn:Eds in D; [|discriminate].
  assert (It : items3 fo st ((tag, FPlain, TStr) :: fs) (UStr n :: l) ds).
  { apply items_of; auto. split.
    - intros m' w' D' E'. cbn in D'. unfold doc_str in D'. destruct (lt32 (zlen n)); [|discriminate]. injection D' as <-. injection E' as <-. reflexivity.
    - cbn [hastype] in H. apply (all2_map (fun h v => h v) (fun f => hastype (snd f))) in H. destruct W as [_ [_ W]], T as [_ T]. cbn [strict] in S. clear Eds D. revert l H. induction fs as [|f fs I]; intros [|v l] H; cbn in *; try tauto.
      destruct H as [H1 H2], W as [[W1 _] W2], S as [S1 S2], T as [T1 T2]. split; [|apply I; auto]. intros m' w' D' E'. apply (content_back fo st (snd f) W1 S1 T1 v m' w'); auto. }
  inversion It as [|? ? d ? ? ds' [Hd1 Hd2] _ It']; subst. cbn in Hd1, Hd2. destruct d as [dn d]. cbn [fst snd] in *. subst dn. unfold name_of, doc_str in Hd2. cbn [fst snd] in *.
  destruct (lt32 (zlen n)); cbn in Hd2; destruct Hd2 as (m0 & Q & ->); [|discriminate]. injection Q as <-.
  destruct W as [Wn W]. cbn [map] in Wn. assert (Wn' : names_ok (map name_of fs)).
  { destruct Wn as (N1 & N2 & N3). inversion N1; inversion N2; subst. repeat split; auto. unfold short, zlen in *. cbn in N3. lia. }
  cbn [from_content].
  unfold doc_struct in D. destruct st eqn:St; unfold doc_array, doc_map in D.
  - cbn [doc_fields_array] in D. destruct (doc_fields_array ds') as [ms|] eqn:F; [|discriminate]. cbn [option_map] in D. destruct (_ && _); [|discriminate]. injection D as <-. cbn [den omap] in E.
    destruct (omap den ms) as [ws|] eqn:Ews; [|discriminate]. injection E as <-. exists ws. split; [reflexivity|]. unfold content_struct. rewrite (seq_back _ _ fs l ds' It' ms ws F Ews). reflexivity.
  - destruct (_ && _); [|discriminate]. injection D as <-. cbn [den] in E. destruct (pairs _) as [ws|] eqn:Ews; [|discriminate]. injection E as <-.
    exists ws. split; [reflexivity|]. exact (index_keys ((tag, Some (VStr n)) :: ds') 0 ws Ews).
  - cbn [doc_fields_name] in D. unfold doc_str in D. destruct (lt32 _); [|discriminate]. destruct (doc_fields_name ds') as [ms|] eqn:F; [|discriminate]. destruct (_ && _); [|discriminate]. injection D as <-.
    cbn [den omap fst snd] in E. destruct (pairs ms) as [ws|] eqn:Ews; [|discriminate]. injection E as <-.
    exists ws. split; [reflexivity|]. split; [|exact (name_keys fo SNameMap fs l ds' It' ms ws F Ews)].
    pose proof (name_back _ _ fs Wn' fs l ds' It' [] [] ms ws eq_refl eq_refl F Ews) as Q. cbn [app] in Q. unfold content_struct. rewrite Q, (finish_back _ _ fs l ds' It'). reflexivity.
Qed.
End D.

(** ** Round trips *)
Lemma tagged_call tag vs i f v : nth_error vs i = Some f -> variant_hastype f v -> exists l,
  tagged_trace tag vs (UVar i v) = trace (with_tag tag (variant_fields f)) (USeq (UStr (fst f) :: l)) /\ hastype (TStruct (variant_fields f)) (USeq l) /\
  v = match snd f with Some _ => USeq l | None => UUnit end.
Proof.
  destruct f as [n [fs|]]; unfold variant_hastype, variant_fields; cbn [fst snd]; intros E H.
  - destruct v; try (destruct fs; contradiction). exists l. split; [apply tagged_struct; exact E|]. auto.
  - subst v. exists []. split; [apply tagged_unit; exact E|]. split; [exact I|reflexivity].
Qed.
Theorem mp_tagged_trip ar fo cfg fl tag vs i f v out tail :
  arch32up ar -> names_ok (map fst vs) -> nth_error vs i = Some f -> wf (with_tag tag (variant_fields f)) -> strict (TStruct (variant_fields f)) ->
  told_apart (style_of fl) (TStruct (variant_fields f)) -> variant_hastype f v -> fl <> StructMapIdx ->
  2 ^ 32 - 1 <= cfg_usize_max cfg -> mp_to_vec cfg fl (tagged_trace tag vs (UVar i v)) = Ok out -> slice_of ar (out ++ tail) ->
  exists N, forall fuel, (N <= fuel)%nat ->
    exists s, mp_from_slice ar fo fuel (tagged fo DeserializeError tag vs) (out ++ tail) = Done s (Ok (UVar i v, zlen out)).
Proof.
  intros A Nv En W S T H Hfl Hc E Sl. destruct (tagged_call tag vs i f v En H) as (l & Et & Hl & Hv). rewrite Et in E.
  assert (Hn : hastype TStr (UStr (fst f))).
  { destruct Nv as (_ & N2 & _). rewrite Forall_forall in N2. apply (N2 (fst f)). apply in_map. eapply nth_error_In; eauto. }
  assert (Hw : hastype (with_tag tag (variant_fields f)) (USeq (UStr (fst f) :: l))) by (split; [exact Hn|exact Hl]).
  destruct (mp_read_back ar fo cfg fl _ out tail A (typed_sval_ok _ W _ Hw) Hc E Sl) as (m & w & D & Dn & N & HN).
  apply den_of in Dn. exists N. intros fuel Hf. destruct (HN fuel Hf) as [s R]. exists s. unfold tagged. rewrite (mp_from_buffered _ _ _ _ _ _ _ _ R). clear R HN.
  pose proof (tag_content fo (style_of fl) tag (fst f) _ l m w W S T Hl Hn D Dn) as Q. destruct f as [n [fs|]]; cbn [fst snd variant_fields] in *; subst v; destruct fl; cbn [style_of] in Q; try congruence.
  - destruct Q as (ws & -> & Q). cbn [tagged_pick]. rewrite (by_tag_struct fo vs i n fs _ l (proj1 Nv) En Q). reflexivity.
  - destruct Q as (ws & -> & Q & K). cbn [tagged_pick]. rewrite (split_tag tag (UStr n) ws (map name_of fs)); auto.
    + cbn [snd]. rewrite (by_tag_struct fo vs i n fs _ l (proj1 Nv) En Q). reflexivity.
    + destruct W as [(N1 & _) _]. inversion N1; auto.
  - destruct Q as (ws & -> & Q). cbn [tagged_pick]. destruct ws; [|discriminate]. rewrite (by_tag_unit fo vs i n _ (proj1 Nv) En); auto.
  - destruct Q as (ws & -> & Q & K). cbn [tagged_pick]. rewrite (split_tag tag (UStr n) ws []); auto. cbn [snd]. rewrite (by_tag_unit fo vs i n _ (proj1 Nv) En); eauto.
Qed.
(** Keys that are numbers are not the tag. *)
Theorem mp_tagged_index ar fo cfg tag vs i f v out tail :
  arch32up ar -> names_ok (map fst vs) -> nth_error vs i = Some f -> wf (with_tag tag (variant_fields f)) -> strict (TStruct (variant_fields f)) ->
  told_apart SIndexMap (TStruct (variant_fields f)) -> variant_hastype f v ->
  2 ^ 32 - 1 <= cfg_usize_max cfg -> mp_to_vec cfg StructMapIdx (tagged_trace tag vs (UVar i v)) = Ok out -> slice_of ar (out ++ tail) ->
  exists N, forall fuel, (N <= fuel)%nat ->
    exists s, mp_from_slice ar fo fuel (tagged fo DeserializeError tag vs) (out ++ tail) = Done s (Err DeserializeError).
Proof.
  intros A Nv En W S T H Hc E Sl. destruct (tagged_call tag vs i f v En H) as (l & Et & Hl & Hv). rewrite Et in E.
  assert (Hn : hastype TStr (UStr (fst f))).
  { destruct Nv as (_ & N2 & _). rewrite Forall_forall in N2. apply (N2 (fst f)). apply in_map. eapply nth_error_In; eauto. }
  assert (Hw : hastype (with_tag tag (variant_fields f)) (USeq (UStr (fst f) :: l))) by (split; [exact Hn|exact Hl]).
  destruct (mp_read_back ar fo cfg StructMapIdx _ out tail A (typed_sval_ok _ W _ Hw) Hc E Sl) as (m & w & D & Dn & N & HN).
  apply den_of in Dn. exists N. intros fuel Hf. destruct (HN fuel Hf) as [s R]. exists s. unfold tagged. rewrite (mp_from_buffered _ _ _ _ _ _ _ _ R). clear R HN.
  destruct (tag_content fo SIndexMap tag (fst f) _ l m w W S T Hl Hn D Dn) as (ws & -> & K). cbn [tagged_pick]. rewrite partition_none; [reflexivity|].
  eapply Forall_impl; [|exact K]. intros e (z & Q). unfold is_tag. rewrite Q. reflexivity.
Qed.

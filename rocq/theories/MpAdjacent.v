(** MessagePack: adjacently tagged enums are read from every encoding of them (C71). *)
From Verif Require Import Prelude PreludeFacts Utf8 Utf8Spec Utf8Facts SerdeSer SerdeDe MpMagick MpSpec MpDe MpDeView MpDeReads MpDeEat MpDeTrail FloatOps Types TypesFacts MpTypeSpec MpTyped MpAny MpFault Content ContentFacts Adjacent AdjacentSpec MpErrMap MpSer MpSerFacts MpBytesSpec MpBytes MpDeTop MpTypedTop EvolveSpec EvolveFacts MpEvolve EvolveSelf.
Ltac Zify.zify_post_hook ::= Z.div_mod_to_equations.

Ltac pk := apply reads_peek; consts; ifs; try (exfalso; lia).

Section A.
Context (ar : arch) (fo : float_ops).
Local Notation rde := (rde ar fo).
Local Notation rsq := (rsq ar fo).
Local Notation rmp := (rmp ar fo).
Local Notation rme := (rme ar fo).
Local Notation err := DeserializeError.

Lemma others_nonneg names n b : others names n b -> 0 <= n.
Proof. induction 1; lia. Qed.
Lemma rmp_relevant names k i kt n rest r : names_ok names -> ident_enc names i kt -> 0 <= n -> rmp (k (Some i)) n rest r ->
  forall n1 o, others names n1 o -> rmp (next_relevant err names k) (n1 + (1 + n)) (o ++ kt ++ rest) r.
Proof.
  intros Hn Hk Hp Hr. induction 1 as [|n1 m k' b rest' H1 H2 H3 IH]; rewrite (mfrob_eq (next_relevant _ _ _)); cbn [mfrob next_relevant].
  - cbn [app]. eapply rmp_key; [lia|reflexivity|apply rde_ident; eauto|]. cbv beta iota. replace (0 + (1 + n) - 1) with n by lia. exact Hr.
  - apply others_nonneg in H3. rewrite <- !app_assoc. eapply rmp_key; [lia|reflexivity|apply rde_unknown; eauto|]. cbv beta iota.
    eapply rmp_val; [reflexivity|eapply rde_ignored; eauto|]. cbv beta iota. replace (1 + n1 + (1 + n) - 1) with (n1 + (1 + n)) by lia. exact IH.
Qed.
Lemma rmp_relevant_end names k r : rmp (k None) 0 [] r -> forall n o, others names n o -> rmp (next_relevant err names k) n o r.
Proof.
  intros Hr. induction 1 as [|n1 m k' b rest' H1 H2 H3 IH]; rewrite (mfrob_eq (next_relevant _ _ _)); cbn [mfrob next_relevant].
  - apply rmp_end. exact Hr.
  - apply others_nonneg in H3. eapply rmp_key; [lia|reflexivity|apply rde_unknown; eauto|]. cbv beta iota.
    eapply rmp_val; [reflexivity|eapply rde_ignored; eauto|]. cbv beta iota. replace (1 + n1 - 1) with n1 by lia. exact IH.
Qed.
Lemma rmp_no_more names v n o : others names n o -> rmp (no_more err names v) n o (Ok (v, 0)).
Proof. intros H. eapply rmp_relevant_end; eauto. apply rmp_ret. Qed.

Lemma any_map_of v n h b r : map_hdr n h -> rme DMap v (h ++ b) r -> rme DAny v (h ++ b) r.
Proof.
  intros Hh H. eapply ev_imp; [exact H|]. intros f Hf. cbn [mp_method] in *. unfold deserialize_any.
  inversion Hh; subst; cbn [app] in *; pk; exact Hf.
Qed.
Lemma rde_untagged_unit : rde (request DAny (v_untagged_unit err)) [0xc0] (Ok UUnit).
Proof.
  apply rde_request, ev_all. intros f. cbn [mp_method]. unfold deserialize_any. pk. unfold deserialize_unit. apply reads_cons. apply (reads_lift ar (Ok _)).
Qed.
Lemma arr_not_map n m h h' x y : arr_hdr n h -> map_hdr m h' -> h ++ x = h' ++ y -> False.
Proof. intros H H' E. inversion H; inversion H'; subst; cbn [app] in E; try discriminate; apply (f_equal (hd 0)) in E; cbn [hd] in E; lia. Qed.

Lemma content_reads k t v b : wf t -> kind_ok k t -> content_enc fo k t v b -> rde (content_seed err k t) b (Ok v).
Proof.
  intros W K H. destruct k; cbn [content_enc] in H; try (destruct t; cbn [content_seed]; apply denote_reads; auto; fail).
  - destruct H as [-> ->]. destruct t; apply rde_untagged_unit.
  - destruct t as [ | | | | | | | | | | | | | | |fs| ]; cbn [kind_ok] in K; try contradiction.
    cbn [content_seed]. destruct H as [H (n & h & d & -> & Hh)]. destruct v; cbn [adm] in H; try contradiction. destruct H as [H|H].
    + exfalso. destruct H as (n' & h' & d' & E & _ & Hh' & _). eapply arr_not_map; eauto.
    + destruct H as (n' & h' & d' & got & E & Hh' & He & Hf). rewrite E. apply rde_request. eapply any_map_of; [exact Hh'|]. eapply rme_map; [exact Hh'|].
      cbn [mk_visitor v_map on_map visit_map]. destruct W as (W1 & W2). eapply rmp_struct; eauto; [|apply finish_all; auto].
      apply Forall2_map. intros f Hin v c. apply denote_reads. apply (all_list_In _ _ W2 f Hin).
Qed.
Lemma tag_reads vs i a : names_ok (map name_of vs) -> ident_enc (map name_of vs) i a -> rde (denote err (tag_ty vs)) a (Ok (UVar i UUnit)).
Proof.
  intros Hn Ha. assert (Hi : (i < length vs)%nat).
  { destruct Ha as [(s & Hs & _)|[Hi _]]; [apply nth_error_Some|rewrite map_length in Hi; auto].
    rewrite nth_error_map in Hs. destruct (nth_error vs i); [congruence|discriminate]. }
  assert (E : map name_of (map (fun f : bytes * vkind * ty => (name_of f, KUnit, TUnit)) vs) = map name_of vs) by (rewrite map_map; auto).
  apply denote_reads.
  - cbn [tag_ty wf]. rewrite E. split; auto. clear. induction vs; cbn; auto.
  - cbn [tag_ty adm]. rewrite !nth_error_map. destruct (nth_error vs i) eqn:Ei; [|apply nth_error_None in Ei; lia].
    cbn [option_map attr_of fst snd]. split; auto. rewrite E. exact Ha.
Qed.

Definition variants_ok (tag content : bytes) (vs : list (bytes * vkind * ty)) : Prop := names_ok [tag; content] /\ wf (TEnum vs).

Theorem adjacent_reads tag content vs i v bs : variants_ok tag content vs -> adjacent_enc fo tag content vs i v bs ->
  rde (adjacent fo err tag content vs) bs (Ok (UVar i v)).
Proof.
  intros [Hn [Hv Hw]] H. unfold adjacent. apply rde_request.
  assert (Ht : forall n k t, nth_error vs i = Some (n, k, t) -> wf t /\ kind_ok k t).
  { intros n k t E. apply (all_list_In _ _ Hw _ (nth_error_In _ _ E)). }
  destruct H as [n k t h a b E Hh Ha Hb|n k t n1 n2 n3 h o1 kt a o2 kc b o3 E Hh O1 Kt Ha O2 Kc Hb O3|n k t n1 n2 h o1 kt a o2 E Hh O1 Kt Ha O2 Hb];
    destruct (Ht _ _ _ E) as [W K].
  - eapply rme_struct_arr; [exact Hh|]. cbn [mk_visitor v_struct on_seq visit_seq]. unfold adjacent_seq.
    eapply rsq_next; [lia|reflexivity|apply rde_ident; eauto|]. cbv beta iota. rewrite E. rewrite <- (app_nil_r b).
    eapply rsq_next; [lia|reflexivity|apply content_reads; eauto|]. cbv beta iota. apply rsq_ret.
  - eapply rme_struct_map; [exact Hh|]. cbn [mk_visitor v_struct on_map visit_map]. unfold adjacent_map. cbv zeta.
    pose proof (others_nonneg _ _ _ O2). pose proof (others_nonneg _ _ _ O3).
    eapply rmp_relevant; [auto|eauto|lia| |exact O1]. cbv beta iota. unfold tag_value.
    eapply rmp_val; [reflexivity|apply tag_reads; eauto|]. cbv beta iota. rewrite E.
    eapply rmp_relevant; [auto|eauto|lia| |exact O2]. cbv beta iota.
    eapply rmp_val; [reflexivity|apply content_reads; eauto|]. cbv beta iota. apply rmp_no_more. auto.
  - eapply rme_struct_map; [exact Hh|]. cbn [mk_visitor v_struct on_map visit_map]. unfold adjacent_map. cbv zeta.
    pose proof (others_nonneg _ _ _ O2).
    eapply rmp_relevant; [auto|eauto|lia| |exact O1]. cbv beta iota. unfold tag_value.
    eapply rmp_val; [reflexivity|apply tag_reads; eauto|]. cbv beta iota. rewrite E.
    eapply rmp_relevant_end; [|exact O2]. cbv beta iota.
    destruct k; cbn [no_content] in Hb; try contradiction.
    + subst. destruct t; apply rmp_ret.
    + destruct Hb as [-> [t' ->]]. apply rmp_ret.
Qed.
End A.


Section W.
Context (st : style) (fo : float_ops).
Local Notation B := (mp_bytes st).
Local Notation good := (good st).

Lemma tag_good (vs : list (bytes * vkind * ty)) i n k t : nth_error vs i = Some (n, k, t) -> good (SUnitVariant (Z.of_nat i) n) -> ident_enc (map name_of vs) i (B (SUnitVariant (Z.of_nat i) n)).
Proof.
  intros E [[Hj _] D]. apply variant_ident; auto. unfold same_variant.
  assert (i < length (map name_of vs))%nat by (rewrite map_length; apply nth_error_Some; congruence).
  destruct st; auto. rewrite nth_error_map, E. reflexivity.
Qed.
Lemma content_good k t v : wf t -> kind_ok k t -> hastype t v -> k <> KUnit -> st <> SArray \/ k = KNewtype \/ k = KTuple -> good (trace t v) ->
  content_enc fo k t (collapse nullish t v) (B (trace t v)).
Proof.
  intros W K H N S1 G. assert (A : adm fo t (collapse nullish t v) (B (trace t v))) by (apply fits_adm; auto using mp_self).
  destruct k; cbn [content_enc]; auto; [congruence|]. split; auto.
  destruct t as [ | | | | | | | | | | | | | | |fs| ]; cbn [kind_ok] in K; try contradiction. destruct v; cbn [hastype] in H; try contradiction. cbn [trace] in *.
  destruct S1 as [S1|[S1|S1]]; try discriminate.
  match type of G with MpEvolve.good _ ?x => destruct (entries_of st x) as [es|] eqn:I; [|destruct st; cbn in I; congruence] end.
  destruct (entries_good st _ _ I G) as (_ & Hz & ->). eexists. eexists. eexists. split; [reflexivity|]. apply map_head_ok. pose proof (zlen_nonneg es). lia.
Qed.
(** A struct with all fields written, as a map: keys and values. *)
Definition key (i : nat) (n : bytes) : sval := match st with SNameMap => SStr n | _ => SInt U32 (Z.of_nat i) end.
Lemma key_good names i n : nth_error names i = Some n -> good (key i n) -> ident_enc names i (B (key i n)).
Proof.
  intros E [Hv Hd]. assert (i < length names)%nat by (apply nth_error_Some; congruence). unfold key in *. destruct st eqn:St.
  1, 2: right; split; auto; cbn [mp_bytes signed_kind]; apply index_ok; cbn in Hv; unfold in_ikind in Hv; cbn in Hv; lia.
  left. exists n. split; auto. cbn [mp_bytes]. apply str_bytes_ok. cbn [mp_doc] in Hd. unfold doc_str in Hd. destruct (lt32 (zlen n)) eqn:L; [|congruence]. apply lt32_spec in L. lia.
Qed.
Lemma one_good len a x : st <> SArray -> good (SStruct len [(a, Some x)]) ->
  good (key 0 a) /\ good x /\ exists h, map_hdr 1 h /\ B (SStruct len [(a, Some x)]) = h ++ B (key 0 a) ++ B x.
Proof.
  intros Hs G. unfold key. destruct st eqn:St; try congruence;
    destruct (entries_good st (SStruct len [(a, Some x)]) [(match st with SNameMap => SStr a | _ => SInt U32 0 end, x)]) as (Ge & Hz & Eb); try (rewrite St; auto; fail);
    rewrite St in *; inversion Ge as [|? ? [G1 G2] _]; subst; cbn [fst snd] in *; (split; [auto|]); (split; [auto|]); exists (map_head 1); (split; [apply map_head_ok; lia|]); rewrite Eb; cbn [flat_map fst snd]; rewrite app_nil_r; reflexivity.
Qed.
Lemma two_good len a x b y : st <> SArray -> good (SStruct len [(a, Some x); (b, Some y)]) ->
  good (key 0 a) /\ good x /\ good (key 1 b) /\ good y /\ exists h, map_hdr 2 h /\ B (SStruct len [(a, Some x); (b, Some y)]) = h ++ B (key 0 a) ++ B x ++ B (key 1 b) ++ B y.
Proof.
  intros Hs G. unfold key. destruct st eqn:St; try congruence;
    destruct (entries_good st (SStruct len [(a, Some x); (b, Some y)]) [(match st with SNameMap => SStr a | _ => SInt U32 0 end, x); (match st with SNameMap => SStr b | _ => SInt U32 1 end, y)]) as (Ge & Hz & Eb); try (rewrite St; auto; fail);
    rewrite St in *; inversion Ge as [|? ? [G1 G2] Ge']; subst; inversion Ge' as [|? ? [G3 G4] _]; subst; cbn [fst snd] in *; do 4 (split; [auto|]); exists (map_head 2); (split; [apply map_head_ok; lia|]); rewrite Eb; cbn [flat_map fst snd]; rewrite app_nil_r, <- app_assoc; reflexivity.
Qed.

Theorem adjacent_written tag content vs i n k t v : nth_error vs i = Some (n, k, t) -> wf t -> kind_ok k t -> hastype t v ->
  st <> SArray \/ k = KNewtype \/ k = KTuple -> good (adjacent_trace tag content vs (UVar i v)) ->
  adjacent_enc fo tag content vs i (collapse nullish t v) (B (adjacent_trace tag content vs (UVar i v))).
Proof.
  intros E W K H S1 G. cbn [adjacent_trace] in *. rewrite E in *.
  assert (D : k = KUnit \/ k <> KUnit) by (destruct k; auto; right; discriminate). destruct D as [->|N].
  - destruct S1 as [S1|[S1|S1]]; try discriminate. destruct (one_good _ _ _ S1 G) as (G1 & G2 & h & Hh & ->). destruct t; try contradiction. destruct v; try contradiction.
    rewrite <- (app_nil_r (B (SUnitVariant _ _))). change (B (key 0 tag) ++ ?x) with ([] ++ B (key 0 tag) ++ x).
    eapply (AE_alone fo tag content vs i _ n KUnit TUnit 0 0); eauto using OT_nil, tag_good. { apply key_good; auto. } reflexivity.
  - match type of G with MpEvolve.good _ ?x => assert (Ex : x = SStruct 2 [(tag, Some (SUnitVariant (Z.of_nat i) n)); (content, Some (trace t v))]) by (destruct k; congruence) end.
    rewrite Ex in *. clear Ex. assert (S2 : st = SArray \/ st <> SArray) by (destruct st; auto; right; discriminate). destruct S2 as [Hs|Hs].
    + destruct (array_struct_good st _ _ Hs G) as (Gx & _ & -> & _). cbn [written flat_map map app fst snd] in *. inversion Gx as [|? ? G1 Gx']. inversion Gx' as [|? ? G2 _]. rewrite app_nil_r.
      eapply AE_array; eauto using tag_good, content_good. apply (arr_head_ok 2). lia.
    + destruct (two_good _ _ _ _ _ Hs G) as (G1 & G2 & G3 & G4 & h & Hh & ->).
      rewrite <- (app_nil_r (B (trace t v))). change (B (key 0 tag) ++ ?x) with ([] ++ B (key 0 tag) ++ x). change (B (key 1 content) ++ ?x) with ([] ++ B (key 1 content) ++ x).
      eapply (AE_map fo tag content vs i _ n k t 0 0 0); eauto using OT_nil, tag_good, content_good; apply key_good; auto.
Qed.
End W.

(** ** Round trips *)
Lemma adjacent_ok tag content vs i v n k t : variants_ok tag content vs -> nth_error vs i = Some (n, k, t) -> hastype t v -> sval_ok (adjacent_trace tag content vs (UVar i v)).
Proof.
  intros [(_ & Hn & _) [(_ & W0 & Wl) W]] E H. pose proof (all_list_In _ _ W _ (nth_error_In _ _ E)) as [W1 W2]. cbn [snd fst attr_of] in *.
  assert (Hi : is_u32 (Z.of_nat i)). { assert (i < length vs)%nat by (apply nth_error_Some; congruence). unfold short, zlen in Wl. rewrite map_length in Wl. unfold is_u32. lia. }
  assert (U : valid_utf8 n). { rewrite Forall_forall in W0. apply W0. apply in_map_iff. exists (n, k, t). split; auto. eapply nth_error_In; eauto. }
  inversion Hn as [|? ? [U1 _] Hn']. inversion Hn' as [|? ? [U2 _] _]. pose proof (typed_sval_ok t W1 v H) as T.
  cbn [adjacent_trace]. rewrite E. destruct k; cbn [sval_ok all_list fst snd]; unfold is_len; (split; [lia|]); (split; [reflexivity|]); auto 20.
Qed.

Section T.
Context (ar : arch) (fo : float_ops) (A32 : arch32up ar).
Local Notation err := DeserializeError.

Theorem mp_adjacent_accepts tag content vs i v bs tail : variants_ok tag content vs -> adjacent_enc fo tag content vs i v bs -> slice_of ar (bs ++ tail) ->
  exists N, forall fuel, (N <= fuel)%nat ->
    exists s, mp_from_slice ar fo fuel (adjacent fo err tag content vs) (bs ++ tail) = Done s (Ok (UVar i v, zlen bs)).
Proof.
  intros V H Hs. destruct (adjacent_reads ar fo _ _ _ _ _ _ V H) as [N HN]. exists N. intros f Hf. apply from_slice_reads; auto.
Qed.
Theorem mp_adjacent_trip cfg fl tag content vs i n k t v out tail : variants_ok tag content vs -> nth_error vs i = Some (n, k, t) -> hastype t v -> strict t ->
  fl <> Compact \/ k = KNewtype \/ k = KTuple -> 2 ^ 32 - 1 <= cfg_usize_max cfg ->
  mp_to_vec cfg fl (adjacent_trace tag content vs (UVar i v)) = Ok out -> slice_of ar (out ++ tail) ->
  exists N, forall fuel, (N <= fuel)%nat ->
    exists s, mp_from_slice ar fo fuel (adjacent fo err tag content vs) (out ++ tail) = Done s (Ok (UVar i v, zlen out)).
Proof.
  intros V E H S1 Fl Hc Ho Hs. pose proof (adjacent_ok _ _ _ _ _ _ _ _ V E H) as Hv. apply (to_vec_bytes cfg fl _ Hv Hc) in Ho. destruct Ho as [Hd ->].
  destruct V as [V1 [V2 V3]]. pose proof (all_list_In _ _ V3 _ (nth_error_In _ _ E)) as [W1 W2]. cbn [snd fst attr_of] in *.
  apply mp_adjacent_accepts; auto. { split; auto. split; auto. } pose proof (adjacent_written (style_of fl) fo tag content vs i n k t v E W1 W2 H) as A.
  rewrite (collapse_strict t v S1 H) in A. apply A; [|split; auto]. destruct Fl as [Fl|Fl]; auto. left. destruct fl; cbn; congruence.
Qed.

(** Compact arrays of unit and struct variants. *)
Lemma any_array_fails p n h b : arr_hdr n h -> fde ar fo (request DAny (v_map err p)) (h ++ b) err.
Proof.
  intros Hh. apply fde_request, ev_S, ev_all. intros f. cbn [mp_method].
  assert (F : fails ar (deserialize_seq ar (mp_run ar fo (S f)) (mk_visitor (v_map err p))) (h ++ b) err).
  { unfold deserialize_seq. eapply fails_hdr; [apply (hdr_arr_run ar _ _ Hh)|]. apply fails_bind1. cbn. intros s _ t _. exists s. reflexivity. }
  unfold deserialize_any. inversion Hh; subst; cbn [app] in *; apply fails_peek; consts; ifs; exact F.
Qed.
Theorem mp_adjacent_compact cfg tag content vs i n k t v out tail : variants_ok tag content vs -> nth_error vs i = Some (n, k, t) -> hastype t v ->
  k = KUnit \/ k = KStruct -> 2 ^ 32 - 1 <= cfg_usize_max cfg ->
  mp_to_vec cfg Compact (adjacent_trace tag content vs (UVar i v)) = Ok out -> slice_of ar (out ++ tail) ->
  exists N, forall fuel, (N <= fuel)%nat ->
    exists s, mp_from_slice ar fo fuel (adjacent fo err tag content vs) (out ++ tail) = Done s (Err err).
Proof.
  intros V E H Hk Hc Ho Hs. pose proof (adjacent_ok _ _ _ _ _ _ _ _ V E H) as Hv. apply (to_vec_bytes cfg Compact _ Hv Hc) in Ho. destruct Ho as [Hd ->].
  destruct V as [V1 [V2 V3]]. pose proof (all_list_In _ _ V3 _ (nth_error_In _ _ E)) as [W1 W2]. cbn [snd fst attr_of style_of] in *.
  assert (G : good SArray (adjacent_trace tag content vs (UVar i v))) by (split; auto). clear Hv Hd. cbn [adjacent_trace] in *. rewrite E in *.
  assert (F : fde ar fo (adjacent fo err tag content vs) (mp_bytes SArray (adjacent_trace tag content vs (UVar i v))) err).
  { apply fde_request. cbn [adjacent_trace]. rewrite E. destruct Hk as [->| ->].
    - destruct (array_struct_good SArray _ _ eq_refl G) as (Gx & _ & -> & _). cbn [written flat_map map app fst snd] in *. inversion Gx as [|? ? G1 _].
      eapply fme_arr; [cbn; auto|apply (arr_head_ok 1); lia|]. cbn [mk_visitor v_struct on_seq visit_seq]. unfold adjacent_seq.
      eapply fsq_later; [lia|apply rde_ident; [auto|apply (tag_good SArray vs i n KUnit t E G1)]|]. cbv beta iota. rewrite E. apply fsq_end, fsq_ret.
    - destruct (array_struct_good SArray _ _ eq_refl G) as (Gx & _ & -> & _). cbn [written flat_map map app fst snd] in *. inversion Gx as [|? ? G1 Gx']. inversion Gx' as [|? ? G2 _].
      eapply fme_arr; [cbn; auto|apply (arr_head_ok 2); lia|]. cbn [mk_visitor v_struct on_seq visit_seq]. unfold adjacent_seq.
      eapply fsq_later; [lia|apply rde_ident; [auto|apply (tag_good SArray vs i n KStruct t E G1)]|]. cbv beta iota. rewrite E. 
      eapply fsq_here; [lia|reflexivity|]. destruct t as [ | | | | | | | | | | | | | | |fs| ]; cbn [kind_ok] in W2; try contradiction. destruct v; cbn [hastype] in H; try contradiction. cbn [trace] in *. unfold struct_call in *.
      destruct (array_struct_good SArray _ _ eq_refl G2) as (_ & Hz & -> & _). cbn [content_seed]. eapply any_array_fails. apply arr_head_ok. split; [apply zlen_nonneg|exact Hz]. }
  cbn [adjacent_trace] in F. rewrite E in F. destruct F as [N F]. exists N. intros f Hf. apply from_slice_fails; auto.
Qed.
End T.

(** MessagePack: maps that no adjacently tagged enum is read from (C71). *)
From Verif Require Import Prelude PreludeFacts Utf8 Utf8Spec Utf8Facts SerdeSer SerdeDe MpMagick MpSpec MpDe MpDeView MpDeReads MpDeEat MpDeTrail FloatOps Types TypesFacts MpTypeSpec MpTyped MpAny MpFault
  Content ContentFacts Adjacent AdjacentSpec MpErrMap MpDeTop MpTypedTop MpFaultSpec MpAdjacent.
Ltac Zify.zify_post_hook ::= Z.div_mod_to_equations.

Section A.
Context (ar : arch) (fo : float_ops).
Local Notation rde := (rde ar fo).
Local Notation fde := (fde ar fo).
Local Notation fmp := (fmp ar fo).
Local Notation err := DeserializeError.

Lemma fmp_relevant names k i kt n rest e : names_ok names -> ident_enc names i kt ->
  forall n1 o, others names n1 o -> n1 < n -> fmp (k (Some i)) (n - n1 - 1) rest e -> fmp (next_relevant err names k) n (o ++ kt ++ rest) e.
Proof.
  intros Hn Hk n1 o H. revert n. induction H as [|n1 m k' b rest' H1 H2 H3 IH]; intros n Hp Hr; rewrite (mfrob_eq (next_relevant _ _ _)); cbn [mfrob next_relevant].
  - cbn [app]. eapply fmp_later; [lia|apply rde_ident; eauto|]. cbv beta iota. replace (n - 1) with (n - 0 - 1) by lia. exact Hr.
  - apply others_nonneg in H3. rewrite <- !app_assoc. eapply fmp_later; [lia|apply rde_unknown; eauto|]. cbv beta iota.
    eapply fmp_val_later; [eapply rde_ignored; eauto|]. cbv beta iota. apply IH; [lia|]. replace (n - 1 - n1 - 1) with (n - (1 + n1) - 1) by lia. exact Hr.
Qed.
Lemma fmp_relevant_end names k e : fmp (k None) 0 [] e -> forall n o, others names n o -> fmp (next_relevant err names k) n o e.
Proof.
  intros Hr. induction 1 as [|n1 m k' b rest' H1 H2 H3 IH]; rewrite (mfrob_eq (next_relevant _ _ _)); cbn [mfrob next_relevant].
  - apply fmp_end. exact Hr.
  - apply others_nonneg in H3. eapply fmp_later; [lia|apply rde_unknown; eauto|]. cbv beta iota.
    eapply fmp_val_later; [eapply rde_ignored; eauto|]. cbv beta iota. replace (1 + n1 - 1) with n1 by lia. exact IH.
Qed.
Lemma any_head_fails (v : visitor val mp_de_error) x c : (forall f, fails ar (r_seq (@mp_run ar fo val (S f)) (visit_seq v) x) [] err) -> (forall f, fails ar (r_map (@mp_run ar fo val (S f)) (visit_map v) x) [] err) ->
  arr_hdr x c \/ map_hdr x c -> fme ar fo DAny v c err.
Proof.
  intros Fs Fm Hc. apply ev_S, ev_all. intros f. cbn [mp_method]. unfold deserialize_any. rewrite <- (app_nil_r c). destruct Hc as [Hc|Hc].
  - assert (F : fails ar (deserialize_seq ar (mp_run ar fo (S f)) v) (c ++ []) err).
    { unfold deserialize_seq. eapply fails_hdr; [apply (hdr_arr_run ar _ _ Hc)|]. apply fails_bind1. apply Fs. }
    inversion Hc; subst; cbn [app] in *; apply fails_peek; consts; ifs; try (exfalso; lia); exact F.
  - assert (F : fails ar (deserialize_map ar (mp_run ar fo (S f)) v) (c ++ []) err).
    { unfold deserialize_map. eapply fails_hdr; [apply (hdr_map_run ar _ _ Hc)|]. apply fails_bind1. apply Fm. }
    inversion Hc; subst; cbn [app] in *; apply fails_peek; consts; ifs; try (exfalso; lia); exact F.
Qed.
Lemma content_fails k t x c : kind_ok k t -> k = KUnit /\ (arr_hdr x c \/ map_hdr x c) \/ k = KStruct /\ arr_hdr x c -> fde (content_seed err k t) c err.
Proof.
  intros K [[-> H]|[-> H]].
  - assert (E : content_seed err KUnit t = request DAny (v_untagged_unit err)) by (destruct t; reflexivity). rewrite E. apply fde_request.
    eapply any_head_fails; [| |exact H]; intros f s _ u _; exists s; reflexivity.
  - destruct t as [ | | | | | | | | | | | | | | |fs| ]; cbn [kind_ok] in K; try contradiction. cbn [content_seed]. rewrite <- (app_nil_r c). eapply any_array_fails; exact H.
Qed.
Lemma unknown_tag vs a : names_ok (map name_of vs) -> unknown_enc (map name_of vs) a -> fde (denote err (tag_ty vs)) a err.
Proof.
  intros Hn Ha. assert (E : map name_of (map (fun f : bytes * vkind * ty => (name_of f, KUnit, TUnit)) vs) = map name_of vs) by (rewrite map_map; auto).
  apply (fault_fails ar fo).
  - unfold tag_ty. apply X_unknown. rewrite E. exact Ha.
  - cbn [tag_ty wf]. rewrite E. split; auto. clear. induction vs; cbn; auto.
Qed.

Theorem adjacent_fails tag content vs bs : variants_ok tag content vs -> adjacent_fault fo tag content vs bs ->
  fde (adjacent fo err tag content vs) bs err.
Proof.
  intros [Hn [Hv Hw]] H. unfold adjacent. apply fde_request.
  assert (Ht : forall i n k t, nth_error vs i = Some (n, k, t) -> wf t /\ kind_ok k t).
  { intros i n k t E. apply (all_list_In _ _ Hw _ (nth_error_In _ _ E)). }
  destruct H as [n h o Hh O|n1 n h o1 kt a Hh L O1 Kt Ha|i n k t n1 n2 h o1 kt a o2 E Hh O1 Kt Ha O2 Nc|i n k t n0 n1 n2 h o1 kt a o2 kc c x E Hh L O1 Kt Ha O2 Kc Hc
    |i n k t n0 n1 n2 h o1 kt a o2 kt' E Hh L O1 Kt Ha O2 Kt'|i v n k t n0 n1 n2 n3 h o1 kt a o2 kc b o3 j ka E Hh L O1 Kt Ha O2 Kc Hb O3 Ka
    |n1 n2 h o1 kc m w b o2 Hh O1 Kc F D O2|n0 n1 n2 h o1 kc m w b o2 kc' Hh L O1 Kc F D O2 Kc'];
    (eapply fme_map; [cbn; auto|exact Hh|]); cbn [mk_visitor v_struct on_map visit_map]; unfold adjacent_map; cbv zeta;
    try (pose proof (others_nonneg _ _ _ O1)).
  - eapply fmp_relevant_end; [|exact O]. apply fmp_ret.
  - eapply fmp_relevant; [exact Hn|exact Kt|exact O1|lia|]. cbv beta iota. unfold tag_value. eapply fmp_val_now; [reflexivity|]. apply unknown_tag; auto.
  - pose proof (others_nonneg _ _ _ O2). eapply fmp_relevant; [exact Hn|exact Kt|exact O1|lia|]. cbv beta iota. unfold tag_value. eapply fmp_val_later; [apply tag_reads; eauto|]. cbv beta iota. rewrite E.
    replace (n1 + (1 + n2) - n1 - 1) with n2 by lia. eapply fmp_relevant_end; [|exact O2]. cbv beta iota.
    destruct k; cbn [no_content content_absent] in *.
    + destruct (Nc UUnit). reflexivity.
    + destruct t; try apply fmp_ret. destruct (Nc UNone). split; eauto.
    + apply fmp_ret.
    + apply fmp_ret.
  - pose proof (others_nonneg _ _ _ O2). eapply fmp_relevant; [exact Hn|exact Kt|exact O1|lia|]. cbv beta iota. unfold tag_value. eapply fmp_val_later; [apply tag_reads; eauto|]. cbv beta iota. rewrite E.
    eapply fmp_relevant; [exact Hn|exact Kc|exact O2|lia|]. cbv beta iota. eapply fmp_val_now; [reflexivity|]. eapply content_fails; [apply (Ht _ _ _ _ E)|exact Hc].
  - pose proof (others_nonneg _ _ _ O2). eapply fmp_relevant; [exact Hn|exact Kt|exact O1|lia|]. cbv beta iota. unfold tag_value. eapply fmp_val_later; [apply tag_reads; eauto|]. cbv beta iota. rewrite E.
    rewrite <- (app_nil_r kt'). eapply fmp_relevant; [exact Hn|exact Kt'|exact O2|lia|]. cbv beta iota. apply fmp_ret.
  - destruct (Ht _ _ _ _ E) as [W K]. pose proof (others_nonneg _ _ _ O2). pose proof (others_nonneg _ _ _ O3).
    eapply fmp_relevant; [exact Hn|exact Kt|exact O1|lia|]. cbv beta iota. unfold tag_value. eapply fmp_val_later; [apply tag_reads; eauto|]. cbv beta iota. rewrite E.
    eapply fmp_relevant; [exact Hn|exact Kc|exact O2|lia|]. cbv beta iota. eapply fmp_val_later; [apply content_reads; eauto|]. cbv beta iota. unfold no_more.
    rewrite <- (app_nil_r ka). eapply fmp_relevant; [exact Hn|exact Ka|exact O3|lia|]. cbv beta iota. apply fmp_ret.
  - pose proof (others_nonneg _ _ _ O2). eapply fmp_relevant; [exact Hn|exact Kc|exact O1|lia|]. cbv beta iota.
    eapply fmp_val_later; [exact (proj1 (proj1 (any_reads ar fo) m b F) w D)|]. cbv beta iota.
    replace (n1 + (1 + n2) - n1 - 1) with n2 by lia. eapply fmp_relevant_end; [|exact O2]. apply fmp_ret.
  - pose proof (others_nonneg _ _ _ O2). eapply fmp_relevant; [exact Hn|exact Kc|exact O1|lia|]. cbv beta iota.
    eapply fmp_val_later; [exact (proj1 (proj1 (any_reads ar fo) m b F) w D)|]. cbv beta iota.
    rewrite <- (app_nil_r kc'). eapply fmp_relevant; [exact Hn|exact Kc'|exact O2|lia|]. cbv beta iota. apply fmp_ret.
Qed.
Theorem mp_adjacent_refuses tag content vs bs tail : arch32up ar -> variants_ok tag content vs -> adjacent_fault fo tag content vs bs -> slice_of ar (bs ++ tail) ->
  exists N, forall fuel, (N <= fuel)%nat -> exists s, mp_from_slice ar fo fuel (adjacent fo err tag content vs) (bs ++ tail) = Done s (Err err).
Proof. intros A V H Hs. destruct (adjacent_fails _ _ _ _ V H) as [N F]. exists N. intros f Hf. apply from_slice_fails; auto. Qed.
End A.

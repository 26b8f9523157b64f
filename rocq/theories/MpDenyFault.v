(** Structs that refuse unknown fields, in MessagePack: faults of the input (C77). *)
From Verif Require Import Prelude PreludeFacts Utf8 Utf8Spec Utf8Facts SerdeSer SerdeDe Arch MpMagick MpSpec MpDe MpDeView MpDeReads MpDeEat MpDeTop MpDeTrail
  FloatOps Types TypesFacts MpTypeSpec MpTyped MpAny MpSerSim MpTypedTop MpFaultSpec MpFault Deny DenySpec DenyFaultSpec MpDeny MpDenySer.
Ltac Zify.zify_post_hook ::= Z.div_mod_to_equations.

Section Fault.
Context (ar : arch) (fo : float_ops).
Local Notation prog t := (denote DeserializeError t).
Theorem deny_fault_fails fs bs e : deny_fault fo fs bs e -> wf (TStruct fs) -> fde ar fo (denying DeserializeError fs) bs e.
Proof.
  intros D W. pose proof W as [Hns Hw]. apply all_list_Forall in Hw. apply (Forall_impl _ (fun f H => proj1 H)) in Hw.
  destruct D as [fs c Hc Hr|fs1 f fs2 n h l bs b e Hh Hn Hl Hs Hf|fs1 ds f fs2 h l bs Hh Hl Hs Hds Hf|fs n h l bs Hh Hn Hl Hs
    |fs n h m bs got k e Hh Hm He Hk|fs bs Hu|fs n h m bs got i f k b e Hh Hm He Hi Hg Hk Hf|fs n h m bs got i v k Hh Hm He Hg Hk|fs n h bs got i f Hh He Hi Hg Hp Ho].
  - cbn [refuses] in Hr. apply fde_request, ev_all. intros f. cbn [mp_method]. unfold deserialize_struct.
    assert (c < 0x80 \/ 0x9f < c < 0xdc \/ 0xdf < c) by (unfold family_of in Hr; unfold is_byte in Hc; repeat match type of Hr with context [if ?b then _ else _] => destruct b eqn:? end; try discriminate; lia).
    clear Hr. apply fails_cons. unfold between, FIXMAP, FIXMAP_MAX, MAP_16, MAP_32, FIXARRAY, FIXARRAY_MAX, ARRAY_16, ARRAY_32.
    repeat match goal with |- context [if ?b then _ else _] => replace b with false by lia end.
    first [apply fails_fail|apply fails_bind1, fails_fail].
  - apply fde_request. eapply fme_arr; [cbn; auto|eauto|]. cbn [visit_seq mk_visitor v_struct on_seq].
    rewrite map_app. apply Forall_app in Hw. destruct Hw as [W1 W2]. inversion W2; subst.
    eapply fsq_tuple with (l := l); [apply field_faults; exact W1|rewrite map_length; auto|rewrite zlen_map; lia|exact Hs|].
    intros acc. cbn [map tuple_prog]. apply fsq_now; auto; [rewrite zlen_map; lia|]. apply fault_fails; auto.
  - apply fde_request. eapply fme_arr; [cbn; auto|eauto|]. cbn [visit_seq mk_visitor v_struct on_seq].
    rewrite map_app. apply Forall_app in Hw. destruct Hw as [W1 W2]. rewrite <- (app_nil_r bs).
    eapply fsq_tuple with (l := l); [apply field_faults; exact W1|rewrite map_length; auto|rewrite zlen_map; lia|exact Hs|].
    intros acc. rewrite zlen_map, Z.sub_diag. clear - Hds Hf. revert acc. induction Hds as [|d ds Hd _ IH]; intros acc; cbn [app map tuple_prog].
    + apply fsq_end. rewrite Hf. cbn. apply fsq_ret.
    + apply fsq_end. destruct (attr_of d) as [|dv]; [congruence|]. cbn [default_of]. apply IH.
  - apply fde_request.
    assert (F : rsq ar fo (tuple_prog DeserializeError (map (fun f => (prog (snd f), default_of (attr_of f))) fs) []) n bs (Ok (USeq (rev [] ++ l), n - zlen fs))).
    { rewrite <- (zlen_map (fun f => (prog (snd f), default_of (attr_of f))) fs). eapply rsq_tuple_more with (l := l); [apply field_faults; exact Hw|rewrite map_length; auto|rewrite zlen_map; lia|exact Hs]. }
    eapply fme_arr_many; [cbn; auto|eauto| |exact F]. lia.
  - apply fde_request. eapply fme_map; [cbn; auto|eauto|]. cbn [visit_map mk_visitor v_struct on_map].
    eapply fmp_deny; [exact W|exact He|lia|]. rewrite (mfrob_eq (deny_loop _ _ _ _ got)); cbn [mfrob deny_loop]. apply fmp_now; [lia|auto|]. apply fde_key. auto.
  - apply deny_unknown_fails; auto.
  - apply fde_request. eapply fme_map; [cbn; auto|eauto|]. cbn [visit_map mk_visitor v_struct on_map].
    eapply fmp_deny; [exact W|exact He|lia|]. rewrite (mfrob_eq (deny_loop _ _ _ _ got)); cbn [mfrob deny_loop]. eapply fmp_later; [lia|apply rde_ident; eauto|]. cbv beta iota.
    rewrite nth_error_map, Hi, Hg. cbn [option_map]. apply fmp_val_now; auto. apply fault_fails; auto.
    rewrite Forall_forall in Hw. apply Hw. eapply nth_error_In; eauto.
  - apply fde_request. eapply fme_map; [cbn; auto|eauto|]. cbn [visit_map mk_visitor v_struct on_map].
    eapply fmp_deny; [exact W|exact He|lia|]. rewrite (mfrob_eq (deny_loop _ _ _ _ got)); cbn [mfrob deny_loop]. rewrite <- (app_nil_r k).
    eapply fmp_later; [lia|apply rde_ident; eauto|]. cbv beta iota.
    rewrite Hg. destruct (nth_error (map (fun f => prog (snd f)) fs) i); apply fmp_ret.
  - apply fde_request. eapply fme_map; [cbn; auto|eauto|]. cbn [visit_map mk_visitor v_struct on_map]. rewrite <- (app_nil_r bs).
    eapply fmp_deny; [exact W|exact He|lia|]. rewrite Z.sub_diag.
    rewrite (mfrob_eq (deny_loop _ _ _ _ got)); cbn [mfrob deny_loop]. apply fmp_end.
    rewrite (finish_none fs got i f); auto; [apply fmp_ret|]. unfold absent_val. rewrite Hp. destruct (snd f); auto. exfalso. eapply Ho; eauto.
Qed.
End Fault.
Theorem mp_denying_faults ar fo fs bs e tail : arch32up ar -> wf (TStruct fs) -> deny_fault fo fs bs e -> slice_of ar (bs ++ tail) ->
  exists N, forall fuel, (N <= fuel)%nat -> exists s, mp_from_slice ar fo fuel (denying DeserializeError fs) (bs ++ tail) = Done s (Err e).
Proof. intros A W H Hs. destruct (deny_fault_fails ar fo fs bs e H W) as [N HN]. exists N. intros f Hf. apply from_slice_fails; auto. Qed.

(** Structs that refuse unknown fields, in MessagePack: unknown keys, and what is written (C77). *)
From Verif Require Import Prelude PreludeFacts Utf8Spec Writer SerMonad Utf8 Utf8Facts SerdeSer SerdeDe FloatOps Arch MpMagick MpSpec MpDe MpDeView MpDeReads MpDeEat MpDeTop
  MpSer MpErrMap MpSerSim MpSerProofs MpSerFacts Types TypesFacts MpTypeSpec MpTyped MpTypedSer MpAny MpTypedTop MpFault Deny DenySpec MpDeny.
From Verif Require MpSound.
Ltac Zify.zify_post_hook ::= Z.div_mod_to_equations.

(** ** Unknown keys *)
Section Unknown.
Context (ar : arch) (fo : float_ops) (fs : list (bytes * fattr * ty)) (W : wf (TStruct fs)).
Local Notation err := DeserializeError.
Local Notation names := (map name_of fs).
Local Notation ps := (map (fun f => adm fo (snd f)) fs).
Local Notation seeds := (map (fun f => denote err (snd f)) fs).
Local Notation loop := (deny_loop err names seeds (map absent_val fs)).
Lemma fmp_deny b e got m bs got' : known_entries names ps got m bs got' -> forall n, m <= n ->
  fmp ar fo (loop got') (n - m) b e -> fmp ar fo (loop got) n (bs ++ b) e.
Proof.
  pose proof W as [Hn _]. induction 1 as [got|got m i p v k b0 rest got' H1 H2 H3 H4 H5 IH]; intros n Hm Hf.
  - replace (n - 0) with n in Hf by lia. exact Hf.
  - apply known_nonneg in H5. rewrite (mfrob_eq (loop got)); cbn [mfrob deny_loop]. rewrite <- !app_assoc.
    eapply fmp_later; [lia|apply rde_ident; eauto|]. cbv beta iota.
    rewrite nth_error_map in *. destruct (nth_error fs i) as [f|] eqn:Ef; [|discriminate]. injection H2 as <-. cbn [option_map].
    rewrite H1. eapply fmp_val_later; [apply denote_reads; [apply (field_wf fs W); eapply nth_error_In; eauto|exact H4]|]. cbv beta iota.
    apply IH; [lia|]. replace (n - 1 - m) with (n - (1 + m)) by lia. exact Hf.
Qed.
Lemma deny_unknown_fails bs : deny_unknown fo fs bs -> fde ar fo (denying err fs) bs err.
Proof.
  intros (n & m & h & b & got & k & -> & Hh & Hm & He & Hk). unfold denying. apply fde_request.
  eapply fme_map; [cbn; auto|exact Hh|]. cbn [visit_map mk_visitor v_struct on_map].
  eapply fmp_deny; [exact He|lia|]. rewrite (mfrob_eq (loop got)); cbn [mfrob deny_loop].
  apply fmp_now; [lia|auto|]. apply fde_unknown. exact Hk.
Qed.
End Unknown.
Theorem mp_deny_unknown ar fo fs bs tail : arch32up ar -> wf (TStruct fs) -> deny_unknown fo fs bs -> slice_of ar (bs ++ tail) ->
  exists N, forall fuel, (N <= fuel)%nat -> exists s, mp_from_slice ar fo fuel (denying DeserializeError fs) (bs ++ tail) = Done s (Err DeserializeError).
Proof. intros A W H Hs. destruct (deny_unknown_fails ar fo fs W bs H) as [N HN]. exists N. intros f Hf. apply from_slice_fails; auto. Qed.

(** ** What is written *)
Fixpoint somes (l : list (option val)) : Z := match l with [] => 0 | Some _ :: l => 1 + somes l | None :: l => somes l end.
Lemma somes_set l v : forall i, nth_error l i = Some None -> somes (set_nth l i (Some v)) = 1 + somes l.
Proof.
  induction l as [|o l IH]; intros [|i] H; cbn in *; try discriminate; [injection H as ->; reflexivity|].
  rewrite (IH i H). destruct o; lia.
Qed.
Lemma somes_none {A} (l : list A) : somes (map (fun _ => None) l) = 0.
Proof. induction l; cbn; auto. Qed.
(** Only fields fill up: with as many entries as fields, none is unknown. *)
Lemma entries_somes names ps got n b got' : entries names ps got n b got' -> somes got' <= somes got + n.
Proof. induction 1 as [| |]; [lia| |lia]. rewrite (somes_set _ _ _ H) in *. lia. Qed.
Lemma all_known names ps got n b got' : entries names ps got n b got' -> somes got' = somes got + n -> known_entries names ps got n b got'.
Proof.
  induction 1 as [got|got n i p v k b rest got' H1 H2 H3 H4 H5 IH|got n m k b rest got' H1 H2 H3 IH]; intros E; [constructor| |].
  - econstructor; eauto. apply IH. rewrite (somes_set _ _ _ H1). lia.
  - apply entries_somes in H3. lia.
Qed.

Section Ser.
Context {E : Type} (cfg : mp_cfg) (fl : flavour) (fo : float_ops) (skips : Prop).
Local Notation X := (mp_ser_error E).
Local Notation VW := (@VecWriter E).
Local Notation ser := (mp_ser VW cfg fl).
Local Notation sok := (sok (E := E) fl skips).
Lemma somes_gval fs : forall l, somes (zip gval fs l) = count_some (zip item fs l).
Proof.
  induction fs as [|f fs IH]; intros [|v l]; cbn [zip]; auto. unfold gval at 1, item at 1. destruct (skipped (attr_of f) v).
  - rewrite count_cons_none. cbn [somes]. apply IH.
  - rewrite count_cons_some. cbn [somes]. rewrite IH. reflexivity.
Qed.
Lemma sok_deny fs l : names_ok (map name_of fs) -> Forall (fun f => skips \/ attr_of f = FPlain) fs -> all2 (field_sok (E := E) cfg fl fo skips) fs l ->
  sok (sbind (inherent_serialize_struct VW fl (count_some (zip item fs l))) (fun s =>
    sbind (ser_fields VW fl ser (zip item fs l) s) (fun s => struct_end fl s))) tt
    (deny_enc fo fs (zip cval fs l)).
Proof.
  intros Hn Hq H. pose proof (all2_length _ _ _ H) as Hl.
  assert (Hc : 0 <= count_some (zip item fs l) < 2 ^ 32).
  { pose proof (count_nonneg (zip item fs l)) as Hc. unfold zlen in Hc. rewrite zip_len in Hc by auto.
    destruct Hn as (_ & _ & Hn). unfold short, zlen in Hn. rewrite map_length in Hn. lia. }
  assert (Hcase : fl = Compact \/ fl <> Compact) by (destruct fl; auto; right; discriminate).
  destruct Hcase as [Hfl|Hfl].
  - pose proof (sok_fields_arr (E := E) cfg fl fo skips Hfl fs l 0 Hq H) as HF. set (n := count_some (zip item fs l)) in *.
    eapply sok_bind with (a := (n, 0)) (P := arr_hdr n).
    + destruct (array_len_ok (E := E) n Hc) as (h & He & Hh & _).
      apply (sok_ext fl skips (sbind (write_array_len VW n) (fun _ => sret (n, 0)))).
      { unfold inherent_serialize_struct. rewrite Hfl. reflexivity. }
      apply (sok_bind_ret fl skips _ tt (fun _ => (n, 0))). left. eauto.
    + eapply sok_bind with (Q := fun b => b = []); [exact HF| |].
      * apply (sok_ext fl skips (sret tt)); [|apply sok_ret]. unfold struct_end. rewrite Hfl. reflexivity.
      * intros x y Hx ->. rewrite app_nil_r. exact Hx.
    + intros x y Hx (k & Hk & Hn' & Hs & Ha). left. exists k, x, y. rewrite Hn'. rewrite zip_len by auto. auto 8.
  - destruct (sok_fields_map (E := E) cfg fl fo skips Hfl fs Hn fs [] l [] 0 eq_refl eq_refl (fun _ => eq_refl) H) as (idx' & HF).
    pose proof (somes_gval fs l) as HS. set (n := count_some (zip item fs l)) in *. cbn [app] in HF.
    eapply sok_bind with (a := (n, 0)) (P := map_hdr n).
    + unfold inherent_serialize_struct. destruct (map_len_ok (E := E) n Hc) as (h & He & Hh & _).
      destruct fl; try congruence; apply (sok_bind_ret _ skips _ tt (fun _ => (n, 0))); left; eauto.
    + eapply sok_bind with (Q := fun b => b = []); [exact HF| |].
      * unfold struct_end. destruct fl; try congruence; apply sok_ret.
      * intros x y Hx ->. rewrite app_nil_r. exact Hx.
    + intros x y Hx Hy. right. exists n, x, y, (zip gval fs l). split; auto. split; auto.
      split; [apply all_known; auto; rewrite somes_none; lia|]. apply all_fields_gval; auto.
Qed.
Lemma trace_deny fs l : wf (TStruct fs) -> skips \/ plain (TStruct fs) -> hastype (TStruct fs) (USeq l) ->
  sok (ser (trace (TStruct fs) (USeq l))) tt (deny_enc fo fs (zip cval fs l)).
Proof.
  intros [Hn Hw] Hq H. cbn [hastype] in H. cbn [plain] in Hq. cbn [trace]. unfold struct_call. rewrite zip_map. fold item.
  apply (sok_deny fs l); auto.
  - destruct Hq as [Hq|Hq]; [apply Forall_forall; auto|]. clear - Hq. induction fs; constructor; cbn in Hq; tauto.
  - clear Hn. revert l H Hw Hq. induction fs as [|f fs' IH]; intros [|v l] H Hw Hq; cbn in *; try tauto.
    destruct Hw as [[Hw1 Hw1'] Hw2], H as [H1 H2]. split; [|apply IH; tauto].
    intros _. eapply sok_imp; [apply (trace_sok cfg fl fo skips (snd f)); auto; tauto|]. intros b [Hb _]. exact Hb.
Qed.
End Ser.

Theorem mp_denying_round_trip ar fo cfg fl fs l out tail : arch32up ar -> wf (TStruct fs) -> hastype (TStruct fs) (USeq l) ->
  mp_to_vec cfg fl (trace (TStruct fs) (USeq l)) = Ok out -> slice_of ar (out ++ tail) ->
  exists N, forall fuel, (N <= fuel)%nat ->
    exists s, mp_from_slice ar fo fuel (denying DeserializeError fs) (out ++ tail) = Done s (Ok (collapse nullish (TStruct fs) (USeq l), zlen out)).
Proof.
  intros A W H Ho Hs. destruct (trace_deny (E := ser_error) cfg fl fo True fs l W (or_introl I) H) as [(out' & He & D)|(_ & o & e & He)];
    apply to_vec_emits in He; rewrite He in Ho; [|discriminate Ho]. injection Ho as <-. cbn [collapse]. rewrite zip_map. apply mp_denying_takes; auto.
Qed.

(** ** Without the attribute *)
Lemma known_all names ps got n b got' : known_entries names ps got n b got' -> entries names ps got n b got'.
Proof. induction 1; econstructor; eauto. Qed.
Lemma deny_adm fo fs l bs : deny_enc fo fs l bs -> adm fo (TStruct fs) (USeq l) bs.
Proof.
  intros [H|(k & h & b & got & H1 & H2 & H3 & H4)]; [left; exact H|]. right. exists k, h, b, got. split; auto. split; auto. split; auto. apply known_all. exact H3.
Qed.
Theorem mp_denying_weaker ar fo fs fuel input s u n : arch64 ar -> wf (TStruct fs) -> slice64 input ->
  mp_from_slice ar fo fuel (denying DeserializeError fs) input = Done s (Ok (u, n)) ->
  exists N, forall fuel', (N <= fuel')%nat -> exists s', mp_from_slice ar fo fuel' (denote DeserializeError (TStruct fs)) input = Done s' (Ok (u, n)).
Proof.
  intros A W Hs E. destruct (mp_denying_sound fo fs ar fuel input s u n A W Hs E) as (l & bs & tail & -> & <- & -> & H).
  destruct (denote_reads ar fo (TStruct fs) W (USeq l) bs (deny_adm fo fs l bs H)) as [N HN]. exists N. intros f Hf.
  apply from_slice_reads; [apply arch64_up; auto|apply slice64_of; auto|auto].
Qed.
Theorem mp_denying_unambiguous fo fs l l' bs tail : wf (TStruct fs) -> slice64 (bs ++ tail) ->
  deny_enc fo fs l bs -> deny_enc fo fs l' (bs ++ tail) -> l = l' /\ tail = [].
Proof.
  intros W Hs H H'. destruct (MpSound.adm_unambiguous fo _ _ _ bs tail W Hs (deny_adm _ _ _ _ H) (deny_adm _ _ _ _ H')) as [E ->].
  injection E as ->. auto.
Qed.

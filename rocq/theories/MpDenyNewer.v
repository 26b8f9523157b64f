(** Structs that refuse unknown fields, in MessagePack: fields added later (C77). *)
From Verif Require Import Prelude PreludeFacts Utf8Spec Writer SerMonad Utf8 Utf8Facts SerdeSer SerdeDe FloatOps Arch MpMagick MpSpec MpDe MpDeView MpDeReads MpDeEat MpDeTop
  MpSer MpErrMap MpSerSim MpSerProofs MpSerFacts Types TypesFacts MpTypeSpec MpTyped MpTypedSer MpAny MpTypedTop MpFault Deny DenySpec MpDeny MpDenySer.
From Verif Require MpSound.
Ltac Zify.zify_post_hook ::= Z.div_mod_to_equations.

Definition map_of fo fs l bs : Prop := exists n h b, bs = h ++ b /\ map_hdr n h /\
  known_entries (map name_of fs) (map (fun f => adm fo (snd f)) fs) (map (fun _ => None) fs) n b (zip gval fs l).
Section Ser.
Context {E : Type} (cfg : mp_cfg) (fl : flavour) (fo : float_ops) (Hfl : fl <> Compact).
Local Notation VW := (@VecWriter E).
Local Notation ser := (mp_ser VW cfg fl).
Local Notation sok := (sok (E := E) fl True).
Lemma sok_map fs l : names_ok (map name_of fs) -> all2 (field_sok (E := E) cfg fl fo True) fs l ->
  sok (sbind (inherent_serialize_struct VW fl (count_some (zip item fs l))) (fun s =>
    sbind (ser_fields VW fl ser (zip item fs l) s) (fun s => struct_end fl s))) tt (map_of fo fs l).
Proof.
  intros Hn H. pose proof (all2_length _ _ _ H) as Hl.
  assert (Hc : 0 <= count_some (zip item fs l) < 2 ^ 32).
  { pose proof (count_nonneg (zip item fs l)) as Hc. unfold zlen in Hc. rewrite zip_len in Hc by auto.
    destruct Hn as (_ & _ & Hn). unfold short, zlen in Hn. rewrite map_length in Hn. lia. }
  destruct (sok_fields_map (E := E) cfg fl fo True Hfl fs Hn fs [] l [] 0 eq_refl eq_refl (fun _ => eq_refl) H) as (idx' & HF).
  pose proof (somes_gval fs l) as HS. set (n := count_some (zip item fs l)) in *. cbn [app] in HF.
  eapply sok_bind with (a := (n, 0)) (P := map_hdr n).
  + unfold inherent_serialize_struct. destruct (map_len_ok (E := E) n Hc) as (h & He & Hh & _).
    destruct fl; try congruence; apply (sok_bind_ret _ True _ tt (fun _ => (n, 0))); left; eauto.
  + eapply sok_bind with (Q := fun b => b = []); [exact HF| |].
    * unfold struct_end. destruct fl; try congruence; apply sok_ret.
    * intros x y Hx ->. rewrite app_nil_r. exact Hx.
  + intros x y Hx Hy. exists n, x, y. split; auto. split; auto. apply all_known; auto. rewrite somes_none; lia.
Qed.
Lemma trace_map fs l : wf (TStruct fs) -> hastype (TStruct fs) (USeq l) -> sok (ser (trace (TStruct fs) (USeq l))) tt (map_of fo fs l).
Proof.
  intros [Hn Hw] H. cbn [hastype] in H. cbn [trace]. unfold struct_call. rewrite zip_map. fold item.
  apply (sok_map fs l); auto.
  clear Hn. revert l H Hw. induction fs as [|f fs' IH]; intros [|v l] H Hw; cbn in *; try tauto.
  destruct Hw as [[Hw1 Hw1'] Hw2], H as [H1 H2]. split; [|apply IH; tauto].
  intros _. eapply sok_imp; [apply (trace_sok cfg fl fo True (snd f)); auto; tauto|]. intros b [Hb _]. exact Hb.
Qed.
End Ser.

Lemma set_nth_app1 {A} (a b : list A) x : forall i, (i < length a)%nat -> set_nth (a ++ b) i x = set_nth a i x ++ b.
Proof. induction a as [|y a IH]; intros [|i] H; cbn in *; try lia; auto. rewrite IH by lia. reflexivity. Qed.
Lemma known_pos names ps got n b got' : known_entries names ps got n b got' -> 0 <= n.
Proof. induction 1; lia. Qed.
(** The entries of the fields before [names2], up to the first one of a field after. *)
Lemma first_new names names2 (ps ps2 : list (val -> bytes -> Prop)) : names_ok (names ++ names2) -> length ps = length names ->
  forall G n b got', known_entries (names ++ names2) (ps ++ ps2) G n b got' -> forall g1 g2, G = g1 ++ g2 -> length g1 = length names ->
  (exists g1', got' = g1' ++ g2 /\ length g1' = length names) \/
  (exists m b1 k rest got1, b = b1 ++ k ++ rest /\ m < n /\ known_entries names ps g1 m b1 got1 /\ unknown_enc names k).
Proof.
  intros (Hd & Hu & _) Hp G n b got'. induction 1 as [got|got n i p v k b rest got' H1 H2 H3 H4 H5 IH]; intros g1 g2 -> Hg; [left; eauto|].
  assert (Hn : 0 <= n) by (eapply known_pos; exact H5).
  destruct (Nat.lt_ge_cases i (length names)) as [Hi|Hi].
  - rewrite nth_error_app1 in H1 by lia. rewrite nth_error_app1 in H2 by lia.
    assert (H3' : ident_enc names i k).
    { destruct H3 as [(s & Hs & Hk)|[_ Hk]]; [left; exists s; rewrite nth_error_app1 in Hs by lia; auto|right; auto]. }
    destruct (IH (set_nth g1 i (Some v)) g2) as [(g1' & -> & Hl)|(m & b1 & k' & r & got1 & -> & Hm & He & Hk)];
      [apply set_nth_app1; lia|rewrite MpSound.set_nth_length; auto| |].
    + left. exists g1'. auto.
    + right. exists (1 + m), (k ++ b ++ b1), k', r, got1. rewrite <- !app_assoc. split; auto. split; [lia|]. split; auto. econstructor; eauto.
  - right. exists 0, [], k, (b ++ rest), g1. split; [reflexivity|]. split; [lia|]. split; [constructor|].
    destruct H3 as [(s & Hs & Hk)|[_ Hk]]; [left; exists s|right; exists (Z.of_nat i); unfold zlen; split; [lia|auto]].
    pose proof (nth_error_In _ _ Hs) as Hin. rewrite Forall_forall in Hu. split; [apply Hu; auto|]. split; auto. intros Hin'.
    rewrite nth_error_app2 in Hs by lia. apply nth_error_In in Hs. clear - Hd Hs Hin'. induction names as [|x names IH]; cbn in *; [tauto|].
    inversion Hd; subst. destruct Hin' as [->|Hin']; [apply H1; apply in_or_app; auto|auto].
Qed.
Lemma zip_nth {A B C} (f : A -> B -> C) l : forall m i a b, nth_error l i = Some a -> nth_error m i = Some b -> nth_error (zip f l m) i = Some (f a b).
Proof. induction l as [|x l IH]; intros [|y m] [|i] a b Ha Hb; cbn in *; try discriminate; [congruence|apply IH; auto]. Qed.
Theorem mp_denying_newer ar fo cfg fl fs gs l out tail : arch32up ar -> wf (TStruct fs) -> wf (TStruct (fs ++ gs)) -> hastype (TStruct (fs ++ gs)) (USeq l) ->
  fl <> Compact -> (exists i f v, (length fs <= i)%nat /\ nth_error (fs ++ gs) i = Some f /\ nth_error l i = Some v /\ skipped (attr_of f) v = false) ->
  mp_to_vec cfg fl (trace (TStruct (fs ++ gs)) (USeq l)) = Ok out -> slice_of ar (out ++ tail) ->
  exists N, forall fuel, (N <= fuel)%nat -> exists s, mp_from_slice ar fo fuel (denying DeserializeError fs) (out ++ tail) = Done s (Err DeserializeError).
Proof.
  intros A W W' H Hfl (i & f & v & Hi & Ef & Ev & Es) Ho Hs.
  destruct (trace_map (E := ser_error) cfg fl fo Hfl (fs ++ gs) l W' H) as [(out' & He & D)|(_ & o & e & He)];
    apply to_vec_emits in He; rewrite He in Ho; [|discriminate Ho]. injection Ho as <-. destruct D as (n & h & b & -> & Hh & D).
  rewrite !map_app in D. destruct W' as [Hn _]. rewrite map_app in Hn.
  assert (L1 : length (map (fun f => adm fo (snd f)) fs) = length (map name_of fs)) by (rewrite !map_length; reflexivity).
  assert (L2 : length (map (fun _ => @None val) fs) = length (map name_of fs)) by (rewrite !map_length; reflexivity).
  destruct (first_new (map name_of fs) (map name_of gs) (map (fun f => adm fo (snd f)) fs) (map (fun f => adm fo (snd f)) gs) Hn L1
    _ n b (zip gval (fs ++ gs) l) D (map (fun _ => None) fs) (map (fun _ => None) gs) eq_refl L2)
    as [(g & E & Hg)|(m & b1 & k & rest & got & -> & Hm & He1 & Hk)].
  - exfalso. pose proof (zip_nth gval _ _ _ _ _ Ef Ev) as Z. rewrite E in Z. unfold gval in Z. rewrite Es in Z. rewrite map_length in Hg.
    rewrite nth_error_app2 in Z by lia. rewrite nth_error_map in Z. destruct (nth_error gs _); discriminate Z.
  - rewrite <- !app_assoc in *. replace (h ++ b1 ++ k ++ rest ++ tail) with ((h ++ b1 ++ k) ++ rest ++ tail) in * by (rewrite <- !app_assoc; reflexivity).
    apply mp_deny_unknown; auto. exists n, m, h, b1, got, k. auto 6.
Qed.

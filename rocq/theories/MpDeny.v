(** Structs that refuse unknown fields, in MessagePack (C77). *)
From Verif Require Import Prelude PreludeFacts Utf8Spec Utf8 Utf8Facts SerdeSer SerdeDe FloatOps Arch MpMagick MpSpec MpErrMap MpDe MpDeView MpDeReads MpDeEat MpDeTop
  Types TypesFacts TypeSize MpTypeSpec MpTyped MpSound MpFuel Deny DenySpec.
From Verif Require MpAdjacentEnds AdjacentEnds.
Ltac Zify.zify_post_hook ::= Z.div_mod_to_equations.

Section Mp.
Context (ar : arch) (fo : float_ops) (Wide : wide ar).
Local Notation err := DeserializeError.
Local Notation sde := (sde ar fo).
Local Notation rde := (rde ar fo).
Local Notation sound := (sound ar).
Local Notation run := (@mp_run ar fo val).
Context (fs : list (bytes * fattr * ty)) (W : wf (TStruct fs)).
Local Notation names := (map name_of fs).
Local Notation ps := (map (fun f => adm fo (snd f)) fs).
Local Notation seeds := (map (fun f => denote err (snd f)) fs).
Local Notation loop := (deny_loop err names seeds (map absent_val fs)).

Lemma field_wf f : In f fs -> wf (snd f).
Proof. intros H. destruct W as [_ W']. apply (all_list_In _ _ W' f H). Qed.
Lemma known_nonneg got n b got' : known_entries names ps got n b got' -> 0 <= n.
Proof. induction 1; lia. Qed.
Lemma known_length got n b got' : known_entries names ps got n b got' -> length got' = length got.
Proof. induction 1; auto. rewrite IHknown_entries, set_nth_length. auto. Qed.

(** ** What is read *)
Lemma rmp_deny l got n bs got' : known_entries names ps got n bs got' -> finish got' (map absent_val fs) = Some l ->
  rmp ar fo (loop got) n bs (Ok (USeq l, 0)).
Proof.
  destruct W as [Hn _].
  induction 1 as [got|got n i p v k b rest got' H1 H2 H3 H4 H5 IH]; intros Hf;
    rewrite (mfrob_eq (loop got)); cbn [mfrob deny_loop].
  - apply rmp_end. rewrite Hf. apply rmp_ret.
  - apply known_nonneg in H5. eapply rmp_key; [lia|reflexivity|apply rde_ident; eauto|]. cbv beta iota.
    rewrite nth_error_map in *. destruct (nth_error fs i) as [f|] eqn:Ef; [|discriminate]. injection H2 as <-. cbn [option_map].
    rewrite H1. replace (1 + n - 1) with n by lia.
    eapply rmp_val; [reflexivity|apply denote_reads; [apply field_wf; eapply nth_error_In; eauto|exact H4]|]. apply IH. auto.
Qed.
Lemma denying_reads l bs : deny_enc fo fs l bs -> rde (denying err fs) bs (Ok (USeq l)).
Proof.
  intros [(n & h & b & -> & Hn' & Hh & Hl0 & Hb & Hd)|(n & h & b & got & -> & Hh & He & Ha)]; unfold denying; apply rde_request.
  - eapply rme_struct_arr; [eauto|]. cbn.
    apply (rsq_tuple ar fo _ ps l n []); rewrite ?map_length; auto.
    + apply Forall2_map. intros f Hf v c. cbn [fst]. apply denote_reads. apply field_wf; auto.
    + clear - Hd. rewrite skipn_map. revert Hd. generalize (skipn n fs) (skipn n l). clear.
      induction l as [|f fs IH]; intros [|v l] H; cbn in *; auto. destruct H as [H1 H2]. split; auto. rewrite H1. auto.
  - eapply rme_struct_map; [eauto|]. cbn. eapply rmp_deny; eauto. apply finish_all; auto.
Qed.

(** ** Nothing else is *)
Lemma smp_deny f : forall got n, length got = length fs -> 0 <= n ->
  sound (r_map (run f) (loop got) n)
    (fun r b => exists l got', fst r = USeq l /\ known_entries names ps got n b got' /\ finish got' (map absent_val fs) = Some l).
Proof.
  induction f as [f IH] using (well_founded_induction lt_wf); intros got n Lg Hn.
  destruct f as [|f]; [apply sound_fuel|].
  rewrite (mfrob_eq (loop got)). cbn [mfrob deny_loop]. cbn [mp_run r_map step_map].
  apply sound_if; intros E.
  - assert (n = 0) as -> by lia. destruct f; [apply sound_fuel|]. cbn [mp_run r_map step_map].
    destruct (finish got (map absent_val fs)) as [l|] eqn:Ef; [|intros s s' a _ _ D; discriminate D].
    apply sound_ret. exists l, got. split; auto. split; auto. constructor.
  - eapply sound_try; [apply sde_ident|intros e; apply never_map_err|]. intros k x Px. cbn [res_some].
    destruct k as [| | | | | | | | | | | | |[i|]]; cbn [ident_post] in Px; try contradiction; [|destruct Px; discriminate].
    cbv iota. rewrite nth_error_map. destruct (nth_error fs i) as [fd|] eqn:Ef; [|apply sound_never, never_map_err]. cbn [option_map].
    destruct (nth_error got i) as [[w|]|] eqn:Eg; try (apply sound_never, never_map_err).
    destruct f as [|f]; [apply sound_fuel|]. cbn [mp_run r_map step_map].
    eapply sound_try; [apply (denote_sound ar fo Wide), field_wf, (nth_error_In _ _ Ef)|intros e; apply never_map_err|]. intros v y Py.
    eapply sound_weaken; [apply (IH f)|]; [lia|rewrite set_nth_length; auto|lia|].
    intros r b (l & got' & Hu & He & Hf). exists l, got'. split; auto. split; auto.
    replace n with (1 + (n - 1)) by lia. eapply KE_field; eauto. rewrite nth_error_map, Ef. reflexivity.
Qed.
Lemma denying_sound : sde (denying err fs) (fun u bs => exists l, u = USeq l /\ deny_enc fo fs l bs).
Proof.
  unfold denying. apply sde_request. intros f. cbn [mp_method].
  eapply sound_struct; [intros n Hn|intros n Hn|..].
  - cbn [visit_map mk_visitor v_struct on_map]. apply smp_deny; auto. rewrite map_length. auto.
  - cbn [visit_seq mk_visitor v_struct on_seq]. apply (ssq_tuple ar fo _ ps); auto.
    apply Forall2_map. intros g Hg. cbn [fst]. apply (denote_sound ar fo Wide), field_wf, Hg.
  - intros n u h b Hh (l & got & Hu & He & Hf). cbn [fst] in Hu. subst u. exists l. split; auto. right. exists n, h, b, got. split; auto. split; auto. split; auto.
    apply finish_sound; auto. rewrite (known_length _ _ _ _ He), map_length. auto.
  - intros n u h b Hh (l & j & Hu & Ll & Hj & Hn & _ & Hb & Ha). cbn [fst snd rev app] in *. subst u. rewrite map_length in *. exists l. split; auto. left.
    exists j, h, b. split; auto. split; auto. split; [replace (Z.of_nat j) with n by lia; auto|]. split; auto. split; auto.
    rewrite skipn_map in Ha. apply all2_default. auto.
Qed.

(** ** Decoding ends *)
Context (orig : list Z).
Local Notation dB := (dB ar fo orig).
Lemma deny_loop_b n B got : (6 <= B)%nat -> (forall n seed, In seed seeds -> dB n B seed) -> mB ar fo orig n (B + 2) (loop got).
Proof.
  intros HB Hs f c Hc Hf.
  eapply (map_bound ar fo orig Wide (fun p => exists got, p = loop got) B n); [lia| |eauto|auto|lia].
  intros p (got' & ->). exists (ident err true names). eexists.
  split; [rewrite (mfrob_eq (loop _)); reflexivity|].
  split; [intros; apply (ident_b ar fo orig Wide); lia|]. split; [apply (ident_reads ar fo)|]. split; [eauto|]. split; [eauto|]. intros u.
  destruct u; try (left; eauto; fail). destruct o as [i|]; [|left; eauto].
  cbv iota. destruct (nth_error seeds i) as [seed|] eqn:Es; [|left; eauto]. destruct (nth_error got' i) as [[w|]|]; [left; eauto| |left; eauto].
  right. exists seed. eexists. split; [reflexivity|]. split; [intros; apply Hs; eapply nth_error_In; eauto|]. split; eauto.
Qed.
Lemma denying_b n : dB n (S (10 * type_size (TStruct fs))) (denying err fs).
Proof.
  assert (HB : (10 <= 10 * type_size (TStruct fs))%nat) by (cbn [type_size]; lia).
  unfold denying, request. apply (req_bound ar fo orig Wide). split; [|split; [|split; [|split]]; first [discriminate|lia]]. intros n' _.
  cbn [visit_seq visit_map mk_visitor v_struct on_seq on_map type_size].
  assert (F : Forall (fun f => t_within ar fo orig (snd f)) fs).
  { apply Forall_forall. intros f Hf. apply (types_within ar fo orig Wide). apply field_wf; auto. }
  split; [apply (fields_within ar fo orig Wide); [exact F|lia]|].
  eapply mB_less; [|apply (deny_loop_b n' (10 * list_sum (map (fun f => type_size (snd f)) fs) + 6)); [lia|]]; [lia|].
  intros n0 seed Hin. apply in_map_iff in Hin. destruct Hin as (f & <- & Hin). apply (t_bound ar fo orig Wide); [rewrite Forall_forall in F; auto|].
  pose proof (AdjacentEnds.one_of_sum (fun f : bytes * fattr * ty => type_size (snd f)) fs f Hin). cbn beta in *. lia.
Qed.
End Mp.

(** ** Every input *)
Section Top.
Context (fo : float_ops) (fs : list (bytes * fattr * ty)).
Local Notation prog := (denying DeserializeError fs).
Theorem mp_denying_ends ar input fuel : arch64 ar -> wf (TStruct fs) -> slice64 input -> (10 * type_size (TStruct fs) + 1 + 3 * length input <= fuel)%nat ->
  exists s r, mp_from_slice ar fo fuel prog input = Done s r.
Proof. intros A64 W Hi Hf. eapply (MpFuel.ends_top ar fo A64); [auto|apply (denying_b ar fo (arch64_wide ar A64) fs W input)|lia]. Qed.
Theorem mp_denying_sound ar fuel input s u n : arch64 ar -> wf (TStruct fs) -> slice64 input ->
  mp_from_slice ar fo fuel prog input = Done s (Ok (u, n)) ->
  exists l bs tail, input = bs ++ tail /\ zlen bs = n /\ u = USeq l /\ deny_enc fo fs l bs.
Proof.
  intros A64 W Hs E. unfold mp_from_slice, dbind in E.
  assert (Hr : ready ar (de_from_slice input)).
  { apply ready64; auto. cbn. pose proof (zlen_nonneg input). lia. }
  destruct (r_de (mp_run ar fo fuel) prog (de_from_slice input)) as [s1 [a|e]| |] eqn:E1; try discriminate.
  assert (Hb : all_bytes (rest (de_from_slice input))) by apply Hs.
  destruct (denying_sound ar fo (arch64_wide ar A64) fs W fuel _ _ _ Hr Hb E1) as (bs & A1 & l & -> & P1).
  pose proof (ate_ready _ _ _ _ A1) as R1. unfold de_end in E. pose proof (rest_length _ _ R1) as L1.
  destruct (d_index s1 <=? zlen (sl_data (d_input s1))) eqn:E2; [|discriminate].
  destruct A1 as [_ A1]. change (rest (de_from_slice input)) with input in A1.
  assert (L : zlen input = zlen bs + zlen (rest s1)) by (rewrite A1 at 1; apply zlen_app).
  match type of E with (if ?b then _ else _) _ = _ => destruct b end; [|discriminate].
  injection E as _ <- <-. exists l, bs, (rest s1). split; auto. split; [lia|]. auto.
Qed.
Theorem mp_denying_takes ar l bs tail : arch32up ar -> wf (TStruct fs) -> deny_enc fo fs l bs -> slice_of ar (bs ++ tail) ->
  exists N, forall fuel, (N <= fuel)%nat -> exists s, mp_from_slice ar fo fuel prog (bs ++ tail) = Done s (Ok (USeq l, zlen bs)).
Proof. intros A W H Hs. destruct (denying_reads ar fo fs W l bs H) as [N HN]. exists N. intros f Hf. apply from_slice_reads; auto. Qed.
Theorem mp_denying_truncated ar l bs c q : arch32up ar -> wf (TStruct fs) -> deny_enc fo fs l (bs ++ c :: q) -> slice_of ar (bs ++ c :: q) ->
  exists N, forall fuel, (N <= fuel)%nat -> exists s, mp_from_slice ar fo fuel prog bs = Done s (Err UnexpectedEof).
Proof. intros A W H Hs. destruct (denying_reads ar fo fs W l _ H) as [N HN]. exists N. intros fuel Hf. eapply from_slice_truncated; eauto. Qed.
Theorem mp_denying_decides ar input fuel : arch64 ar -> wf (TStruct fs) -> slice64 input -> (10 * type_size (TStruct fs) + 1 + 3 * length input <= fuel)%nat ->
  (exists s l bs tail, mp_from_slice ar fo fuel prog input = Done s (Ok (USeq l, zlen bs)) /\ input = bs ++ tail /\ deny_enc fo fs l bs) \/
  (exists s e, mp_from_slice ar fo fuel prog input = Done s (Err e) /\ forall l bs tail, input = bs ++ tail -> ~ deny_enc fo fs l bs).
Proof.
  intros A64 W Hi Hf. destruct (mp_denying_ends ar input fuel A64 W Hi Hf) as (s & [[u n]|e] & E).
  - left. destruct (mp_denying_sound ar fuel input s u n A64 W Hi E) as (l & bs & tail & H1 & <- & -> & H2). exists s, l, bs, tail. auto.
  - right. exists s, e. split; auto. intros l bs tail -> Ha.
    destruct (mp_denying_takes ar l bs tail (arch64_up ar A64) W Ha (slice64_of ar _ A64 Hi)) as [N HN]. destruct (HN N (le_n N)) as [s' E'].
    destruct (MpFuel.budget_irrelevant ar fo _ _ _ _ _ _ _ _ E E') as [_ D]. discriminate D.
Qed.
End Top.

(** Structs with a flattened field are read from exactly the maps that represent them (C72). *)
From Verif Require Import Prelude PreludeFacts Utf8Spec Utf8 Utf8Facts SerdeSer SerdeDe FloatOps Arch MpMagick MpSpec MpErrMap MpDe MpDeView MpDeReads MpDeEat MpDeTop
  Types TypesFacts TypeSize MpTypeSpec MpTyped MpAny MpSound MpAnySound MpAnyFault Content ContentSpec ContentFacts BufferSpec BufferFacts EvolveFacts FlattenFacts MpContent Flatten FlattenEncSpec FlattenReadSpec MpFlattenRead MpAdjacentEnds MpAdjacentSound.
From Verif Require MpFuel.
Ltac Zify.zify_post_hook ::= Z.div_mod_to_equations.

Section Mp.
Context (ar : arch) (fo : float_ops) (Wide : wide ar).
Local Notation err := DeserializeError.
Local Notation sde := (sde ar fo).
Local Notation sound := (sound ar).
Local Notation run := (@mp_run ar fo val).
Context (fs : list (bytes * fattr * ty)) (g : ty) (W : wf (TStruct fs)) (Hg : nice g) (Wg : wf g).
Local Notation names := (map name_of fs).
Local Notation seeds := (map (fun f => denote err (snd f)) fs).
Local Notation loop := (flat_loop fo err names seeds (map absent_val fs) g).
Local Notation flat := (flat_map_enc names (map (fun f => adm fo (snd f)) fs) g).

Definition key_post (u : val) (k : bytes) : Prop :=
  (exists i s, u = UIdent (Some i) /\ nth_error names i = Some s /\ str_enc s k) \/
  (exists s, u = UStr s /\ other_key names (VStr s) k) \/ (exists z, u = UInt z /\ other_key names (VInt z) k).
Lemma sde_flat : sde (request DIdentifier (v_flat_ident err names)) key_post.
Proof.
  apply sde_request. intros f. cbn [mp_method]. unfold deserialize_identifier. apply sound_peek. intros c Hc.
  apply soundc_if; intros E.
  - eapply soundc_of with (P := fun a bs => exists z, int_fmt z bs /\ Ok a = visit_int (mk_visitor (v_flat_ident err names)) U32 z).
    + eapply sound_bind; [apply sound_integer|]. intros z x [_ Hz] _. apply sound_lift. intros a Ha. exists z. rewrite app_nil_r. auto.
    + intros a bs (z & Hz & Ha) Hl. pose proof (int_ident _ _ _ E Hz Hl) as Hi. cbn in Ha. injection Ha as ->. right. right. exists z. split; auto. right. eauto.
  - apply soundc_if; intros E2; [|intros s s' a _ _ _ D; discriminate D].
    eapply soundc_of with (P := key_post); [|auto].
    eapply sound_bind; [apply sound_str|]. intros x bs [Hu Hs] _. eapply sound_bind with (P := fun _ b => b = []).
    { intros s s' a Hs' Hb D. injection D as <- <-. exists []. split; auto. split; auto. apply adv_refl in Hs'. auto. }
    intros _ y -> _. apply sound_lift. cbn. intros a Ha. rewrite app_nil_r. destruct (find_name (sl_data x) names 0) as [i|] eqn:F; injection Ha as <-.
    + apply find_name_sound in F. destruct F as (k & -> & Hk). left. exists k, (sl_data x). auto.
    + right. left. exists (sl_data x). split; auto. left. exists (sl_data x). split; auto. split; auto. split; auto. eapply find_name_absent; eauto.
Qed.
Lemma taken_dec m : taken g m \/ ~ taken g m.
Proof. unfold taken. destruct g; try tauto. destruct m; try tauto. destruct (in_dec (list_eq_dec Z.eq_dec) s (map name_of fs0)); auto. Qed.
Lemma fields_wf : all_list (fun f => wf (snd f)) fs.
Proof. destruct W as [_ Hw]. clear - Hw. induction fs as [|f l IH]; [exact I|]. destruct Hw as [[W1 _] W2]. split; auto. Qed.
Lemma loop_sound f : forall got c n, length got = length fs -> 0 <= n ->
  sound (r_map (run f) (loop got c) n) (fun r b => exists l w ws rest got', fst r = USeq [USeq l; w] /\ flat got rest n b got' /\ finish got' (map absent_val fs) = Some l /\
    denotes_pairs rest (inl (keep g ws)) /\ from_rest fo g (c ++ ws) = Some w).
Proof.
  induction f as [f IH] using (well_founded_induction lt_wf); intros got c n Lg Hn.
  destruct f as [|f]; [apply sound_fuel|].
  rewrite (mfrob_eq (loop got c)). cbn [mfrob flat_loop]. cbn [mp_run r_map step_map].
  apply sound_if; intros E.
  - assert (n = 0) as -> by lia. destruct f; [apply sound_fuel|]. cbn [mp_run r_map step_map].
    destruct (finish got _) as [l|] eqn:Ef; [|intros s s' a _ _ D; discriminate D].
    destruct (from_rest fo g c) as [w|] eqn:Er; [|intros s s' a _ _ D; discriminate D].
    apply sound_ret. exists l, w, [], [], got. split; auto. split; [constructor|]. split; auto. split; [unfold keep; destruct g; constructor|rewrite app_nil_r; auto].
  - eapply sound_try; [apply sde_flat|intros e; apply never_map_err|]. intros k x Px. cbn [res_some].
    assert (O : forall u m, other_key names m x -> (exists s, m = VStr s /\ u = UStr s) \/ (exists z, m = VInt z /\ u = UInt z) ->
      sound (r_map (run f) (MVal (any err) (fun r => match r with Ok c0 => loop got (c ++ [(u, c0)]) | Err e => MRet (Err e) end)) (n - 1))
        (fun r b => exists l w ws rest got', fst r = USeq [USeq l; w] /\ flat got rest n (x ++ b) got' /\ finish got' (map absent_val fs) = Some l /\
           denotes_pairs rest (inl (keep g ws)) /\ from_rest fo g (c ++ ws) = Some w)).
    { intros u m Ho Hum. destruct f as [|f]; [apply sound_fuel|]. cbn [mp_run r_map step_map].
      eapply sound_try; [apply (proj1 (any_sound ar fo f))|intros e; apply never_map_err|]. intros v y (mm & Fm & Dm).
      eapply sound_weaken; [apply (IH f); [lia|auto|lia]|].
      intros r b (l & w & ws & rest & got' & Hu & Hf & Hfin & Hd & Hr). rewrite <- app_assoc in Hr. exists l, w, ((u, v) :: ws).
      assert (Dk : denotes m (inl u)). { destruct Hum as [(s & -> & ->)|(z & -> & ->)]; constructor. destruct Ho as [(s' & [= <-] & U & _)|(z & D & _)]; [auto|discriminate D]. }
      destruct (keep_cons fs g m x u v ws Hum Ho Hg) as [K1 K2]. replace n with (1 + (n - 1)) by lia.
      destruct (taken_dec m) as [T|T]; [rewrite (K1 T); exists ((m, mm) :: rest), got'|rewrite (K2 T); exists rest, got']; (split; [exact Hu|]).
      - split; [eapply FE_flat; eauto|]. split; auto. split; auto. constructor; auto.
      - split; [eapply FE_skip; eauto|]. auto. }
    destruct Px as [(i & s & -> & Hs & Hk)|[(s & -> & Ho)|(z & -> & Ho)]]; [|apply (O _ _ Ho); eauto|apply (O _ _ Ho); eauto].
    clear O. cbv iota. rewrite nth_error_map in *. destruct (nth_error fs i) as [fd|] eqn:Ef; [|discriminate]. injection Hs as <-. cbn [option_map].
    destruct (nth_error got i) as [[w|]|] eqn:Eg; try (apply sound_never, never_map_err).
    destruct f as [|f]; [apply sound_fuel|]. cbn [mp_run r_map step_map].
    eapply sound_try; [apply (denote_sound ar fo Wide), (all_list_In _ _ fields_wf _ (nth_error_In _ _ Ef))|intros e; apply never_map_err|]. intros v y Py.
    eapply sound_weaken; [apply (IH f)|]; [lia|rewrite set_nth_length; auto|lia|].
    intros r b (l & w & ws & rest & got' & Hu & Hf & H). exists l, w, ws, rest, got'. split; auto. split; auto.
    replace n with (1 + (n - 1)) by lia. eapply FE_field; eauto; rewrite nth_error_map, Ef; reflexivity.
Qed.
Lemma flat_length got rest n b got' : flat got rest n b got' -> length got' = length got.
Proof. induction 1; auto. rewrite IHflat_map_enc, set_nth_length. auto. Qed.
Lemma flattened_sound : sde (flattened fo err fs g) (fun u bs => exists l w, u = USeq [USeq l; w] /\ flat_got fo fs g l w bs).
Proof.
  unfold flattened. apply sde_request. intros f. cbn [mp_method]. eapply sound_map; [intros n Hn|].
  - cbn [visit_map mk_visitor v_map on_map]. apply loop_sound; auto. rewrite map_length. auto.
  - intros n u h b Hh (l & w & ws & rest & got & Hu & Hf & Hfin & Hd & Hr). cbn [fst] in Hu. exists l, w. split; auto. exists n, h, b, rest, got, (keep g ws).
    split; auto. split; auto. split; auto. split; [apply finish_sound; auto; rewrite (flat_length _ _ _ _ _ Hf), map_length; auto|]. split; [constructor; auto|].
    intros N. apply (content_agree fo g Wg); auto. cbn [app] in Hr. rewrite <- Hr. symmetry. apply from_rest_keep; auto.
Qed.
Lemma flattened_takes l w bs : flat_takes fo fs g l w bs -> rde ar fo (flattened fo err fs g) bs (Ok (USeq [USeq l; w])).
Proof.
  intros (n & h & b & rest & got & cs & -> & Hh & Hf & Hl & Hd & N & Hb). apply (content_agree fo g Wg) in Hb; auto.
  destruct W as [Hn _]. destruct (progress ar fo fs g _ _ _ _ _ Hn fields_wf Hf) as (ws & wr & E & K & IR & _). unfold flattened. apply rde_request. eapply rme_map; [exact Hh|]. cbn [mk_visitor v_map on_map visit_map].
  rewrite <- (app_nil_r b). apply IR; [lia|]. cbn [app]. rewrite Z.sub_diag, (mfrob_eq (loop _ _)); cbn [mfrob flat_loop]. apply rmp_end. cbv beta iota. rewrite (finish_all _ _ _ Hl).
  rewrite (from_rest_keep fo g ws (Some w) Hg); [apply rmp_ret|]. rewrite (K Hg). apply den_of in Hd. cbn [den] in Hd. rewrite E in Hd. injection Hd as ->. exact Hb.
Qed.
End Mp.

(** ** Every input *)
Section Top.
Context (fo : float_ops) (fs : list (bytes * fattr * ty)) (g : ty).
Local Notation prog := (flattened fo DeserializeError fs g).
Lemma nice_kind : (exists gs, g = TStruct gs) \/ (exists k v, g = TMap k v) -> nice g.
Proof. intros [[gs ->]|(k & v & ->)]; exact I. Qed.
Theorem mp_flattened_sound ar fuel input s u n : arch64 ar -> wf (TStruct fs) -> (exists gs, g = TStruct gs) \/ (exists k v, g = TMap k v) -> wf g -> slice64 input ->
  mp_from_slice ar fo fuel prog input = Done s (Ok (u, n)) ->
  exists l w bs tail, input = bs ++ tail /\ zlen bs = n /\ u = USeq [USeq l; w] /\ flat_got fo fs g l w bs.
Proof.
  intros A64 W K Wg Hs E. unfold mp_from_slice, dbind in E.
  assert (Hr : ready ar (de_from_slice input)).
  { apply ready64; auto. cbn. pose proof (zlen_nonneg input). lia. }
  destruct (r_de (mp_run ar fo fuel) prog (de_from_slice input)) as [s1 [a|e]| |] eqn:E1; try discriminate.
  assert (Hb : all_bytes (rest (de_from_slice input))) by apply Hs.
  destruct (flattened_sound ar fo (arch64_wide ar A64) fs g W (nice_kind K) Wg fuel _ _ _ Hr Hb E1) as (bs & A1 & l & w & -> & P1).
  pose proof (ate_ready _ _ _ _ A1) as R1. unfold de_end in E. pose proof (rest_length _ _ R1) as L1.
  destruct (d_index s1 <=? zlen (sl_data (d_input s1))) eqn:E2; [|discriminate].
  destruct A1 as [_ A1]. change (rest (de_from_slice input)) with input in A1.
  assert (L : zlen input = zlen bs + zlen (rest s1)) by (rewrite A1 at 1; apply zlen_app).
  match type of E with (if ?b then _ else _) _ = _ => destruct b end; [|discriminate].
  injection E as _ <- <-. exists l, w, bs, (rest s1). split; auto. split; [lia|]. auto.
Qed.
Theorem mp_flattened_takes ar l w bs tail : arch32up ar -> wf (TStruct fs) -> (exists gs, g = TStruct gs) \/ (exists k v, g = TMap k v) -> wf g ->
  flat_takes fo fs g l w bs -> slice_of ar (bs ++ tail) ->
  exists N, forall fuel, (N <= fuel)%nat -> exists s, mp_from_slice ar fo fuel prog (bs ++ tail) = Done s (Ok (USeq [USeq l; w], zlen bs)).
Proof. intros A W K Wg H Hs. destruct (flattened_takes ar fo fs g W (nice_kind K) Wg l w bs H) as [N HN]. exists N. intros f Hf. apply from_slice_reads; auto. Qed.
Theorem mp_flattened_takes_truncated ar l w bs c q : arch32up ar -> wf (TStruct fs) -> (exists gs, g = TStruct gs) \/ (exists k v, g = TMap k v) -> wf g ->
  flat_takes fo fs g l w (bs ++ c :: q) -> slice_of ar (bs ++ c :: q) ->
  exists N, forall fuel, (N <= fuel)%nat -> exists s, mp_from_slice ar fo fuel prog bs = Done s (Err UnexpectedEof).
Proof. intros A W K Wg H Hs. destruct (flattened_takes ar fo fs g W (nice_kind K) Wg l w _ H) as [N HN]. exists N. intros fuel Hf. eapply from_slice_truncated; eauto. Qed.
Theorem mp_flattened_decides ar input fuel : arch64 ar -> wf (TStruct fs) -> (exists gs, g = TStruct gs) \/ (exists k v, g = TMap k v) -> wf g -> slice64 input ->
  (10 * type_size (TStruct fs) + 1 + 3 * length input <= fuel)%nat ->
  (exists s l w bs tail, mp_from_slice ar fo fuel prog input = Done s (Ok (USeq [USeq l; w], zlen bs)) /\ input = bs ++ tail /\ flat_got fo fs g l w bs) \/
  (exists s e, mp_from_slice ar fo fuel prog input = Done s (Err e) /\ forall l w bs tail, input = bs ++ tail -> ~ flat_takes fo fs g l w bs).
Proof.
  intros A64 W K Wg Hi Hf. destruct (mp_flattened_ends ar fo A64 fs g input fuel W Hi Hf) as (s & [[u n]|e] & E).
  - left. destruct (mp_flattened_sound ar fuel input s u n A64 W K Wg Hi E) as (l & w & bs & tail & H1 & <- & -> & H2). exists s, l, w, bs, tail. auto.
  - right. exists s, e. split; auto. intros l w bs tail -> Ha.
    destruct (mp_flattened_takes ar l w bs tail (arch64_up ar A64) W K Wg Ha (slice64_of ar _ A64 Hi)) as [N HN]. destruct (HN N (le_n N)) as [s' E'].
    destruct (MpFuel.budget_irrelevant ar fo _ _ _ _ _ _ _ _ E E') as [_ D]. discriminate D.
Qed.
End Top.

(** What adjacently tagged enums return comes from an encoding of the value (C71). *)
From Verif Require Import Prelude PreludeFacts Utf8Spec Utf8 Utf8Facts SerdeSer SerdeDe FloatOps Arch MpMagick MpSpec MpErrMap MpDe MpDeView MpDeReads MpDeEat MpDeTop
  Types TypesFacts TypeSize MpTypeSpec MpTyped MpAny MpSound MpAnySound Content ContentSpec BufferSpec BufferFacts Adjacent AdjacentSpec AdjacentReadSpec MpAdjacent MpAdjacentEnds.
From Verif Require MpFuel.
Ltac Zify.zify_post_hook ::= Z.div_mod_to_equations.

Section Mp.
Context (ar : arch) (fo : float_ops) (Wide : wide ar).
Local Notation err := DeserializeError.
Local Notation sde := (sde ar fo).
Local Notation sound := (sound ar).
Local Notation run := (@mp_run ar fo val).
Local Notation M := (DM mpde mp_de_error).

(** ** Whatever is there *)
Lemma never_then {A B} (m : M A) (k : A -> M B) : (forall a, never (k a)) -> never (dbind m k).
Proof. intros H s s' b E. unfold dbind in E. destruct (m s) as [s1 [a|e]| |]; try discriminate. exact (H a _ _ _ E). Qed.
Lemma never_if {A} (b : bool) (m m' : M A) : never m -> never m' -> never (if b then m else m').
Proof. destruct b; auto. Qed.
Lemma sound_any f (v : visitor val mp_de_error) (Q : val -> bytes -> Prop) : (forall k, sound (deserialize_int ar k v) Q) -> sound (deserialize_map ar (run f) v) Q -> sound (deserialize_seq ar (run f) v) Q ->
  sound (deserialize_str ar v) Q -> sound (deserialize_unit ar v) Q -> sound (deserialize_bool ar v) Q -> sound (deserialize_bytes ar v) Q ->
  sound (deserialize_f32 ar fo v) Q -> sound (deserialize_f64 ar fo v) Q -> sound (deserialize_any ar fo (run f) v) Q.
Proof.
  intros. unfold deserialize_any. apply sound_peek. intros c Hc.
  repeat (apply soundc_if; intros _; [first [eapply soundc_of; [eauto; fail|auto]|intros s s' a _ _ _ D; discriminate D]|]).
  eapply soundc_of; [eauto|auto].
Qed.
Ltac leaf := apply sound_never; repeat (apply never_then; intros ?); repeat apply never_if; first [apply never_ret|apply never_fail].

Lemma unit_sound : sde (request DAny (v_untagged_unit err)) (fun v b => v = UUnit /\ b = [0xc0]).
Proof.
  apply sde_request. intros f. cbn [mp_method]. apply sound_any; try leaf; [intros k; leaf| | |].
  - apply sound_map with (P := fun _ _ _ => False); [intros n Hn; apply sound_never, never_map_err|tauto].
  - apply sound_seq with (P := fun _ _ _ => False); [intros n Hn; apply sound_never, never_seq_err|tauto].
  - apply sound_byte. intros c Hc. apply sound_if; intros E; [|apply sound_fail]. apply sound_lift. intros a [= <-]. consts. replace c with 0xc0 by lia. auto.
Qed.
Lemma content_sound k t : wf t -> kind_ok k t -> sde (content_seed err k t) (content_enc fo k t).
Proof.
  intros W K. destruct k; cbn [content_seed content_enc]; try exact (denote_sound ar fo Wide t W).
  - destruct t; exact unit_sound.
  - destruct t as [ | | | | | | | | | | | | | | |fs| ]; cbn in K; try contradiction. destruct W as [_ W].
    assert (F : Forall2 sde (map (fun f => denote err (snd f)) fs) (map (fun f => adm fo (snd f)) fs)).
    { clear -W Wide. induction fs as [|f fs IH]; cbn in *; constructor; [apply (denote_sound ar fo Wide); tauto|tauto]. }
    apply sde_request. intros f. cbn [mp_method]. apply sound_any; try leaf; [intros k; leaf| |].
    + eapply sound_map; [intros n Hn|].
      * cbn [visit_map mk_visitor v_map on_map]. apply (smp_struct ar fo Wide _ _ _ _ F); auto. rewrite !map_length. auto.
      * intros n u h b Hh (_ & l & got & Hu & He & Hf). cbn [fst] in Hu. subst u. split; [|eauto]. cbn [adm]. right. exists n, h, b, got. split; auto. split; auto. split; auto.
        apply finish_sound; auto. rewrite (entries_length _ _ _ _ _ _ He), map_length. auto.
    + apply sound_seq with (P := fun _ _ _ => False); [intros n Hn; apply sound_never, never_seq_err|tauto].
Qed.

(** ** The map *)
Lemma sound_next names k (P0 : val * Z -> bytes -> Prop) (P1 : nat -> Z -> val * Z -> bytes -> Prop) :
  (forall f, sound (r_map (run f) (k None) 0) P0) -> (forall f i m, 0 <= m -> (i < length names)%nat -> sound (r_map (run f) (k (Some i)) m) (P1 i m)) ->
  forall f n, 0 <= n -> sound (r_map (run f) (next_relevant err names k) n)
    (fun r b => exists n1 o1 b', b = o1 ++ b' /\ others names n1 o1 /\
       (n = n1 /\ P0 r b' \/ exists i m x y, n = n1 + (1 + m) /\ b' = x ++ y /\ ident_enc names i x /\ P1 i m r y)).
Proof.
  intros H0 H1 f. induction f as [f IH] using (well_founded_induction lt_wf); intros n Hn. destruct f as [|f]; [apply sound_fuel|].
  rewrite (mfrob_eq (next_relevant _ _ _)). cbn [mfrob next_relevant]. cbn [mp_run r_map step_map].
  apply sound_if; intros E.
  - assert (n = 0) as -> by lia. eapply sound_weaken; [apply H0|]. intros r b Hr. exists 0, [], b. split; auto. split; [constructor|]. left. auto.
  - eapply sound_try; [apply sde_ident|intros e; apply never_map_err|]. intros u x Px. cbn [res_some].
    destruct u as [| | | | | | | | | | | | |[i|]]; cbn [ident_post] in Px; try contradiction.
    + eapply sound_weaken; [apply (H1 f i (n - 1)); [lia|]|]. { destruct Px as [(s & Hs & _)|[L _]]; auto. apply nth_error_Some. congruence. }
      intros r b Hr. exists 0, [], (x ++ b). split; auto. split; [constructor|]. right. exists i, (n - 1), x, b. split; [lia|]. auto.
    + destruct Px as [_ Px]. destruct f as [|f]; [apply sound_fuel|]. cbn [mp_run r_map step_map].
      eapply sound_try; [apply (sde_ignored ar fo Wide)|intros e; apply never_map_err|]. intros v y (m0 & Hm0).
      eapply sound_weaken; [apply (IH f); [lia|]; lia|]. intros r b (n1 & o1 & b' & -> & Ho & Hb).
      exists (1 + n1), (x ++ y ++ o1), b'. split; [rewrite !app_assoc; auto|]. split; [econstructor; eauto|].
      destruct Hb as [(L & Hb)|(i & m & z & w & L & Hb)]; [left; split; [lia|auto]|right]. exists i, m, z, w. split; [lia|auto].
Qed.
Lemma mret_sound f v n (P : val * Z -> bytes -> Prop) : P (v, n) [] -> sound (r_map (run f) (MRet (Ok v)) n) P.
Proof. intros H. destruct f; [apply sound_fuel|]. cbn [mp_run r_map step_map]. apply sound_ret. auto. Qed.
Lemma no_more_sound f names v n : 0 <= n -> sound (r_map (run f) (no_more err names v) n) (fun r b => fst r = v /\ others names n b).
Proof.
  intros Hn. unfold no_more. eapply sound_weaken; [apply sound_next with (P0 := fun r b => fst r = v /\ b = []) (P1 := fun _ _ _ _ => False); auto|].
  - intros f'. apply mret_sound. auto.
  - intros f' i m _ _. apply sound_never, never_map_err.
  - intros r b (n1 & o1 & b' & -> & Ho & [(-> & Hr & ->)|(i & m & x & y & _ & _ & _ & [])]). rewrite app_nil_r. auto.
Qed.
Lemma tag_sound f vs k m (P : nat -> vkind -> ty -> val * Z -> bytes -> Prop) : wf (TEnum vs) ->
  (forall f i n kd t, nth_error vs i = Some (n, kd, t) -> sound (r_map (run f) (k i kd t) m) (P i kd t)) ->
  sound (r_map (run f) (tag_value err vs k) m) (fun r b => exists i n kd t a y, b = a ++ y /\ nth_error vs i = Some (n, kd, t) /\ ident_enc (map name_of vs) i a /\ P i kd t r y).
Proof.
  intros W H. destruct f as [|f]; [apply sound_fuel|]. unfold tag_value. cbn [mp_run r_map step_map].
  assert (Wt : wf (tag_ty vs)). { unfold tag_ty. cbn [wf]. destruct W as [Hv _]. split; [rewrite map_map; exact Hv|]. clear. induction vs; cbn; auto. }
  eapply sound_try; [apply (denote_sound ar fo Wide _ Wt)|intros e; apply never_map_err|]. intros u x Px.
  destruct u as [| | | | | | | | | | | |i w|]; try (apply sound_never, never_map_err). destruct (nth_error vs i) as [[[n kd] t]|] eqn:E; [|apply sound_never, never_map_err].
  eapply sound_weaken; [eapply H; exact E|]. intros r b Hr. exists i, n, kd, t, x, b. split; auto. split; auto. split; auto.
  unfold tag_ty in Px. cbn [adm] in Px. rewrite map_map, nth_error_map, E in Px. cbn in Px. rewrite map_map in Px. apply Px.
Qed.

Theorem adjacent_sound tag content vs : wf (TEnum vs) ->
  sde (adjacent fo err tag content vs) (fun u bs => exists i v, u = UVar i v /\ adjacent_got fo tag content vs i v bs).
Proof.
  intros W. set (names := [tag; content]).
  assert (C : forall i n k t, nth_error vs i = Some (n, k, t) -> wf t /\ kind_ok k t).
  { intros i n k t E. apply nth_error_In in E. exact (all_list_In _ _ (proj2 W) _ E). }
  apply sde_request. intros f. cbn [mp_method]. eapply sound_struct; [intros n Hn|intros n Hn|..].
  - cbn [visit_map mk_visitor v_struct on_map]. unfold adjacent_map. cbv zeta. fold names.
    eapply sound_next with (P0 := fun _ _ => False) (P1 := fun j m r b => match j with
      | O => exists i n kd t a y, b = a ++ y /\ nth_error vs i = Some (n, kd, t) /\ ident_enc (map name_of vs) i a /\
          exists n1 o1 b', y = o1 ++ b' /\ others names n1 o1 /\
            ((m = n1 /\ exists v, fst r = UVar i v /\ no_content kd t v /\ b' = []) \/
             exists m' kc c o, m = n1 + (1 + m') /\ b' = kc ++ c ++ o /\ ident_enc names 1 kc /\ others names m' o /\ exists v, fst r = UVar i v /\ content_enc fo kd t v c)
      | S _ => exists mm c bc y, b = bc ++ y /\ mp_fmt mm bc /\ denotes mm (inl c) /\
          exists n1 o1 kt m' a o i n kd t v, m = n1 + (1 + m') /\ y = o1 ++ kt ++ a ++ o /\ others names n1 o1 /\ ident_enc names 0 kt /\ ident_enc (map name_of vs) i a /\
            nth_error vs i = Some (n, kd, t) /\ others names m' o /\ fst r = UVar i v /\ (no_number_keys c -> variant_as fo (kd, t) v c)
      end); auto.
    + intros f'. apply sound_never, never_map_err.
    + intros f' [|j] m Hm _.
      * apply (tag_sound f' vs _ m (fun i kd t r y => exists n1 o1 b', y = o1 ++ b' /\ others names n1 o1 /\
            ((m = n1 /\ exists v, fst r = UVar i v /\ no_content kd t v /\ b' = []) \/
             exists m' kc c o, m = n1 + (1 + m') /\ b' = kc ++ c ++ o /\ ident_enc names 1 kc /\ others names m' o /\ exists v, fst r = UVar i v /\ content_enc fo kd t v c))); auto.
        intros f0 i nm kd t E. destruct (C _ _ _ _ E) as [Wt Kt].
        eapply sound_weaken; [apply sound_next with (P0 := fun r b => exists v, fst r = UVar i v /\ no_content kd t v /\ b = [])
          (P1 := fun j m' r b => match j with O => False | S _ => exists v c o, b = c ++ o /\ fst r = UVar i v /\ content_enc fo kd t v c /\ others names m' o end); auto|].
        -- intros f1. destruct (content_absent kd t) as [v|] eqn:Ea; [|apply sound_never, never_map_err]. apply mret_sound. exists v. split; auto. split; auto.
           destruct kd; try discriminate; cbn in *; [injection Ea as <-; auto|]. destruct t; try discriminate. injection Ea as <-. eauto.
        -- intros f1 [|j] m' Hm' Hj; [apply sound_never, never_map_err|]. destruct f1 as [|f1]; [apply sound_fuel|]. cbn [mp_run r_map step_map].
           eapply sound_try; [apply (content_sound kd t Wt Kt)|intros e; apply never_map_err|]. intros v c Pc.
           eapply sound_weaken; [apply no_more_sound; auto|]. intros r b [Hr Ho]. exists v, c, b. auto.
        -- intros r b (n1 & o1 & b' & -> & Ho & [(-> & H)|(j & m' & x & y & -> & -> & Hx & H)]); exists n1, o1; eexists; (split; [reflexivity|]); (split; [exact Ho|]); [left; auto|right].
           destruct j as [|j]; [destruct H|]. destruct H as (v & c & o & -> & Hr & Hc & Ho2). exists m', x, c, o. split; auto. split; auto. split; [|eauto].
           destruct j as [|j]; auto. exfalso. destruct Hx as [(s & Hs & _)|[L _]]; [destruct j; discriminate|cbn in L; lia].
      * destruct f' as [|f']; [apply sound_fuel|]. cbn [mp_run r_map step_map].
        eapply sound_try; [apply (proj1 (any_sound ar fo f'))|intros e; apply never_map_err|]. intros c x (mm & Fm & Dm).
        eapply sound_weaken; [apply sound_next with (P0 := fun _ _ => False)
          (P1 := fun j m' r b => match j with O => exists i n kd t a o, b = a ++ o /\ nth_error vs i = Some (n, kd, t) /\ ident_enc (map name_of vs) i a /\ others names m' o /\ exists v, fst r = UVar i v /\ (no_number_keys c -> variant_as fo (kd, t) v c) | S _ => False end); auto|].
        -- intros f1. apply sound_never, never_map_err.
        -- intros f1 [|j'] m' Hm' Hj; [|apply sound_never, never_map_err].
           eapply sound_weaken; [apply (tag_sound f1 vs _ m' (fun i kd t r y => others names m' y /\ exists v, fst r = UVar i v /\ (no_number_keys c -> variant_as fo (kd, t) v c))); auto|].
           ++ intros f2 i nm kd t E. destruct (C _ _ _ _ E) as [Wt Kt]. destruct (untagged_variant fo (kd, t) c) as [v|] eqn:Ev; [|apply sound_never, never_map_err].
              eapply sound_weaken; [apply no_more_sound; auto|]. intros r b [Hr Ho]. split; auto. exists v. split; auto. intros N. apply (variant_agree fo (kd, t) c v Kt Wt N). exact Ev.
           ++ intros r b (i & nm & kd & t & a & y & -> & E & Ia & Ho & v & H). exists i, nm, kd, t, a, y. eauto 10.
        -- intros r b (n1 & o1 & b' & -> & Ho & [(-> & [])|(j' & m' & kt & y & -> & -> & Hx & H)]). destruct j' as [|j']; [|destruct H].
           destruct H as (i & nm & kd & t & a & o & -> & E & Ia & Ho2 & v & Hr & Hv). exists mm, c, x, (o1 ++ kt ++ a ++ o). split; auto. split; auto. split; auto.
           exists n1, o1, kt, m', a, o, i, nm, kd, t, v. auto 10.
  - cbn [visit_seq mk_visitor v_struct on_seq]. unfold adjacent_seq. destruct f as [|f]; [apply sound_fuel|]. cbn [mp_run r_seq step_seq].
    instantiate (1 := fun n r b => snd r = 0 -> exists i nm k t v a c, n = 2 /\ fst r = UVar i v /\ b = a ++ c /\ nth_error vs i = Some (nm, k, t) /\ ident_enc (map name_of vs) i a /\ content_enc fo k t v c).
    apply sound_if; intros E0; [apply sound_never, never_seq_err|].
    eapply sound_try; [apply sde_ident|intros e; apply never_seq_err|]. intros u x Px. cbn [res_some].
    destruct u as [| | | | | | | | | | | | |[i|]]; cbn [ident_post] in Px; try contradiction; [|apply sound_never, never_seq_err].
    destruct (nth_error vs i) as [[[nm k] t]|] eqn:E; [|apply sound_never, never_seq_err]. destruct (C _ _ _ _ E) as [Wt Kt].
    destruct f as [|f]; [apply sound_fuel|]. cbn [mp_run r_seq step_seq]. apply sound_if; intros E1; [apply sound_never, never_seq_err|].
    eapply sound_try; [apply (content_sound k t Wt Kt)|intros e; apply never_seq_err|]. intros v c Pc. cbn [res_some].
    destruct f as [|f]; [apply sound_fuel|]. cbn [mp_run r_seq step_seq]. apply sound_ret. cbn [fst snd]. intros L. exists i, nm, k, t, v, x, c. rewrite app_nil_r. split; [lia|]. auto 10.
  - intros n u h b Hh (n1 & o1 & b' & -> & Ho & [(-> & [])|(j & m & x & y & -> & -> & Hx & H)]). destruct j as [|j].
    + destruct H as (i & nm & kd & t & a & z & -> & E & Ia & n2 & o2 & b2 & -> & Ho2 & [(-> & v & Hr & Hc & ->)|(m' & kc & c & o & -> & -> & Ic & Ho3 & v & Hr & Hc)]); cbn [fst] in Hr; subst u; exists i, v; (split; [reflexivity|]); left.
      * rewrite app_nil_r. eapply AE_alone; eauto.
      * eapply AE_map; eauto.
    + destruct H as (mm & c & bc & z & -> & Fm & Dm & n2 & o2 & kt & m' & a & o & i & nm & kd & t & v & -> & -> & Ho2 & It & Ia & E & Ho3 & Hr & Hv). cbn [fst] in Hr. subst u.
      exists i, v. split; [reflexivity|]. right. eapply CF_map; eauto.
      destruct j as [|j]; auto. exfalso. destruct Hx as [(s & Hs & _)|[L _]]; [destruct j; discriminate|cbn in L; lia].
  - intros n u h b Hh H. destruct (H eq_refl) as (i & nm & k & t & v & a & c & -> & Hu & -> & E & Ia & Hc). cbn [fst] in Hu. subst u. exists i, v. split; auto. left. eapply AE_array; eauto.
Qed.
End Mp.

(** ** Every input *)
Theorem mp_adjacent_sound ar fo fuel tag content vs input s u n : arch64 ar -> wf (TEnum vs) -> slice64 input ->
  mp_from_slice ar fo fuel (adjacent fo DeserializeError tag content vs) input = Done s (Ok (u, n)) ->
  exists i v bs tail, input = bs ++ tail /\ zlen bs = n /\ u = UVar i v /\ adjacent_got fo tag content vs i v bs.
Proof.
  intros A64 W Hs E. unfold mp_from_slice, dbind in E.
  assert (Hr : ready ar (de_from_slice input)).
  { apply ready64; auto. cbn. pose proof (zlen_nonneg input). lia. }
  destruct (r_de (mp_run ar fo fuel) (adjacent fo DeserializeError tag content vs) (de_from_slice input)) as [s1 [a|e]| |] eqn:E1; try discriminate.
  assert (Hb : all_bytes (rest (de_from_slice input))) by apply Hs.
  destruct (adjacent_sound ar fo (arch64_wide ar A64) tag content vs W fuel _ _ _ Hr Hb E1) as (bs & A1 & i & v & -> & P1).
  pose proof (ate_ready _ _ _ _ A1) as R1. unfold de_end in E. pose proof (rest_length _ _ R1) as L1.
  destruct (d_index s1 <=? zlen (sl_data (d_input s1))) eqn:E2; [|discriminate].
  destruct A1 as [_ A1]. change (rest (de_from_slice input)) with input in A1.
  assert (L : zlen input = zlen bs + zlen (rest s1)) by (rewrite A1 at 1; apply zlen_app).
  match type of E with (if ?b then _ else _) _ = _ => destruct b end; [|discriminate].
  injection E as _ <- <-. exists i, v, bs, (rest s1). split; auto. split; [lia|]. auto.
Qed.
Lemma takes_reads ar fo tag content vs i v bs : names_ok [tag; content] -> wf (TEnum vs) ->
  adjacent_takes fo tag content vs i v bs -> rde ar fo (adjacent fo DeserializeError tag content vs) bs (Ok (UVar i v)).
Proof.
  intros Hn W [H|H]; [exact (adjacent_reads ar fo tag content vs i v bs (conj Hn W) H)|].
  destruct H as [n k t n1 n2 n3 h o1 kc m c b o2 kt a o3 En Hh O1 Kc F D O2 Kt Ha O3 [N V]].
  pose proof (all_list_In _ _ (proj2 W) _ (nth_error_In _ _ En)) as [Wt K]. cbn [snd fst attr_of] in *.
  apply variant_agree in V; auto. pose proof (proj1 (proj1 (any_reads ar fo) m b F) c D) as R.
  pose proof (others_nonneg _ _ _ O2). pose proof (others_nonneg _ _ _ O3).
  apply rde_request. eapply rme_struct_map; [exact Hh|]. cbn [mk_visitor v_struct on_map visit_map]. unfold adjacent_map. cbv zeta.
  eapply rmp_relevant; [exact Hn|exact Kc|lia| |exact O1]. cbv beta iota.
  eapply rmp_val; [reflexivity|exact R|]. cbv beta iota.
  eapply rmp_relevant; [exact Hn|exact Kt|lia| |exact O2]. cbv beta iota. unfold tag_value.
  eapply rmp_val; [reflexivity|apply tag_reads; [apply W|exact Ha]|]. cbv beta iota. rewrite En, V. apply rmp_no_more, O3.
Qed.
Theorem mp_adjacent_takes ar fo tag content vs i v bs tail : arch32up ar -> names_ok [tag; content] -> wf (TEnum vs) ->
  adjacent_takes fo tag content vs i v bs -> slice_of ar (bs ++ tail) ->
  exists N, forall fuel, (N <= fuel)%nat ->
    exists s, mp_from_slice ar fo fuel (adjacent fo DeserializeError tag content vs) (bs ++ tail) = Done s (Ok (UVar i v, zlen bs)).
Proof. intros A Hn W H Hs. destruct (takes_reads ar fo tag content vs i v bs Hn W H) as [N HN]. exists N. intros f Hf. apply from_slice_reads; auto. Qed.
Theorem mp_adjacent_takes_truncated ar fo tag content vs i v bs c q : arch32up ar -> names_ok [tag; content] -> wf (TEnum vs) ->
  adjacent_takes fo tag content vs i v (bs ++ c :: q) -> slice_of ar (bs ++ c :: q) ->
  exists N, forall fuel, (N <= fuel)%nat -> exists s, mp_from_slice ar fo fuel (adjacent fo DeserializeError tag content vs) bs = Done s (Err UnexpectedEof).
Proof. intros A Hn W H Hs. destruct (takes_reads ar fo tag content vs i v _ Hn W H) as [N HN]. exists N. intros fuel Hf. eapply from_slice_truncated; eauto. Qed.
Theorem mp_adjacent_decides ar fo tag content vs input fuel : arch64 ar -> names_ok [tag; content] -> wf (TEnum vs) -> slice64 input ->
  (10 * type_size (TEnum vs) + 1 + 3 * length input <= fuel)%nat ->
  (exists s i v bs tail, mp_from_slice ar fo fuel (adjacent fo DeserializeError tag content vs) input = Done s (Ok (UVar i v, zlen bs)) /\ input = bs ++ tail /\
     adjacent_got fo tag content vs i v bs) \/
  (exists s e, mp_from_slice ar fo fuel (adjacent fo DeserializeError tag content vs) input = Done s (Err e) /\
     forall i v bs tail, input = bs ++ tail -> ~ adjacent_takes fo tag content vs i v bs).
Proof.
  intros A64 Hn W Hi Hf. destruct (mp_adjacent_ends ar fo A64 tag content vs input fuel W Hi Hf) as (s & [[u n]|e] & E).
  - left. destruct (mp_adjacent_sound ar fo fuel tag content vs input s u n A64 W Hi E) as (i & v & bs & tail & H1 & <- & -> & H2). exists s, i, v, bs, tail. auto.
  - right. exists s, e. split; auto. intros i v bs tail -> Ha.
    destruct (mp_adjacent_takes ar fo tag content vs i v bs tail (arch64_up ar A64) Hn W Ha (slice64_of ar _ A64 Hi)) as [N HN]. destruct (HN N (le_n N)) as [s' E'].
    destruct (MpFuel.budget_irrelevant ar fo _ _ _ _ _ _ _ _ E E') as [_ D]. discriminate D.
Qed.

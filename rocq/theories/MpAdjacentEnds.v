(** Decoding MessagePack into adjacently tagged enums and structs with flattened fields ends (C71, C72). *)
From Verif Require Import Prelude PreludeFacts SerdeSer SerdeDe MpSpec MpDe MpDeView MpDeReads MpDeEat MpDeSafe MpDeTop FloatOps Types TypesFacts TypeSize MpTypeSpec MpTyped
  MpSound MpFuel Content ContentSpec Adjacent AdjacentSpec MpAdjacent Flatten FlattenEncSpec MpFlattenRead AdjacentEnds.
Ltac Zify.zify_post_hook ::= Z.div_mod_to_equations.

Section Ends.
Context (ar : arch) (fo : float_ops) (orig : bytes) (Wide : wide ar).
Local Notation err := DeserializeError.
Local Notation dB := (dB ar fo orig).
Local Notation sB := (sB ar fo orig).
Local Notation mB := (mB ar fo orig).
Local Notation run := (mp_run ar fo).
Ltac rets := first [apply sret_b; lia|apply mret_b; lia|apply dret_b; lia|apply eret_b; lia].

Lemma content_b k t n B : wf t -> (10 * type_size t <= B)%nat -> dB n B (content_seed err k t).
Proof.
  intros W HB. pose proof (size_pos t) as Hp.
  assert (D : dB n B (denote err t)) by (apply (t_bound ar fo orig Wide); [apply (types_within ar fo orig Wide); exact W|exact HB]).
  assert (U : dB n B (request DAny (v_untagged_unit err))).
  { apply (dB_less ar fo orig n n B 2); [lia|lia|]. unfold request. apply (req_bound ar fo orig Wide).
    split; [|split; [|split; [|split]]; first [discriminate|lia]]. intros n' _. split; rets. }
  destruct k; cbn [content_seed]; try (destruct t; exact U); try exact D.
  destruct t as [ | | | | | | | | | | | | | | |fs| ]; try exact D. cbn [type_size wf] in *.
  apply (dB_less ar fo orig n n B (S (10 * S (list_sum (map (fun f => type_size (snd f)) fs)) - 1))); [lia|lia|]. unfold request. apply (req_bound ar fo orig Wide).
  split; [|split; [|split; [|split]]; first [discriminate|lia]]. intros n' _. split; [rets|].
  cbn [visit_map mk_visitor v_map on_map].
  eapply mB_less; [|apply (struct_loop_b ar fo orig Wide n' (10 * list_sum (map (fun f => type_size (snd f)) fs) + 6)); [lia|]]; [lia|].
  intros n0 seed Hin. apply in_map_iff in Hin. destruct Hin as (f & <- & Hin). destruct W as [_ W]. pose proof (MpTyped.all_list_In _ _ W _ Hin) as [Wf _].
  apply (t_bound ar fo orig Wide); [apply (types_within ar fo orig Wide); exact Wf|].
  pose proof (one_of_sum (fun f : bytes * fattr * ty => type_size (snd f)) fs f Hin). cbn beta in *. lia.
Qed.

Lemma adjacent_b tag content vs n : wf (TEnum vs) -> dB n (S (10 * type_size (TEnum vs))) (adjacent fo err tag content vs).
Proof.
  intros W. set (B := (10 * type_size (TEnum vs))%nat). assert (HB : (10 <= B)%nat) by (unfold B; cbn [type_size]; lia).
  assert (Gc : forall m i n0 k t, nth_error vs i = Some (n0, k, t) -> dB m B (content_seed err k t)).
  { intros m i n0 k t E. apply nth_error_In in E. pose proof (MpTyped.all_list_In _ _ (proj2 W) _ E) as [Wt _]. apply content_b; [exact Wt|].
    pose proof (one_of_sum (fun f : bytes * vkind * ty => type_size (snd f)) vs _ E). unfold B. cbn [type_size snd] in *. lia. }
  unfold adjacent, request. apply (req_bound ar fo orig Wide). split; [|split; [|split; [|split]]; first [discriminate|lia]]. intros n' _.
  cbn [visit_seq visit_map mk_visitor v_struct on_seq on_map]. split.
  - intros f c Hc Hf. destruct f as [|f]; [lia|]. unfold adjacent_seq.
    match goal with |- ends _ _ _ (r_seq _ (SNext ?sd ?k) _) => change (ends ar orig n' (step_seq (run f) (SNext sd k) c)) end.
    cbn [step_seq]. destruct (c =? 0) eqn:Ec; [apply sret_ends; lia|].
    apply (ends_try ar orig Wide); [apply (sr_de _ _ _ (safe_run ar fo orig (or_introl Wide) f))|apply (ident_b ar fo orig Wide n' 2 true (map name_of vs) (le_n 2) f); lia|].
    intros [u|e]; cbn [res_some]; [|apply sret_ends; lia]. destruct u; try (apply sret_ends; lia). destruct o as [i|]; [|apply sret_ends; lia].
    destruct (nth_error vs i) as [[[n0 k] t]|] eqn:En; [|apply sret_ends; lia]. destruct f as [|f]; [lia|].
    match goal with |- ends _ _ _ (r_seq _ (SNext ?sd ?k) ?c) => change (ends ar orig n' (step_seq (run f) (SNext sd k) c)) end.
    cbn [step_seq]. destruct (c - 1 =? 0); [apply sret_ends; lia|].
    apply (ends_try ar orig Wide); [apply (sr_de _ _ _ (safe_run ar fo orig (or_introl Wide) f))|apply (Gc n' i _ _ _ En f); lia|].
    intros [w|e]; cbn [res_some]; apply sret_ends; lia.
  - intros f c Hc Hf. set (G := fun seed => forall m, (m <= n')%nat -> dB m B seed).
    eapply (map_bound_or ar fo orig Wide (fun p => exists d, level err [tag; content] G d p) B n'); [lia| | |exact Hc|lia].
    + intros p Hp. destruct (level_step err [tag; content] G) with (p := p) as (k & -> & H1 & H2 & H3); [|exact Hp|].
      { intros m _. apply (dB_less ar fo orig m m B 6); [lia|lia|apply (ignored_bound ar fo orig Wide)]. }
      exists (ident err false [tag; content]), k. split; [reflexivity|]. split; [intros; apply (ident_b ar fo orig Wide); lia|]. split; [apply ident_reads; exact Wide|]. auto.
    + exists 3%nat. apply adjacent_level.
      * intros m _. apply (dB_less ar fo orig m m B 6); [lia|lia|apply (any_bound ar fo orig Wide)].
      * intros m _. apply (t_bound ar fo orig Wide); [apply (types_within ar fo orig Wide)|unfold B; pose proof (tag_size vs); lia].
        unfold tag_ty. cbn [wf]. destruct W as [Hv _]. split; [rewrite map_map; exact Hv|]. clear. induction vs; cbn; auto.
      * intros n0 k t Hin m _. apply In_nth_error in Hin. destruct Hin as [i Hi]. eapply Gc; eauto.
Qed.

Lemma flat_ident_reads ns : reads1 ar fo (request DIdentifier (v_flat_ident err ns)).
Proof.
  intros f. apply (sde_request ar fo). clear f. intros f. cbn [mp_method]. unfold deserialize_identifier. apply sound_peek. intros c Hc.
  apply soundc_if; intros E.
  - eapply soundc_of with (P := fun _ bs => exists z, int_fmt z bs).
    + eapply sound_bind; [apply sound_integer|]. intros z x [_ Hz] _. apply sound_lift. intros a Ha. exists z. rewrite app_nil_r. exact Hz.
    + intros a bs (z & Hz) _. intros ->. inversion Hz.
  - apply soundc_if; intros E2; [|intros s s' a _ _ _ D; discriminate D].
    eapply soundc_of with (P := fun _ bs => bs <> []); [|auto].
    eapply sound_bind; [apply sound_str|]. intros x bs [Hu Hs] _. eapply sound_bind with (P := fun _ b => b = []).
    { intros s s' a Hs' Hb D. injection D as <- <-. exists []. split; auto. split; auto. apply adv_refl in Hs'. auto. }
    intros _ y -> _. apply sound_lift. intros a Ha. rewrite app_nil_r. eapply str_enc_nonempty; eauto.
Qed.
Lemma flattened_b fs g n : wf (TStruct fs) -> dB n (S (10 * type_size (TStruct fs))) (flattened fo err fs g).
Proof.
  intros W. set (B := (10 * type_size (TStruct fs))%nat). assert (HB : (10 <= B)%nat) by (unfold B; cbn [type_size]; lia).
  unfold flattened, request. apply (req_bound ar fo orig Wide). split; [|split; [|split; [|split]]; first [discriminate|lia]]. intros n' _.
  cbn [visit_seq visit_map mk_visitor v_map on_seq on_map]. split; [rets|].
  intros f c Hc Hf. set (seeds := map (fun f => denote err (snd f)) fs). set (names := map name_of fs).
  eapply (map_bound ar fo orig Wide (fun p => exists got rest, p = flat_loop fo err names seeds (map absent_val fs) g got rest) B n'); [lia| |eauto|exact Hc|lia].
  intros p (got & rest & ->). destruct (flat_step fo err names seeds (map absent_val fs) g got rest (fun seed => forall m, (m <= n')%nat -> dB m B seed)) as (k & Ek & H1 & H2 & H3).
  - intros m _. apply (dB_less ar fo orig m m B 6); [lia|lia|apply (any_bound ar fo orig Wide)].
  - intros seed Hin m _. apply in_map_iff in Hin. destruct Hin as (x & <- & Hin). destruct W as [_ W]. pose proof (MpTyped.all_list_In _ _ W _ Hin) as [Wf _].
    apply (t_bound ar fo orig Wide); [apply (types_within ar fo orig Wide); exact Wf|].
    pose proof (one_of_sum (fun f : bytes * fattr * ty => type_size (snd f)) fs x Hin). unfold B. cbn [type_size] in *. lia.
  - eexists. exists k. split; [exact Ek|]. split; [|split; [apply flat_ident_reads|auto]].
    intros m _. apply (dB_less ar fo orig m m B 2); [lia|lia|]. unfold request. apply (req_bound ar fo orig Wide).
    split; [|split; [|split; [|split]]; first [discriminate|lia]]. intros n0 _. split; rets.
Qed.
End Ends.

Section Top.
Context (ar : arch) (fo : float_ops) (A64 : arch64 ar).
Theorem mp_adjacent_ends tag content vs input fuel : wf (TEnum vs) -> slice64 input -> (10 * type_size (TEnum vs) + 1 + 3 * length input <= fuel)%nat ->
  exists s r, mp_from_slice ar fo fuel (adjacent fo DeserializeError tag content vs) input = Done s r.
Proof. intros W Hi Hf. eapply (ends_top ar fo A64); [auto|apply (adjacent_b ar fo input (arch64_wide ar A64)); exact W|lia]. Qed.
Theorem mp_flattened_ends fs g input fuel : wf (TStruct fs) -> slice64 input -> (10 * type_size (TStruct fs) + 1 + 3 * length input <= fuel)%nat ->
  exists s r, mp_from_slice ar fo fuel (flattened fo DeserializeError fs g) input = Done s r.
Proof. intros W Hi Hf. eapply (ends_top ar fo A64); [auto|apply (flattened_b ar fo input (arch64_wide ar A64)); exact W|lia]. Qed.
End Top.

(** ** One value per encoding, and encodings cut short *)
Theorem mp_adjacent_truncated ar fo tag content vs i v bs c q : arch32up ar -> names_ok [tag; content] -> wf (TEnum vs) -> adjacent_enc fo tag content vs i v (bs ++ c :: q) -> slice_of ar (bs ++ c :: q) ->
  exists N, forall fuel, (N <= fuel)%nat -> exists s, mp_from_slice ar fo fuel (adjacent fo DeserializeError tag content vs) bs = Done s (Err UnexpectedEof).
Proof. intros A Hn W H Hs. destruct (adjacent_reads ar fo tag content vs i v _ (conj Hn W) H) as [N HN]. exists N. intros fuel Hf. eapply from_slice_truncated; eauto. Qed.
Theorem mp_adjacent_unambiguous fo tag content vs i v i' v' bs tail : names_ok [tag; content] -> wf (TEnum vs) -> slice64 (bs ++ tail) ->
  adjacent_enc fo tag content vs i v bs -> adjacent_enc fo tag content vs i' v' (bs ++ tail) -> i = i' /\ v = v' /\ tail = [].
Proof.
  intros Hn W Hs H H'. set (ar := {| usize_max := 2 ^ 64 - 1; overflow_checks := true |}). assert (A64 : arch64 ar) by reflexivity.
  destruct (mp_adjacent_accepts ar fo (arch64_up ar A64) tag content vs i v bs tail (conj Hn W) H (slice64_of ar _ A64 Hs)) as [N HN].
  destruct (mp_adjacent_accepts ar fo (arch64_up ar A64) tag content vs i' v' (bs ++ tail) [] (conj Hn W) H') as [N' HN']. { rewrite app_nil_r. apply slice64_of; auto. }
  destruct (HN (max N N')) as [s E]; [lia|]. destruct (HN' (max N N')) as [s' E']; [lia|]. rewrite app_nil_r in E'. rewrite E in E'. injection E' as _ <- <- L.
  split; auto. split; auto. rewrite zlen_app in L. destruct tail; auto. rewrite zlen_cons in L. pose proof (zlen_nonneg tail). lia.
Qed.
Theorem mp_flattened_unambiguous fo fs g st st' l w l' w' bs tail : wf (TStruct fs) -> (exists gs, g = TStruct gs) \/ (exists k v, g = TMap k v) -> wf g -> strict g ->
  told_apart st g -> told_apart st' g -> hastype g w -> hastype g w' -> slice64 (bs ++ tail) ->
  flat_enc fo fs g st l w bs -> flat_enc fo fs g st' l' w' (bs ++ tail) -> l = l' /\ w = w' /\ tail = [].
Proof.
  intros W G Wg Sg T T' Ht Ht' Hs H H'. set (ar := {| usize_max := 2 ^ 64 - 1; overflow_checks := true |}). assert (A64 : arch64 ar) by reflexivity.
  destruct (mp_flat_accepts ar fo fs g st l w bs tail (arch64_up ar A64) W G Wg Sg T Ht H (slice64_of ar _ A64 Hs)) as [N HN].
  destruct (mp_flat_accepts ar fo fs g st' l' w' (bs ++ tail) [] (arch64_up ar A64) W G Wg Sg T' Ht' H') as [N' HN']. { rewrite app_nil_r. apply slice64_of; auto. }
  destruct (HN (max N N')) as [s E]; [lia|]. destruct (HN' (max N N')) as [s' E']; [lia|]. rewrite app_nil_r in E'. rewrite E in E'. injection E' as _ <- <- L.
  split; auto. split; auto. rewrite zlen_app in L. destruct tail; auto. rewrite zlen_cons in L. pose proof (zlen_nonneg tail). lia.
Qed.
Theorem mp_flattened_truncated ar fo fs g st l w bs c q : arch32up ar -> wf (TStruct fs) -> (exists gs, g = TStruct gs) \/ (exists k v, g = TMap k v) -> wf g -> strict g -> told_apart st g -> hastype g w ->
  flat_enc fo fs g st l w (bs ++ c :: q) -> slice_of ar (bs ++ c :: q) ->
  exists N, forall fuel, (N <= fuel)%nat -> exists s, mp_from_slice ar fo fuel (flattened fo DeserializeError fs g) bs = Done s (Err UnexpectedEof).
Proof.
  intros A W G Wg Sg T Ht H Hs. assert (nice g) by (unfold nice; destruct G as [[gs ->]|(k & v & ->)]; exact I).
  destruct (flat_reads ar fo fs g st l w (bs ++ c :: q)) as [N HN]; auto. exists N. intros f Hf. eapply from_slice_truncated; eauto.
Qed.

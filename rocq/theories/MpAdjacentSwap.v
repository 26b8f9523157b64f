(** MessagePack: the content of an adjacently tagged enum before its tag (C71). *)
From Verif Require Import Prelude PreludeFacts Utf8 Utf8Spec Utf8Facts SerdeSer SerdeDe MpMagick MpSpec MpErrMap MpSer MpSerFacts MpDe MpDeView MpDeReads MpDeTop FloatOps Types TypesFacts MpTypeSpec MpTyped MpAny MpReadBack
  Content ContentSpec ContentFacts MpContent Adjacent AdjacentSpec MpAdjacent.
Ltac Zify.zify_post_hook ::= Z.div_mod_to_equations.

Theorem mp_adjacent_swapped ar fo cfg fl tag content vs i n k t v h kc b kt a tail : arch32up ar -> variants_ok tag content vs ->
  nth_error vs i = Some (n, k, t) -> hastype t v -> strict t -> told_apart (style_of fl) t -> (k = KStruct -> fl <> Compact) ->
  2 ^ 32 - 1 <= cfg_usize_max cfg -> mp_to_vec cfg fl (trace t v) = Ok b ->
  map_hdr 2 h -> ident_enc [tag; content] 1 kc -> ident_enc [tag; content] 0 kt -> ident_enc (map name_of vs) i a ->
  slice_of ar ((h ++ kc ++ b ++ kt ++ a) ++ tail) ->
  exists N, forall fuel, (N <= fuel)%nat ->
    exists s, mp_from_slice ar fo fuel (adjacent fo DeserializeError tag content vs) ((h ++ kc ++ b ++ kt ++ a) ++ tail) = Done s (Ok (UVar i v, zlen (h ++ kc ++ b ++ kt ++ a))).
Proof.
  intros A32 [Hn [Hv Hw]] En H S T Ks Hc Ho Hh Kc Kt Ha Hs. pose proof (all_list_In _ _ Hw _ (nth_error_In _ _ En)) as [W K]. cbn [snd fst attr_of] in *.
  destruct (to_vec_ok_documented cfg fl (trace t v) b (typed_sval_ok t W v H) Hc Ho) as (m & D & F).
  destruct (doc_denotes (style_of fl) (trace t v) (typed_sval_ok t W v H) m D) as [w Dn].
  pose proof (proj1 (proj1 (any_reads ar fo) m b F) w Dn) as R. apply den_of in Dn.
  destruct (written_shape (style_of fl) t W T v m w H D Dn) as (sh & Sh & In_).
  assert (V : untagged_variant fo (k, t) w = Some v).
  { pose proof (content_back fo (style_of fl) t W S T v m w H D Dn) as B. unfold untagged_variant. cbn [fst snd]. destruct k; auto.
    - destruct t; cbn in K; try contradiction. destruct v; cbn in H; try contradiction. cbn in D. injection D as <-. injection Dn as <-. reflexivity.
    - destruct t; cbn in K; try contradiction. unfold written, fields_shape in In_. specialize (Ks eq_refl).
      destruct In_ as [I|[]]. destruct fl; [tauto| |]; cbn in I; subst sh; destruct w; try discriminate; exact B. }
  assert (P : rde ar fo (adjacent fo DeserializeError tag content vs) (h ++ kc ++ b ++ kt ++ a) (Ok (UVar i v))).
  { apply rde_request. eapply rme_struct_map; [exact Hh|]. cbn [mk_visitor v_struct on_map visit_map]. unfold adjacent_map. cbv zeta.
    change (kc ++ ?x) with ([] ++ kc ++ x). change 2 with (0 + (1 + 1)). eapply rmp_relevant; [exact Hn|exact Kc|lia| |apply OT_nil]. cbv beta iota.
    eapply rmp_val; [reflexivity|exact R|]. cbv beta iota.
    change (kt ++ ?x) with ([] ++ kt ++ x). change 1 with (0 + (1 + 0)). eapply rmp_relevant; [exact Hn|exact Kt|lia| |apply OT_nil]. cbv beta iota. unfold tag_value.
    rewrite <- (app_nil_r a). eapply rmp_val; [reflexivity|apply tag_reads; eauto|]. cbv beta iota. rewrite En, V. apply rmp_no_more, OT_nil. }
  destruct P as [N HN]. exists N. intros f Hf. apply from_slice_reads; auto.
Qed.

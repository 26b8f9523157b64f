(** JSON: the content of an adjacently tagged enum before its tag (C71). *)
From Verif Require Import Prelude PreludeFacts Utf8 Utf8Spec Utf8Facts SerdeDe SerdeSer MpSpec Base64Spec
  JsonSpec JsonTypeSpec JsonFacts JsonSer JsonErrMap JsonSerFacts JsonDe JsonDeSafe JsonStr JsonView JsonTok JsonMeth JsonEats JsonTyped FloatOps Types TypesFacts MpTypeSpec MpTyped JsonTypedTop JsonTypedSer
  JsonAnySpec JsonAny JsonReadBack Content ContentSpec ContentFacts JsonContent Adjacent AdjacentSpec JsonAdjacent.
Ltac Zify.zify_post_hook ::= Z.div_mod_to_equations.

Section A.
Context (ar : arch) (fl : float_parser) (fo : float_ops) (any_f32 : bool) (dec : byte_decoder).
Local Notation accepts := (accepts ar fl any_f32 dec).
Local Notation err := JDeserializeError.
Local Notation float_of := (if any_f32 then f32_from_str fl else f64_from_str fl).

Lemma adjacent_swapped tag content vs i n k t v o1 kc d w o2 kt a o3 : names_ok [tag; content] -> wf (TEnum vs) -> nth_error vs i = Some (n, k, t) ->
  Forall (other_member [tag; content]) (o1 ++ o2 ++ o3) -> literal kc content -> literal kt tag -> literal a n ->
  any_as any_f32 float_of w d -> untagged_variant fo (k, t) w = Some v ->
  accepts (adjacent fo err tag content vs) (JObj (o1 ++ (kc, d) :: o2 ++ (kt, JStr a) :: o3)) (UVar i v).
Proof.
  intros [Hn _] [Hv Hw] E O Lc Lt La A V. unfold adjacent, request. apply (proj1 (accepts_req ar fl any_f32 dec _ _ _ _)). intros tx sp r Hb Hsp Hr. cbn [js_method]. unfold j_deserialize_struct.
  destruct (obj_text _ _ Hb) as (b' & Eb & _). rewrite Eb. cbn [app]. apply eats_ws; auto. cbn [Z.eqb Pos.eqb].
  change (123 :: (b' ++ [125]) ++ r) with ([] ++ (123 :: b' ++ [125]) ++ r). rewrite <- Eb.
  apply Forall_app in O. destruct O as [O1 O]. apply Forall_app in O. destruct O as [O2 O3].
  eapply map_eats; [|exact Hb|constructor]. cbn [mk_visitor v_struct on_map visit_map]. unfold adjacent_map. cbv zeta.
  apply feed_others; auto. eapply (feed_at ar fl any_f32 dec _ _ 1%nat content); [exact Hn|reflexivity|exact Lc|reflexivity|apply any_accepts; destruct any_f32; exact A|]. cbn iota beta.
  apply feed_others; auto. eapply (feed_at ar fl any_f32 dec _ _ 0%nat tag); [exact Hn|reflexivity|exact Lt|reflexivity| |].
  - eapply (tag_accepts ar fl any_f32 dec no_ws); eauto. intros x ->. constructor.
  - cbn iota beta. rewrite E, V. apply feed_no_more. auto.
Qed.

Theorem js_adjacent_swapped fp enc tag content vs i n k t v b kc kt a w1 w2 :
  let text := [123; 34] ++ kc ++ [34; 58] ++ b ++ [44; 34] ++ kt ++ [34; 58; 34] ++ a ++ [34; 125] in
  matching enc dec -> printer_ok fp ->
  names_ok [tag; content] -> wf (TEnum vs) -> nth_error vs i = Some (n, k, t) -> hastype t v -> strict t -> text_keys (enc = ArrayByteEncoder) t ->
  all_floats (good32 fo any_f32 float_of fp) (good64 fo any_f32 float_of fp) (trace t v) ->
  js_to_string fp enc (trace t v) = Ok b -> literal kc content -> literal kt tag -> literal a n -> any_ws w1 -> any_ws w2 ->
  (dec = Base64Decoder -> 3 * zlen (w1 ++ text ++ w2) <= usize_max ar) ->
  exists N, forall fuel, (N <= fuel)%nat ->
    exists s, js_from_mut_slice ar fl any_f32 dec fuel (adjacent fo err tag content vs) (w1 ++ text ++ w2) = Done s (Ok (UVar i v)).
Proof.
  intros text Hm P Hn W E H S Tk F Eo Lc Lt La W1 W2 R. pose proof W as [Hv Hw]. pose proof (all_list_In _ _ Hw _ (nth_error_In _ _ E)) as [Wt K]. cbn [snd fst attr_of] in *.
  destruct (typed_strings t Wt v H) as [S1 M1].
  pose proof (to_string_canon fp enc (trace t v) (matching_pass _ _ Hm) P S1 M1) as C.
  destruct (js_value fp enc (trace t v)) as [j|] eqn:Ej; [|destruct C as (e & C & _); congruence].
  destruct C as (out' & C & T). assert (out' = b) by congruence. subst out'.
  destruct (doc_good any_f32 float_of fp enc (trace t v) S1) with j as [u V]; [|exact Ej|].
  { revert F. apply all_floats_mono; intros x [_ (z & Nz & _)] _; exists z; exact Nz. }
  pose proof (proj1 (jcontent_back fo any_f32 float_of fp enc t Wt S Tk v j u H F Ej V)) as B.
  pose proof (proj1 (value_any any_f32 float_of) _ _ T _ V) as A.
  apply accepts_top with (d := JObj ([] ++ (kc, tok_doc j) :: [] ++ (kt, JStr a) :: [])); auto.
  - eapply adjacent_swapped; eauto; [constructor|].
    unfold untagged_variant. cbn [fst snd]. destruct k; auto.
    + destruct t; cbn in K; try contradiction. destruct v; cbn in H; try contradiction. cbn in Ej. injection Ej as <-. inversion V; subst. reflexivity.
    + destruct t; cbn in K; try contradiction. destruct v; cbn [hastype] in H; try contradiction. cbn [trace] in Ej. unfold struct_call, js_value in Ej. cbn [js_doc] in Ej.
      match type of Ej with context [doc_fields ?f ?y] => destruct (doc_fields f y) as [js|]; [|discriminate] end. injection Ej as <-. inversion V; subst. exact B.
  - assert (Q : forall s raw, literal raw s -> quoted_span raw) by (intros s raw [L _]; exact (body_span _ _ _ L)). cbn [app].
    replace text with (123 :: ([] ++ (34 :: kc ++ [34]) ++ [] ++ 58 :: [] ++ b ++ [] ++ 44 :: ([] ++ (34 :: kt ++ [34]) ++ [] ++ 58 :: [] ++ (34 :: a ++ [34]) ++ [])) ++ [125])
      by (unfold text; cbn [app]; repeat (rewrite <- app_assoc; cbn [app]); reflexivity).
    assert (W0 : any_ws []) by constructor. assert (LK : forall s raw, literal raw s -> loose_key raw (34 :: raw ++ [34])) by (intros s raw L; split; [reflexivity|exists [], raw; eauto]).
    apply T_obj. apply O_more; [exact W0|exact (LK _ _ Lc)|exact W0|exact W0|apply raw_loose, canon_raw; exact T|exact W0|].
    apply O_one; [exact W0|exact (LK _ _ Lt)|exact W0|exact W0| |exact W0]. apply T_str. split; [reflexivity|exact (Q _ _ La)].
Qed.
End A.

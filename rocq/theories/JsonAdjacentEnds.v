(** Decoding JSON into adjacently tagged enums and structs with flattened fields ends (C71, C72). *)
From Verif Require Import Prelude PreludeFacts SerdeSer SerdeDe FloatOps Base64Spec JsonSpec JsonDe JsonDeSafe Types TypesFacts TypeSize MpSpec MpTypeSpec JsonTypeSpec JsonAnySpec JsonFuel Content ContentSpec Adjacent AdjacentSpec JsonAdjacent Flatten AdjacentEnds.

Section Ends.
Context (ar : arch) (fl : float_parser) (fo : float_ops) (any_f32 : bool) (dec : byte_decoder) (orig : nat).
Context (room : dec = Base64Decoder -> 3 * Z.of_nat orig <= usize_max ar).
Local Notation err := JDeserializeError.
Local Notation dB := (dB ar fl any_f32 dec orig).
Local Notation sB := (sB ar fl any_f32 dec orig).
Local Notation mB := (mB ar fl any_f32 dec orig).
Local Notation run := (js_run ar fl any_f32 dec).
Ltac rets := first [apply sret_b; lia|apply mret_b; lia|apply dret_b; lia|apply eret_b; lia].

Lemma type_b t n B : (10 * type_size t <= B)%nat -> dB n B (denote err t).
Proof. intros HB. apply t_bound; auto. apply types_within; auto. Qed.
Lemma content_b k t n B : (10 * type_size t <= B)%nat -> dB n B (content_seed err k t).
Proof.
  intros HB. assert (Hp : (1 <= type_size t)%nat) by (destruct t; cbn; lia). pose proof (type_b t n B HB) as D.
  assert (U : dB n B (request DAny (v_untagged_unit err))).
  { apply (dB_less ar fl any_f32 dec orig n n B 2); [lia|lia|]. unfold request. apply req_bound; auto.
    split; [|split; [|split]; discriminate]. intros n' _. split; rets. }
  destruct k; cbn [content_seed]; try (destruct t; exact U); try exact D.
  destruct t as [ | | | | | | | | | | | | | | |fs| ]; try exact D. cbn [type_size] in *.
  apply (dB_less ar fl any_f32 dec orig n n B (S (10 * S (list_sum (map (fun f => type_size (snd f)) fs)) - 1))); [lia|lia|]. unfold request. apply req_bound; auto.
  split; [|split; [|split]; discriminate]. intros n' _. split; [rets|].
  cbn [visit_map mk_visitor v_map on_map].
  eapply mB_less; [|apply (struct_loop_b ar fl any_f32 dec orig room n' (10 * list_sum (map (fun f => type_size (snd f)) fs) + 6)); [lia|]]; [lia|].
  intros n0 seed Hin. apply in_map_iff in Hin. destruct Hin as (f & <- & Hin). apply type_b.
  pose proof (one_of_sum (fun f : bytes * fattr * ty => type_size (snd f)) fs f Hin). cbn beta in *. lia.
Qed.

Lemma adjacent_b tag content vs n : dB n (S (10 * type_size (TEnum vs))) (adjacent fo err tag content vs).
Proof.
  set (B := (10 * type_size (TEnum vs))%nat). assert (HB : (10 <= B)%nat) by (unfold B; cbn [type_size]; lia).
  assert (Gc : forall m i n0 k t, nth_error vs i = Some (n0, k, t) -> dB m B (content_seed err k t)).
  { intros m i n0 k t E. apply nth_error_In in E. apply content_b.
    pose proof (one_of_sum (fun f : bytes * vkind * ty => type_size (snd f)) vs _ E). unfold B. cbn [type_size snd] in *. lia. }
  unfold adjacent, request. apply req_bound; auto. split; [|split; [|split]; discriminate]. intros n' _.
  cbn [visit_seq visit_map mk_visitor v_struct on_seq on_map]. split.
  - intros f Hf. destruct f as [|f]; [lia|]. unfold adjacent_seq.
    match goal with |- ends _ _ _ (jr_seq _ (SNext ?sd ?k) _) => change (ends orig n' any_st (j_step_seq (run f) (SNext sd k) true)) end.
    apply (e_step_seq any_f32); [apply (sret_ends ar fl any_f32 dec); lia|intros; apply (sret_ends ar fl any_f32 dec); lia|]. intros m Hm. assert (m <= n')%nat by (unfold after in Hm; lia).
    split; [apply (ident_b ar fl any_f32 dec orig room m 2 true (map name_of vs) (le_n 2) f false); lia|].
    intros u. destruct u; try (apply (sret_ends ar fl any_f32 dec); lia). destruct o as [i|]; [|apply (sret_ends ar fl any_f32 dec); lia].
    destruct (nth_error vs i) as [[[n0 k] t]|] eqn:En; [|apply (sret_ends ar fl any_f32 dec); lia]. destruct f as [|f]; [lia|].
    match goal with |- ends _ _ _ (jr_seq _ (SNext ?sd ?k) ?b) => change (ends orig m any_st (j_step_seq (run f) (SNext sd k) b)) end.
    apply (e_step_seq any_f32); [apply (sret_ends ar fl any_f32 dec); lia|intros; apply (sret_ends ar fl any_f32 dec); lia|]. intros m' Hm'. assert (m' <= m)%nat by (unfold after in Hm'; lia).
    split; [apply (Gc m' i _ _ _ En f false); lia|]. intros w. apply (sret_ends ar fl any_f32 dec); lia.
  - intros f Hf. set (G := fun seed => forall m, (m <= n')%nat -> dB m B seed).
    eapply (map_bound_or ar fl any_f32 dec orig (fun p => exists d, level err [tag; content] G d p) B n'); [lia| | |cbv iota; lia].
    + intros p Hp. destruct (level_step err [tag; content] G) with (p := p) as (k & -> & H1 & H2 & H3); [|exact Hp|].
      { intros m _. apply (dB_less ar fl any_f32 dec orig m m B 6); [lia|lia|apply ignored_bound; auto]. }
      exists (ident err false [tag; content]), k. split; [reflexivity|]. split; [intros; apply ident_b; auto; lia|]. auto.
    + exists 3%nat. apply adjacent_level.
      * intros m _. apply (dB_less ar fl any_f32 dec orig m m B 6); [lia|lia|apply any_bound; auto].
      * intros m _. apply type_b. unfold B; pose proof (tag_size vs); lia.
      * intros n0 k t Hin m _. apply In_nth_error in Hin. destruct Hin as [i Hi]. eapply Gc; eauto.
Qed.

Lemma flattened_b fs g n : dB n (S (10 * type_size (TStruct fs))) (flattened fo err fs g).
Proof.
  set (B := (10 * type_size (TStruct fs))%nat). assert (HB : (10 <= B)%nat) by (unfold B; cbn [type_size]; lia).
  unfold flattened, request. apply req_bound; auto. split; [|split; [|split]; discriminate]. intros n' _.
  cbn [visit_seq visit_map mk_visitor v_map on_seq on_map]. split; [rets|].
  intros f Hf. set (seeds := map (fun f => denote err (snd f)) fs). set (names := map name_of fs).
  eapply (map_bound ar fl any_f32 dec orig (fun p => exists got rest, p = flat_loop fo err names seeds (map absent_val fs) g got rest) B n'); [lia| |eauto|cbv iota; lia].
  intros p (got & rest & ->). destruct (flat_step fo err names seeds (map absent_val fs) g got rest (fun seed => forall m, (m <= n')%nat -> dB m B seed)) as (k & Ek & H1 & H2 & H3).
  - intros m _. apply (dB_less ar fl any_f32 dec orig m m B 6); [lia|lia|apply any_bound; auto].
  - intros seed Hin m _. apply in_map_iff in Hin. destruct Hin as (x & <- & Hin). apply type_b.
    pose proof (one_of_sum (fun f : bytes * fattr * ty => type_size (snd f)) fs x Hin). unfold B. cbn [type_size] in *. lia.
  - eexists. exists k. split; [exact Ek|]. split; [|auto].
    intros m _. apply (dB_less ar fl any_f32 dec orig m m B 2); [lia|lia|]. unfold request. apply req_bound; auto.
    split; [|split; [|split]; discriminate]. intros n0 _. split; rets.
Qed.
End Ends.

Section Top.
Context (ar : arch) (fl : float_parser) (fo : float_ops) (any_f32 : bool) (dec : byte_decoder).
Theorem js_adjacent_ends tag content vs input fuel : (dec = Base64Decoder -> 3 * zlen input <= usize_max ar) -> (10 * type_size (TEnum vs) + 1 + 3 * length input <= fuel)%nat ->
  exists s r, js_from_mut_slice ar fl any_f32 dec fuel (adjacent fo JDeserializeError tag content vs) input = Done s r.
Proof. intros R Hf. eapply (ends_top ar fl any_f32 dec); [auto|apply (adjacent_b ar fl fo any_f32 dec (length input) R)|lia]. Qed.
Theorem js_flattened_ends fs g input fuel : (dec = Base64Decoder -> 3 * zlen input <= usize_max ar) -> (10 * type_size (TStruct fs) + 1 + 3 * length input <= fuel)%nat ->
  exists s r, js_from_mut_slice ar fl any_f32 dec fuel (flattened fo JDeserializeError fs g) input = Done s r.
Proof. intros R Hf. eapply (ends_top ar fl any_f32 dec); [auto|apply (flattened_b ar fl fo any_f32 dec (length input) R)|lia]. Qed.
End Top.

(** ** One value per document *)
Local Notation readings dec := (match dec with NopeDecoder => bytes_as_string | HexDecoder => hex_bytes | Base64Decoder => bytes_as_base64 end).
Theorem js_adjacent_unambiguous f32_of f64_of dec tag content vs i v i' v' d text : names_ok [tag; content] -> wf (TEnum vs) -> raw_text d text ->
  adjacent_doc (reads_as no_ws f32_of f64_of (readings dec)) tag content vs i v d -> adjacent_doc (reads_as no_ws f32_of f64_of (readings dec)) tag content vs i' v' d -> i = i' /\ v = v'.
Proof.
  intros Hn W T H H'. set (fl := {| f32_from_str := f32_of; f64_from_str := f64_of |}).
  set (ar := {| usize_max := 3 * zlen text; overflow_checks := true |}).
  set (fo := {| int_to_f32 := fun z => z; int_to_f64 := fun z => z; f64_to_f32 := fun b => b; f32_to_f64 := fun b => b |}).
  assert (R : dec = Base64Decoder -> 3 * zlen ([] ++ text ++ []) <= usize_max ar) by (intros _; cbn [app]; rewrite app_nil_r; cbn; lia).
  destruct (js_adjacent_accepts ar fl fo false dec tag content vs i v d text [] [] Hn W H T (Forall_nil _) (Forall_nil _) R) as [K HK].
  destruct (js_adjacent_accepts ar fl fo false dec tag content vs i' v' d text [] [] Hn W H' T (Forall_nil _) (Forall_nil _) R) as [K' HK'].
  destruct (HK (max K K')) as [s E]; [lia|]. destruct (HK' (max K K')) as [s' E']; [lia|]. rewrite E in E'. injection E' as _ <- <-. auto.
Qed.

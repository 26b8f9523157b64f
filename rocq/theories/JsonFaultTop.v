(** The outcome of decoding a JSON document, by the specification alone (C58). *)
From Verif Require Import Prelude PreludeFacts Utf8 Utf8Spec SerdeDe SerdeSer MpSpec Base64Spec
  JsonSpec JsonTypeSpec JsonDe JsonDeSafe JsonView JsonTok JsonMeth JsonEats JsonTyped
  Types TypesFacts TypeSize MpTypeSpec JsonSound JsonTypedTop JsonSoundTop JsonFaultSpec JsonFaultLeaf JsonFault JsonFaultTyped JsonFaultTotal.
From Verif Require JsonFuel.

Local Notation prog t := (denote JDeserializeError t).

Section Top.
Context (ar : arch) (fl : float_parser) (any_f32 : bool) (dec : byte_decoder).
Local Notation from_slice := (js_from_mut_slice ar fl any_f32 dec).
Local Notation fits_input input := (dec = Base64Decoder -> 3 * zlen input <= usize_max ar).
Local Notation takes := (takes (f32_from_str fl) (f64_from_str fl) dec).
Local Notation document_fault := (document_fault (f32_from_str fl) (f64_from_str fl) dec).
Local Notation reads := (reads_as any_ws (f32_from_str fl) (f64_from_str fl) (byte_literal dec)).

Lemma start_inside input : fits_input input -> inside ar dec (j_from_mut_slice input).
Proof. intros R. split; [cbn; lia|exact R]. Qed.
Lemma top_fails (p : deser val js_de_error) input e : fits_input input -> gives ar dec (fun f => jr_de (js_run ar fl any_f32 dec f) false p) input (failed e) ->
  exists N, forall fuel, (N <= fuel)%nat -> exists s, from_slice fuel p input = Done s (Err e).
Proof.
  intros R [N H]. exists N. intros fuel Hf. destruct (H fuel Hf (j_from_mut_slice input) (start_inside input R) eq_refl) as [s E].
  exists s. unfold js_from_mut_slice, dbind. rewrite E. reflexivity.
Qed.
Lemma top_trailing (p : deser val js_de_error) input v k : fits_input input -> eats ar dec (fun f => jr_de (js_run ar fl any_f32 dec f) false p) v input k -> ~ any_ws k ->
  exists N, forall fuel, (N <= fuel)%nat -> exists s, from_slice fuel p input = Done s (Err JTrailingCharacters).
Proof.
  intros R [N H] Hk. exists N. intros fuel Hf. destruct (H fuel Hf (j_from_mut_slice input) (start_inside input R) eq_refl) as (s & E & _ & K).
  destruct (end_spec ar fl any_f32 dec fuel p input s v R E) as [_ X]. apply X. rewrite K. exact Hk.
Qed.
Theorem fault_named t input e : wf t -> all_bytes input -> fits_input input -> document_fault t input e ->
  exists N, forall fuel, (N <= fuel)%nat -> exists s, from_slice fuel (prog t) input = Done s (Err e).
Proof.
  intros W B R [H|[-> (v & k & Ht & Hk)]].
  - apply top_fails; auto. apply js_fails; auto.
  - apply (top_trailing _ _ v k); auto. apply takes_eats; auto.
Qed.
Theorem skip_named input e : all_bytes input -> fits_input input -> skip_document_fault input e ->
  exists N, forall fuel, (N <= fuel)%nat -> exists s, from_slice fuel ignored input = Done s (Err e).
Proof.
  intros B R [H|[-> (k & Ht & Hk)]].
  - apply top_fails; auto. apply skip_fails; auto.
  - apply (top_trailing _ _ UUnit k); auto. apply skips_eats; auto.
Qed.

Lemma ws_dec l : any_ws l \/ ~ any_ws l.
Proof. destruct (ws_cases l) as [H|(c & r & H)]; [auto|right; eapply begins_not_ws; eauto]. Qed.
Theorem outcome_decided t input fuel : f32_from_str fl [] = None -> f64_from_str fl [] = None ->
  wf t -> all_bytes input -> fits_input input -> (10 * type_size t + 3 * length input <= fuel)%nat ->
  exists s r, from_slice fuel (prog t) input = Done s r /\
  match r with
  | Ok v => exists d w1 text w2, input = w1 ++ text ++ w2 /\ any_ws w1 /\ any_ws w2 /\ loose_text d text /\ reads t v d
  | Err e => document_fault t input e
  end.
Proof.
  intros F1 F2 W B R Hf. destruct (JsonFuel.typed_ends ar fl any_f32 dec t input fuel R Hf) as (s & r & E). exists s, r. split; auto.
  destruct (takes_or_fault ar fl dec F1 F2 t W input (conj B R)) as [(v & k & Ht)|(e & He)].
  - destruct (ws_dec k) as [Hk|Hk].
    + destruct Ht as (w & d & b & Ei & Hw & Hb & Hr & _).
      destruct (from_slice_reads ar fl any_f32 dec any_ws (fun w H => H) t v d b w k W Hr Hb Hw Hk) as [N HN]; [rewrite <- Ei; exact R|].
      destruct (HN N (le_n N)) as [s' E']. rewrite <- Ei in E'. destruct (JsonFuel.budget_irrelevant ar fl any_f32 dec _ _ _ _ _ _ _ _ E E') as [_ ->].
      exists d, w, b, k. auto.
    + assert (D : document_fault t input JTrailingCharacters) by (right; eauto). destruct (fault_named t input _ W B R D) as [N HN].
      destruct (HN N (le_n N)) as [s' E']. destruct (JsonFuel.budget_irrelevant ar fl any_f32 dec _ _ _ _ _ _ _ _ E E') as [_ ->]. exact D.
  - assert (D : document_fault t input e) by (left; auto). destruct (fault_named t input _ W B R D) as [N HN].
    destruct (HN N (le_n N)) as [s' E']. destruct (JsonFuel.budget_irrelevant ar fl any_f32 dec _ _ _ _ _ _ _ _ E E') as [_ ->]. exact D.
Qed.
Theorem skip_decided input fuel : all_bytes input -> fits_input input -> (6 + 3 * length input <= fuel)%nat ->
  exists s r, from_slice fuel ignored input = Done s r /\
  match r with
  | Ok _ => exists d w1 text w2, input = w1 ++ text ++ w2 /\ any_ws w1 /\ any_ws w2 /\ loose_text d text /\ skippable d
  | Err e => skip_document_fault input e
  end.
Proof.
  intros B R Hf. destruct (JsonFuel.ignored_ends ar fl any_f32 dec input fuel R Hf) as (s & r & E). exists s, r. split; auto.
  destruct (skip_total input B) as [(k & Ht)|(e & He)].
  - destruct (ws_dec k) as [Hk|Hk].
    + destruct Ht as (w & d & b & Ei & Hw & Hb & Hr & _).
      destruct (accepts_top ar fl any_f32 dec ignored d UUnit b w k) as [N HN]; auto; [apply ignored_accepts; auto|rewrite <- Ei; exact R|].
      destruct (HN N (le_n N)) as [s' E']. rewrite <- Ei in E'. destruct (JsonFuel.budget_irrelevant ar fl any_f32 dec _ _ _ _ _ _ _ _ E E') as [_ ->].
      exists d, w, b, k. auto.
    + assert (D : skip_document_fault input JTrailingCharacters) by (right; eauto). destruct (skip_named input _ B R D) as [N HN].
      destruct (HN N (le_n N)) as [s' E']. destruct (JsonFuel.budget_irrelevant ar fl any_f32 dec _ _ _ _ _ _ _ _ E E') as [_ ->]. exact D.
  - assert (D : skip_document_fault input e) by (left; auto). destruct (skip_named input _ B R D) as [N HN].
    destruct (HN N (le_n N)) as [s' E']. destruct (JsonFuel.budget_irrelevant ar fl any_f32 dec _ _ _ _ _ _ _ _ E E') as [_ ->]. exact D.
Qed.
End Top.

(** At most one verdict: the faults of a document agree, and exclude a value. *)
Theorem verdict_unique f32_of f64_of dec t input e : wf t -> all_bytes input -> document_fault f32_of f64_of dec t input e ->
  (forall e', document_fault f32_of f64_of dec t input e' -> e' = e) /\
  (forall v d w1 text w2, input = w1 ++ text ++ w2 -> any_ws w1 -> any_ws w2 -> loose_text d text ->
     ~ reads_as any_ws f32_of f64_of (byte_literal dec) t v d).
Proof.
  intros W B H. set (ar := {| usize_max := 3 * zlen input; overflow_checks := true |}). set (fl := {| f32_from_str := f32_of; f64_from_str := f64_of |}).
  assert (R : dec = Base64Decoder -> 3 * zlen input <= usize_max ar) by (intros _; cbn; lia).
  destruct (fault_named ar fl false dec t input e W B R H) as [N HN]. destruct (HN N (le_n N)) as [s E]. split.
  - intros e' H'. destruct (fault_named ar fl false dec t input e' W B R H') as [N' HN']. destruct (HN' N' (le_n N')) as [s' E'].
    destruct (JsonFuel.budget_irrelevant ar fl false dec _ _ _ _ _ _ _ _ E E') as [_ D]. congruence.
  - intros v d w1 text w2 Ei H1 H2 Ht Hr. rewrite Ei in R.
    destruct (from_slice_reads ar fl false dec any_ws (fun w H => H) t v d text w1 w2 W Hr Ht H1 H2 R) as [N' HN'].
    destruct (HN' N' (le_n N')) as [s' E']. rewrite <- Ei in E'. destruct (JsonFuel.budget_irrelevant ar fl false dec _ _ _ _ _ _ _ _ E E') as [_ D]. discriminate.
Qed.

Theorem i128_refused U ar fl any_f32 dec fuel (v : visitor U js_de_error) input :
  js_from_mut_slice ar fl any_f32 dec (S fuel) (DReq DI128 v (fun r => r)) input = Done (j_from_mut_slice input) (Err JDeserializeError).
Proof. reflexivity. Qed.

(** JSON texts other than numbers are a prefix code (C70). *)
From Verif Require Import Prelude PreludeFacts Utf8Spec SerdeSer SerdeDe MpSpec Base64Spec JsonSpec JsonTypeSpec JsonSer JsonErrMap JsonFacts JsonDe JsonSerFacts
  Types MpTypeSpec JsonTypedSer JsonUnamb JsonTypedTop JsonFlatten JsonCases UniqueTop.

Theorem documents_prefix_code d d' a k : loose_text d a -> loose_text d' (a ++ k) -> (forall tok, d <> JNum tok) -> d = d' /\ k = [].
Proof.
  intros T T' Hn. assert (E : a ++ k = (a ++ k) ++ []) by (rewrite app_nil_r; reflexivity).
  destruct (proj1 unambiguous d a T d' (a ++ k) k [] T' E) as (D & _ & K); auto; [|destruct d'; cbn; auto].
  destruct d; cbn; auto. destruct (Hn tok eq_refl).
Qed.

(** The escaped text tells the string. *)
Local Notation ctext := (jtext no_ws canon canon json_number).
Local Notation celems := (elements no_ws canon canon json_number).
Local Notation cmems := (members no_ws canon canon json_number).
Lemma canon_one s t s' t' : canon s t -> canon s' t' -> esc_text s = esc_text s' -> s = s'.
Proof. intros [V _] [V' _] E. apply (literal_one (esc_text s)); [apply esc_literal, V|rewrite E; apply esc_literal, V']. Qed.
Lemma tok_doc_one :
  (forall d b, ctext d b -> forall d' b', ctext d' b' -> tok_doc d = tok_doc d' -> d = d') /\
  (forall l b, celems l b -> forall l' b', celems l' b' -> map tok_doc l = map tok_doc l' -> l = l') /\
  (forall l b, cmems l b -> forall l' b', cmems l' b' -> map (fun m => (esc_text (fst m), tok_doc (snd m))) l = map (fun m => (esc_text (fst m), tok_doc (snd m))) l' -> l = l').
Proof.
  apply jtext_mutind.
  - intros d' b' _ E. destruct d'; cbn in E; congruence.
  - intros d' b' _ E. destruct d'; cbn in E; congruence.
  - intros d' b' _ E. destruct d'; cbn in E; congruence.
  - intros tok _ d' b' _ E. destruct d'; cbn in E; congruence.
  - intros s t C d' b' T E. destruct d'; cbn in E; try discriminate. injection E as E. inversion T; subst. f_equal. eapply canon_one; eauto.
  - intros w _ d' b' _ E. destruct d' as [| | | |l|]; cbn in E; try discriminate. destruct l; [reflexivity|discriminate].
  - intros l b L IH d' b' T E. destruct d' as [| | | |l'|]; cbn in E; try discriminate. injection E as E. inversion T; subst.
    + destruct l; [reflexivity|discriminate].
    + f_equal. eapply IH; eauto.
  - intros w _ d' b' _ E. destruct d' as [| | | | |l]; cbn in E; try discriminate. destruct l; [reflexivity|discriminate].
  - intros l b L IH d' b' T E. destruct d' as [| | | | |l']; cbn in E; try discriminate. injection E as E. inversion T; subst.
    + destruct l; [reflexivity|discriminate].
    + f_equal. eapply IH; eauto.
  - intros v b w1 w2 _ _ IH _ l' b' L E. inversion L; subst; cbn in E; [injection E as E; f_equal; eapply IH; eauto|].
    injection E as _ E. destruct l as [|x l]; [|discriminate]. inversion H2.
  - intros v b l r w1 w2 _ _ IH _ L IHl l' b' L' E. inversion L'; subst; cbn in E.
    + injection E as _ E. destruct l; [inversion L|discriminate].
    + injection E as E1 E2. f_equal; [eapply IH; eauto|eapply IHl; eauto].
  - intros k kt v b w1 w2 w3 w4 _ C _ _ _ IH _ l' b' L E. inversion L; subst; cbn in E.
    + injection E as E1 E2. f_equal. f_equal; [eapply canon_one; eauto|eapply IH; eauto].
    + injection E as _ _ E. destruct l as [|x l]; [|discriminate]. match goal with H : members _ _ _ _ [] _ |- _ => inversion H end.
  - intros k kt v b l r w1 w2 w3 w4 _ C _ _ _ IH _ L IHl l' b' L' E. inversion L'; subst; cbn in E.
    + injection E as _ _ E. destruct l; [inversion L|discriminate].
    + injection E as E1 E2 E3. f_equal; [f_equal; [eapply canon_one; eauto|eapply IH; eauto]|eapply IHl; eauto].
Qed.

Theorem json_outputs_prefix_code fp enc x out fp' enc' x' k :
  enc <> PassThroughByteEncoder -> printer_ok fp -> strings_ok x -> maps_ok x ->
  enc' <> PassThroughByteEncoder -> printer_ok fp' -> strings_ok x' -> maps_ok x' ->
  js_to_string fp enc x = Ok out -> js_to_string fp' enc' x' = Ok (out ++ k) -> (forall tok, js_value fp enc x <> Some (JNum tok)) ->
  k = [] /\ js_value fp enc x = js_value fp' enc' x'.
Proof.
  intros Ne P S M Ne' P' S' M' E E' Hn. pose proof (to_string_canon fp enc x Ne P S M) as C. pose proof (to_string_canon fp' enc' x' Ne' P' S' M') as C'.
  destruct (js_value fp enc x) as [j|]; [|destruct C as (e & C & _); congruence].
  destruct (js_value fp' enc' x') as [j'|]; [|destruct C' as (e & C' & _); congruence].
  destruct C as (o & C & T), C' as (o' & C' & T'). assert (o = out) by congruence. assert (o' = out ++ k) by congruence. subst o o'.
  destruct (documents_prefix_code (tok_doc j) (tok_doc j') out k) as [D K].
  - apply raw_loose, canon_raw. exact T.
  - apply raw_loose, canon_raw. exact T'.
  - intros tok X. destruct j; cbn in X; try discriminate. destruct (Hn tok0 eq_refl).
  - split; [exact K|]. f_equal. eapply (proj1 tok_doc_one); eauto.
Qed.
Theorem json_typed_prefix_code fl fp enc dec t v v' out k : law32 fl fp -> law64 fl fp -> printer_ok fp -> In (enc, dec) flavours ->
  wf t -> no_newtype_keys t -> hastype t v -> hastype t v' -> (forall tok, js_value fp enc (trace t v) <> Some (JNum tok)) ->
  js_to_string fp enc (trace t v) = Ok out -> js_to_string fp enc (trace t v') = Ok (out ++ k) -> k = [] /\ json_image t v = json_image t v'.
Proof.
  intros L32 L64 P F W K H H' Hn E E'. destruct (typed_strings t W v H) as [S M], (typed_strings t W v' H') as [S' M'].
  assert (Ne : enc <> PassThroughByteEncoder) by (intros ->; cbn in F; intuition congruence).
  destruct (json_outputs_prefix_code fp enc (trace t v) out fp enc (trace t v') k) as [-> _]; auto. split; [reflexivity|].
  rewrite app_nil_r in E'. eapply json_injective; eauto.
Qed.

(** What the MessagePack serializers write always reads back through a self-describing
    type, as what the message denotes (C55). *)
From Verif Require Import Prelude PreludeFacts Utf8 Utf8Spec Utf8Facts SerdeSer SerdeDe FloatOps Arch MpSpec MpSer MpSerRel MpSerFacts
  MpDe MpDeTop MpErrMap Types TypesFacts MpTypeSpec MpAny MpTypedTop.

Section Doc.
Context (st : style).
Local Notation good m := (exists w, denotes m (inl w)).

Lemma doc_str_denotes s m : valid_utf8 s -> doc_str s = Some m -> good m.
Proof. intros V. unfold doc_str. destruct (lt32 _); [|discriminate]. intros [= <-]. eexists. constructor. auto. Qed.
Lemma doc_variant_denotes i n m : valid_utf8 n -> doc_variant st i n = Some m -> good m.
Proof.
  intros V. unfold doc_variant. destruct st; try (intros [= <-]; eexists; constructor). apply doc_str_denotes; auto.
Qed.
Lemma variant_map_denotes t c m : (forall x, t = Some x -> good x) -> (forall x, c = Some x -> good x) ->
  variant_map t c = Some m -> good m.
Proof.
  intros Ht Hc. unfold variant_map. destruct t as [t|], c as [c|]; try discriminate. intros [= <-].
  destruct (Ht _ eq_refl), (Hc _ eq_refl). eexists. constructor. constructor; eauto. constructor.
Qed.
Lemma denotes_list_all l : Forall (fun m => good m) l -> exists ws, denotes_list l (inl ws).
Proof. induction 1 as [|m l [w H] _ [ws IH]]; eexists; constructor; eauto. Qed.
Lemma denotes_pairs_all l : Forall (fun e : mpv * mpv => good (fst e) /\ good (snd e)) l -> exists ws, denotes_pairs l (inl ws).
Proof. induction 1 as [|[k m] l [[u Hk] [w H]] _ [ws IH]]; eexists; constructor; eauto. Qed.
Lemma doc_array_denotes n ms m : (forall l, ms = Some l -> Forall (fun m => good m) l) -> doc_array n ms = Some m -> good m.
Proof.
  unfold doc_array. destruct ms as [l|]; [|discriminate]. intros H. destruct (_ && _); [|discriminate]. intros [= <-].
  destruct (denotes_list_all l (H _ eq_refl)) as [ws D]. eexists. constructor. eauto.
Qed.
Lemma doc_map_denotes n ms m : (forall l, ms = Some l -> Forall (fun e => good (fst e) /\ good (snd e)) l) ->
  doc_map n ms = Some m -> good m.
Proof.
  unfold doc_map. destruct ms as [l|]; [|discriminate]. intros H. destruct (_ && _); [|discriminate]. intros [= <-].
  destruct (denotes_pairs_all l (H _ eq_refl)) as [ws D]. eexists. constructor. eauto.
Qed.
Lemma omap_all {A B} (f : A -> option B) (P : A -> Prop) (Q : B -> Prop) l :
  (forall a b, P a -> f a = Some b -> Q b) -> Forall P l -> forall r, omap f l = Some r -> Forall Q r.
Proof.
  intros H. induction 1 as [|a l Ha _ IH]; intros r E; cbn in E.
  - injection E as <-. constructor.
  - destruct (f a) as [b|] eqn:F; [|discriminate]. fold (omap f l) in E. destruct (omap f l) as [bs|]; [|discriminate].
    injection E as <-. constructor; eauto.
Qed.
Lemma pair_up_all (l : list (bool * mpv)) : Forall (fun o => good (snd o)) l ->
  forall r, pair_up l = Some r -> Forall (fun e => good (fst e) /\ good (snd e)) r.
Proof.
  intros H. remember (length l) as n eqn:Hn. revert l H Hn. induction n as [n IH] using lt_wf_ind. intros l H Hn r.
  destruct l as [|[b k] l]; cbn [pair_up].
  - intros [= <-]. constructor.
  - destruct b; [|discriminate]. destruct l as [|[b v] l]; [discriminate|]. destruct b; [discriminate|].
    destruct (pair_up l) as [r'|] eqn:E; [|discriminate]. intros [= <-].
    inversion H as [|? ? H1 H2]; subst. inversion H2 as [|? ? H3 H4]; subst. constructor; [auto|].
    apply (IH (length l)) with l; auto. cbn. lia.
Qed.
Lemma doc_struct_denotes n fs m :
  (forall l, fs = Some l -> Forall (fun f => valid_utf8 (fst f) /\ forall x, snd f = Some x -> good x) l) ->
  doc_struct st n fs = Some m -> good m.
Proof.
  unfold doc_struct. destruct fs as [fs|]; [|discriminate]. intros H. specialize (H _ eq_refl). destruct st.
  - apply doc_array_denotes. intros l. revert l. induction H as [|[k [x|]] fs [V Hx] _ IH]; cbn; intros l.
    + intros [= <-]. constructor.
    + destruct (doc_fields_array fs) as [r|]; [|discriminate]. intros [= <-]. constructor; [apply Hx; auto|]. apply IH. auto.
    + destruct (forallb _ _); [|discriminate]. intros [= <-]. constructor.
  - apply doc_map_denotes. intros l [= <-]. generalize 0. induction H as [|[k [x|]] fs [V Hx] _ IH]; cbn; intros i; [constructor| |apply IH].
    constructor; [|apply IH]. cbn. split; [eexists; constructor|]. apply Hx. auto.
  - apply doc_map_denotes. induction H as [|[k [x|]] fs [V Hx] _ IH]; cbn; intros l.
    + intros [= <-]. constructor.
    + destruct (doc_str k) as [s|] eqn:E; [|discriminate]. destruct (doc_fields_name fs) as [r|]; [|discriminate].
      intros [= <-]. constructor; [|apply IH; auto]. split; [eapply doc_str_denotes; eauto|]. apply Hx. auto.
    + apply IH.
Qed.

Lemma fmt_text_valid p : fmt_all valid_utf8 p -> forall t, fmt_text p = Some t -> valid_utf8 t.
Proof.
  induction p as [ok|s p1 IH1 p2 IH2]; cbn; intros H t E.
  - destruct ok; [|discriminate]. injection E as <-. exists []. split; [constructor|reflexivity].
  - destruct H as (V & H1 & _). destruct (fmt_text p1) as [r|] eqn:F; [|discriminate]. injection E as <-.
    apply valid_utf8_app; auto.
Qed.

Lemma all_Forall {A} (P : A -> Prop) l : all_list P l -> Forall P l.
Proof. induction l; cbn; intros H; constructor; tauto. Qed.
Definition fine (v : sval) : Prop := sval_ok v -> forall m, mp_doc st v = Some m -> good m.
Lemma items_denote l : Forall fine l -> all_list sval_ok l -> forall ms, omap (mp_doc st) l = Some ms -> Forall (fun m => good m) ms.
Proof.
  intros H Hok. apply (omap_all _ (fun v => fine v /\ sval_ok v)).
  - intros v m [Hf Hv]. apply Hf. auto.
  - apply all_Forall in Hok. rewrite Forall_forall in *. auto.
Qed.
Lemma fields_denote fs : Forall (fun f => forall v, snd f = Some v -> fine v) fs ->
  all_list (fun f => valid_utf8 (fst f) /\ match snd f with Some x => sval_ok x | None => True end) fs ->
  forall l, omap (fun f => match snd f with
                      | None => Some (fst f, None)
                      | Some x => option_map (fun m => (fst f, Some m)) (mp_doc st x)
                      end) fs = Some l -> Forall (fun f => valid_utf8 (fst f) /\ forall x, snd f = Some x -> good x) l.
Proof.
  intros H Hok. apply (omap_all _ (fun f => (forall v, snd f = Some v -> fine v) /\
     valid_utf8 (fst f) /\ match snd f with Some x => sval_ok x | None => True end)).
  - intros [k [v|]] r (Hf & V & Hv); cbn [fst snd] in *.
    + destruct (mp_doc st v) as [m|] eqn:E; [|discriminate]. intros [= <-]. split; [exact V|]. cbn [snd]. intros x [= <-].
      exact (Hf v eq_refl Hv m E).
    + intros [= <-]. split; [exact V|]. discriminate.
  - apply all_Forall in Hok. rewrite Forall_forall in *. intros f Hf. exact (conj (H f Hf) (Hok f Hf)).
Qed.

Lemma doc_denotes v : fine v.
Proof.
  induction v using sval_ind'; intros Hok m Hd; cbn [mp_doc] in Hd; cbn [sval_ok] in Hok; try discriminate;
    try (injection Hd as <-; eexists; constructor; fail).
  - injection Hd as <-. eexists. constructor. apply valid_utf8_char. auto.
  - eapply doc_str_denotes; eauto.
  - destruct (lt32 _); [|discriminate]. injection Hd as <-. eexists. constructor.
  - eauto.
  - eapply doc_variant_denotes; [|exact Hd]. tauto.
  - eauto.
  - eapply variant_map_denotes; [| |exact Hd]; [intros x; apply doc_variant_denotes; tauto|]. intros x. apply IHv. tauto.
  - destruct l as [n|]; [|discriminate]. eapply doc_array_denotes; [|exact Hd]. apply items_denote; tauto.
  - eapply doc_array_denotes; [|exact Hd]. apply items_denote; tauto.
  - eapply doc_array_denotes; [|exact Hd]. apply items_denote; tauto.
  - eapply variant_map_denotes; [| |exact Hd]; [intros x; apply doc_variant_denotes; tauto|].
    intros x. apply doc_array_denotes. apply items_denote; tauto.
  - destruct l as [n|]; [|discriminate].
    destruct (omap _ ops) as [r|] eqn:E; [|discriminate]. eapply doc_map_denotes; [|exact Hd]. apply pair_up_all.
    destruct Hok as (_ & _ & Hok). apply all_Forall in Hok.
    refine (omap_all _ (fun o => fine (snd o) /\ sval_ok (snd o)) _ ops _ _ r E).
    + intros [b v] [b' m'] [Hf Hv]. cbn [fst snd] in *. destruct (mp_doc st v) as [x|] eqn:Ex; [|discriminate].
      intros [= <- <-]. exact (Hf Hv _ Ex).
    + rewrite Forall_forall in *. auto.
  - eapply doc_struct_denotes; [|exact Hd]. apply fields_denote; tauto.
  - eapply variant_map_denotes; [| |exact Hd]; [intros x; apply doc_variant_denotes; tauto|].
    intros x. apply doc_struct_denotes. apply fields_denote; tauto.
  - destruct (fmt_text a) as [t|] eqn:E; [|discriminate]. eapply doc_str_denotes; [|exact Hd].
    eapply fmt_text_valid; [|exact E]. destruct Hok as (_ & _ & _ & V & _). exact V.
Qed.
End Doc.

Theorem mp_read_back ar fo cfg fl v out tail :
  arch32up ar -> sval_ok v -> 2 ^ 32 - 1 <= cfg_usize_max cfg -> mp_to_vec cfg fl v = Ok out -> slice_of ar (out ++ tail) ->
  exists m w, mp_doc (style_of fl) v = Some m /\ denotes m (inl w) /\
    exists N, forall fuel, (N <= fuel)%nat ->
      exists s, mp_from_slice ar fo fuel (any DeserializeError) (out ++ tail) = Done s (Ok (w, zlen out)).
Proof.
  intros A Hok Hc E S. destruct (to_vec_ok_documented cfg fl v out Hok Hc E) as (m & D & F).
  destruct (doc_denotes (style_of fl) v Hok m D) as [w W]. exists m, w. split; [exact D|]. split; [exact W|].
  exact (proj1 (any_total ar fo A m out tail F S) w W).
Qed.

(** What the types take from a buffer is what the specification says (C75). *)
From Verif Require Import Prelude PreludeFacts Utf8Spec Utf8 Utf8Facts SerdeSer SerdeDe FloatOps MpSpec Types TypesFacts MpTypeSpec MpTyped JsonTypeSpec EvolveFacts MpSound MpTypedSer
  Content ContentFacts BufferSpec.

Lemma all_list_forall {A} (P : A -> Prop) l : all_list P l <-> Forall P l.
Proof. induction l as [|x l IH]; cbn; [split; auto|]. rewrite IH. split; [intros [? ?]; auto|]. inversion 1; auto. Qed.

Section F.
Context (fo : float_ops).
Local Notation get := (from_content fo).
Local Notation as_ := (buf_as fo).
Definition agree (t : ty) : Prop := wf t -> forall c v, no_number_keys c -> (get t c = Some v <-> as_ t v c).

Lemma list_agree t : agree t -> wf t -> forall cs l, all_list no_number_keys cs -> (content_list (get t) cs = Some l <-> Forall2 (as_ t) l cs).
Proof.
  intros A W. induction cs as [|c cs IH]; intros l N; cbn.
  - split; [intros [= <-]; constructor|inversion 1; reflexivity].
  - destruct N as [N1 N2]. split.
    + destruct (get t c) as [v|] eqn:E; [|discriminate]. destruct (content_list (get t) cs) as [vs|] eqn:F; [|discriminate]. intros [= <-].
      constructor; [apply (A W); auto|apply IH; auto].
    + inversion 1 as [|v ? vs ? H1 H2]; subst. apply (A W) in H1; auto. apply IH in H2; auto. rewrite H1, H2. reflexivity.
Qed.
Lemma bytes_agree : forall cs s, content_list (fun c => match c with UInt z => if in_ikindb U8 z then Some z else None | _ => None end) cs = Some s <-> cs = map UInt s /\ all_bytes s.
Proof.
  assert (B : forall z, in_ikindb U8 z = true <-> is_byte z). { intros z. rewrite PreludeFacts.in_ikindb_spec. unfold in_ikind, is_byte. cbn. lia. }
  induction cs as [|c cs IH]; intros s; cbn.
  - split; [intros [= <-]; split; [reflexivity|constructor]|]. intros [E _]. destruct s; [reflexivity|discriminate].
  - split.
    + destruct c; try discriminate. destruct (in_ikindb U8 z) eqn:E; [|discriminate]. destruct (content_list _ cs) as [vs|] eqn:F; [|discriminate]. intros [= <-].
      destruct (proj1 (IH vs) eq_refl) as [-> H]. split; [reflexivity|]. constructor; auto. apply B, E.
    + intros [E H]. destruct s as [|z s]; [discriminate|]. cbn in E. injection E as -> ->. inversion H; subst. rewrite (proj2 (B z)) by auto.
      rewrite (proj2 (IH s)) by auto. reflexivity.
Qed.
Lemma tuple_agree ts : Forall agree ts -> all_list wf ts -> forall cs l, all_list no_number_keys cs ->
  (content_tuple (map get ts) cs = Some l <-> all3 (fun p v c => p v c) (map as_ ts) l cs).
Proof.
  induction 1 as [|t ts A _ IH]; intros W [|c cs] l N; cbn [map content_tuple].
  - split; [intros [= <-]; exact I|]. destruct l; cbn; tauto.
  - split; [discriminate|]. destruct l; cbn; tauto.
  - split; [discriminate|]. destruct l; cbn; tauto.
  - destruct W as [W1 W2], N as [N1 N2]. split.
    + destruct (get t c) as [v|] eqn:E; [|discriminate]. destruct (content_tuple _ cs) as [vs|] eqn:F; [|discriminate]. intros [= <-].
      cbn. split; [apply (A W1); auto|apply IH; auto].
    + destruct l as [|v l]; cbn; [tauto|]. intros [H1 H2]. apply (A W1) in H1; auto. apply IH in H2; auto. rewrite H1, H2. reflexivity.
Qed.
Lemma seq_agree (fs : list (bytes * fattr * ty)) : Forall (fun f => agree (snd f)) fs -> all_list (fun f => wf (snd f)) fs -> forall cs l, all_list no_number_keys cs ->
  (content_seq (zip pair (map (fun f => get (snd f)) fs) (map (fun f => default_of (attr_of f)) fs)) cs = Some l <->
   (length cs <= length fs)%nat /\ length l = length fs /\
   all3 (fun p v c => p v c) (firstn (length cs) (map (fun f => as_ (snd f)) fs)) (firstn (length cs) l) cs /\
   all2 (fun f v => attr_of f = FDefault v) (skipn (length cs) fs) (skipn (length cs) l)).
Proof.
  induction 1 as [|f fs A _ IH]; intros W cs l N.
  - cbn. destruct cs as [|c cs]; cbn.
    + split; [intros [= <-]; cbn; auto|]. intros (_ & L & _). destruct l; [reflexivity|discriminate].
    + split; [discriminate|]. lia.
  - destruct W as [W1 W2]. destruct cs as [|c cs]; cbn [map zip content_seq].
    + specialize (IH W2 [] ). cbn in IH |- *. destruct (attr_of f) as [|d] eqn:Ea; cbn [default_of].
      * split; [discriminate|]. intros (_ & L & _ & H). destruct l as [|v l]; [discriminate|]. destruct H as [H _]. discriminate.
      * split.
        -- destruct (content_seq _ []) as [vs|] eqn:F in |- *; [|discriminate]. intros [= <-]. apply IH in F; [|exact I]. destruct F as (_ & L & _ & H). cbn. repeat split; auto; lia.
        -- intros (_ & L & _ & H). destruct l as [|v l]; [discriminate|]. destruct H as [[= ->] H]. rewrite (proj2 (IH l I)); [reflexivity|]. cbn in L. repeat split; auto; lia.
    + destruct N as [N1 N2]. specialize (IH W2 cs). replace (match default_of (attr_of f) with Some _ | None => _ end) with
        (match get (snd f) c, content_seq (zip pair (map (fun f => get (snd f)) fs) (map (fun f => default_of (attr_of f)) fs)) cs with Some v, Some vs => Some (v :: vs) | _, _ => None end) by (destruct (default_of (attr_of f)); reflexivity).
      split.
      * destruct (get (snd f) c) as [v|] eqn:E; [|discriminate]. destruct (content_seq _ cs) as [vs|] eqn:F in |- *; [|discriminate]. intros [= <-].
        apply IH in F; auto. destruct F as (L1 & L2 & H1 & H2). cbn. split; [lia|]. split; [lia|]. split; [|exact H2]. split; [apply (A W1); auto|exact H1].
      * intros (L1 & L2 & H1 & H2). destruct l as [|v l]; [discriminate|]. cbn in L1, L2, H1, H2. destruct H1 as [H0 H1]. apply (A W1) in H0; auto. rewrite H0.
        rewrite (proj2 (IH l N2)); [reflexivity|]. repeat split; auto; lia.
Qed.

Lemma ident_called names k i : NoDup names -> (forall z, k <> UInt z) -> content_ident names k = Some (Some i) <-> exists n, nth_error names i = Some n /\ called n k.
Proof.
  intros D N. unfold called. destruct k; cbn; try (split; [discriminate|intros (n & _ & [E|E]); discriminate]).
  - destruct (N z eq_refl).
  - split.
    + intros [= E]. apply find_name_nth in E; auto. exists s. auto.
    + intros (n & E & [[= ->]|F]); [|discriminate]. f_equal. apply find_name_nth; auto.
  - split.
    + intros [= E]. apply find_name_nth in E; auto. exists b. auto.
    + intros (n & E & [F|[= ->]]); [discriminate|]. f_equal. apply find_name_nth; auto.
Qed.
Lemma ident_other names k : NoDup names -> (forall z, k <> UInt z) -> content_ident names k = Some None <-> exists s, called s k /\ ~ In s names.
Proof.
  intros D N. unfold called. destruct k; cbn; try (split; [discriminate|intros (n & [E|E] & _); discriminate]).
  - destruct (N z eq_refl).
  - split.
    + intros [= E]. apply find_name_out in E; auto. exists s. auto.
    + intros (n & [[= ->]|F] & E); [|discriminate]. f_equal. apply find_name_none; auto.
  - split.
    + intros [= E]. apply find_name_out in E; auto. exists b. auto.
    + intros (n & [F|[= ->]] & E); [discriminate|]. f_equal. apply find_name_none; auto.
Qed.
Lemma fields_agree (fs : list (bytes * fattr * ty)) names : Forall (fun f => agree (snd f)) fs -> all_list (fun f => wf (snd f)) fs -> NoDup names -> forall es got got',
  all_list (fun e => (forall z, fst e <> UInt z) /\ no_number_keys (fst e) /\ no_number_keys (snd e)) es ->
  (content_fields names (map (fun f => get (snd f)) fs) got es = Some got' <-> buf_fields names (map (fun f => as_ (snd f)) fs) got es got').
Proof.
  intros A W D. rewrite Forall_forall in A. apply all_list_forall in W. rewrite Forall_forall in W.
  assert (G : forall i p q c v, nth_error (map (fun f : bytes * fattr * ty => get (snd f)) fs) i = Some p -> nth_error (map (fun f : bytes * fattr * ty => as_ (snd f)) fs) i = Some q ->
    no_number_keys c -> (p c = Some v <-> q v c)).
  { intros i p q c v. rewrite !nth_error_map. destruct (nth_error fs i) as [f|] eqn:E; [|discriminate]. cbn. intros [= <-] [= <-] N. apply nth_error_In in E. apply (A f E (W f E)). exact N. }
  assert (X : forall i, (exists p, nth_error (map (fun f : bytes * fattr * ty => get (snd f)) fs) i = Some p) <-> (exists q, nth_error (map (fun f : bytes * fattr * ty => as_ (snd f)) fs) i = Some q)).
  { intros i. rewrite !nth_error_map. destruct (nth_error fs i); cbn; split; intros [? E]; try discriminate; eauto. }
  intros es. induction es as [|[k c] es IH]; intros got got' N; cbn [content_fields].
  - split; [intros [= <-]; constructor|inversion 1; reflexivity].
  - destruct N as [(Nk & _ & Nc) N]. cbn [fst snd] in Nk, Nc. split.
    + destruct (content_ident names k) as [[i|]|] eqn:Ei; [| |discriminate].
      * destruct (nth_error (map _ fs) i) as [p|] eqn:Ep; [|discriminate]. destruct (nth_error got i) as [[?|]|] eqn:Eg; try discriminate.
        destruct (p c) as [v|] eqn:Ev; [|discriminate]. intros H. apply IH in H; auto. apply ident_called in Ei; auto. destruct Ei as (n & En & C).
        destruct (proj1 (X i) (ex_intro _ p Ep)) as [q Eq]. eapply BF_field; eauto. eapply (G i p q); eauto.
      * intros H. apply IH in H; auto. apply ident_other in Ei; auto. destruct Ei as (s & C & O). eapply BF_other; eauto.
    + inversion 1 as [|? i n q v ? ? ? ? Hg Hq Hn C Hv H'|? s ? ? ? ? C O H']; subst.
      * rewrite (proj2 (ident_called names k i D Nk)) by eauto. destruct (proj2 (X i) (ex_intro _ q Hq)) as [p Ep]. rewrite Ep, Hg.
        rewrite (proj2 (G i p q c v Ep Hq Nc) Hv). apply IH; auto.
      * rewrite (proj2 (ident_other names k D Nk)) by eauto. apply IH; auto.
Qed.
Lemma fields_length names ps : forall es got got', buf_fields names ps got es got' -> length got' = length got.
Proof. induction 1; auto. rewrite IHbuf_fields. apply set_nth_length. Qed.

Theorem content_agree t : agree t.
Proof.
  induction t as [ |k| | | | | | | |t IH|t IH|t IH|ts IH|ts IH|kt vt IHk IHv|fs IH|vs IH] using ty_ind'; intros W c v N.
  11:{ cbn [from_content buf_as]. destruct v; apply (IH W c _ N). }
  - cbn. destruct c; split; try discriminate; try (intros [= <-]; reflexivity); destruct v; try contradiction; congruence.
  - cbn. destruct c; split; try discriminate; try (destruct v; try contradiction; intros [? _]; discriminate).
    + destruct (in_ikindb k z) eqn:E; [|discriminate]. intros [= <-]. split; auto. apply PreludeFacts.in_ikindb_spec, E.
    + destruct v; try contradiction. intros [[= ->] H]. rewrite (proj2 (PreludeFacts.in_ikindb_spec k z0) H). reflexivity.
  - cbn. destruct c; split; try discriminate; try (intros [= <-]; cbn; eauto; fail); destruct v; try contradiction; intros [E|[(y & E & F)|(y & E & F)]]; congruence.
  - cbn. destruct c; split; try discriminate; try (intros [= <-]; cbn; eauto; fail); destruct v; try contradiction; intros [E|[(y & E & F)|(y & E & F)]]; congruence.
  - cbn. destruct c; split; try discriminate; try (destruct v; try contradiction; intros [_ ?]; discriminate).
    + destruct (char_from_str s) as [x|] eqn:E; [|discriminate]. intros [= <-]. apply char_from_str_spec in E. destruct E as [E ->]. auto.
    + destruct v; try contradiction. intros [H [= ->]]. rewrite (proj2 (char_from_str_spec _ c)) by auto. reflexivity.
  - cbn. destruct c; split; try discriminate; try (destruct v; try contradiction; intros [?|[? _]]; discriminate).
    + intros [= <-]. auto.
    + destruct v; try contradiction. intros [E|[E _]]; congruence.
    + destruct (from_utf8_ok b) eqn:E; [|discriminate]. intros [= <-]. right. split; auto. apply from_utf8_ok_spec, E.
    + destruct v; try contradiction. intros [E|[[= ->] E]]; [discriminate|]. rewrite (proj2 (from_utf8_ok_spec _) E). reflexivity.
  - cbn [from_content buf_as]. destruct c; split; try discriminate; try (destruct v; try contradiction; intros [?|[?|[? _]]]; discriminate).
    + intros [= <-]. auto.
    + destruct v; try contradiction. intros [E|[E|[E _]]]; congruence.
    + intros [= <-]. auto.
    + destruct v; try contradiction. intros [E|[E|[E _]]]; congruence.
    + destruct (content_list _ l) as [s|] eqn:E; [|discriminate]. intros [= <-]. apply bytes_agree in E. destruct E as [-> E]. auto.
    + destruct v; try contradiction. intros [E|[E|[[= E] H]]]; try discriminate. rewrite (proj2 (bytes_agree l b)) by auto. reflexivity.
  - cbn. destruct c; split; try discriminate; try (intros [= <-]; reflexivity); destruct v; try contradiction; congruence.
  - cbn. destruct c; split; try discriminate; try (intros [= <-]; reflexivity); destruct v; try contradiction; congruence.
  - assert (G : c <> UUnit -> c <> UNone -> (option_map USome (get t c) = Some v <-> as_ (TOption t) v c)).
    { intros N1 N2. split.
      - destruct (get t c) as [u|] eqn:E; [|discriminate]. intros [= <-]. cbn. repeat split; auto. apply (IH W); auto.
      - cbn. destruct v; try contradiction; [intros [?|?]; contradiction|]. intros (_ & _ & H). apply (IH W) in H; auto. rewrite H. reflexivity. }
    destruct c; try (apply G; discriminate); cbn; (split; [intros [= <-]; auto|]); destruct v; try contradiction; auto; intros (? & ? & _); congruence.
  - cbn [from_content buf_as]. destruct c; try (split; [discriminate|]; destruct v; try contradiction; intros (? & ? & _); discriminate). split.
    + destruct (content_list _ l) as [s|] eqn:E; [|discriminate]. intros [= <-]. exists l. split; auto. apply list_agree; auto.
    + destruct v; try contradiction. intros (cs & [= <-] & H). apply list_agree in H; auto. rewrite H. reflexivity.
  - cbn [from_content buf_as]. destruct c; try (split; [discriminate|]; destruct v; try contradiction; intros (? & ? & _); discriminate). destruct W as [W _]. split.
    + destruct (content_tuple _ l) as [s|] eqn:E; [|discriminate]. intros [= <-]. exists l. split; auto. apply tuple_agree; auto.
    + destruct v; try contradiction. intros (cs & [= <-] & H). apply tuple_agree in H; auto. rewrite H. reflexivity.
  - cbn [from_content buf_as]. destruct c; try (split; [discriminate|]; destruct v; try contradiction; intros (? & ? & _); discriminate). destruct W as [W _]. split.
    + destruct (content_tuple _ l) as [s|] eqn:E; [|discriminate]. intros [= <-]. exists l. split; auto. apply tuple_agree; auto.
    + destruct v; try contradiction. intros (cs & [= <-] & H). apply tuple_agree in H; auto. rewrite H. reflexivity.
  - cbn [from_content buf_as]. destruct c; try (split; [discriminate|]; destruct v; try contradiction; intros (? & ? & _); discriminate). destruct W as [Wk Wv].
    match goal with |- option_map UMap (?go l) = _ <-> _ => assert (G : forall cs l, all_list (fun e => (forall z, fst e <> UInt z) /\ no_number_keys (fst e) /\ no_number_keys (snd e)) cs ->
      (go cs = Some l <-> Forall2 (fun e m => as_ kt (fst e) (fst m) /\ as_ vt (snd e) (snd m)) l cs)); [|set (gg := go) in *] end.
    { clear N l. induction cs as [|[x y] cs I]; intros l N; cbn.
      - split; [intros [= <-]; constructor|inversion 1; reflexivity].
      - destruct N as [(_ & N1 & N2) N]. cbn [fst snd] in N1, N2. split.
        + destruct (get kt x) as [a|] eqn:E; [|discriminate]. destruct (get vt y) as [b|] eqn:F; [|discriminate].
          match goal with |- match ?q with _ => _ end = _ -> _ => destruct q as [r|] eqn:Q; [|discriminate] end. intros [= <-]. constructor; [|apply I; auto]. cbn. split; [apply (IHk Wk)|apply (IHv Wv)]; auto.
        + inversion 1 as [|[a b] ? r ? [H1 H2] H3]; subst. cbn in H1, H2. apply (IHk Wk) in H1; auto. apply (IHv Wv) in H2; auto. apply I in H3; auto. rewrite H1, H2, H3. reflexivity. }
    split.
    + destruct (gg l) as [s|] eqn:E; [|discriminate]. intros [= <-]. exists l. split; auto. apply G; auto.
    + destruct v; try contradiction. intros (cs & [= <-] & H). apply G in H; auto. rewrite H. reflexivity.
  - destruct W as [(D & _) W]. assert (W' : all_list (fun f : bytes * fattr * ty => wf (snd f)) fs).
    { apply all_list_forall. apply all_list_forall in W. eapply Forall_impl; [|exact W]. cbn. tauto. }
    cbn [from_content buf_as]. destruct c; cbn [content_struct]; try (split; [discriminate|]; destruct v; try contradiction; intros [(? & ? & _)|(? & ? & ? & _)]; discriminate).
    + split.
      * destruct (content_seq _ l) as [s|] eqn:E; [|discriminate]. intros [= <-]. left. exists l. split; auto. apply seq_agree; auto.
      * destruct v; try contradiction. intros [(cs & [= <-] & H)|(? & ? & ? & _)]; [|discriminate]. apply seq_agree in H; auto. rewrite H. reflexivity.
    + split.
      * destruct (content_fields _ _ _ l) as [got|] eqn:E; [|discriminate]. apply fields_agree in E; auto. destruct (finish got _) as [u|] eqn:F; [|discriminate]. intros [= <-].
        right. exists l, got. split; auto. split; auto. apply finish_sound; auto. rewrite (fields_length _ _ _ _ _ E). apply map_length.
      * destruct v; try contradiction. intros [(? & ? & _)|(es & got & [= <-] & H & F)]; [discriminate|]. apply fields_agree in H; auto. rewrite H, (finish_all _ _ _ F). reflexivity.
  - destruct W as [(D & _) W]. apply all_list_forall in W. rewrite Forall_forall in W, IH.
    assert (X : forall i, match nth_error (map (fun f : bytes * vkind * ty => get (snd f)) vs) i with
       | Some p => exists q, nth_error (map (fun f : bytes * vkind * ty => as_ (snd f)) vs) i = Some q /\ forall c v, no_number_keys c -> (p c = Some v <-> q v c)
       | None => nth_error (map (fun f : bytes * vkind * ty => as_ (snd f)) vs) i = None end).
    { intros i. rewrite !nth_error_map. destruct (nth_error vs i) as [f|] eqn:E; cbn; auto. eexists. split; [reflexivity|]. intros x u Nx. apply nth_error_In in E. apply (IH f E); auto. apply (W f E). }
    cbn [from_content buf_as]. destruct c; try (split; [discriminate|]; destruct v; try contradiction; intros [(? & _ & _ & _ & ?)|(? & ? & ? & ? & _ & _ & ? & _)]; discriminate).
    + split.
      * destruct (find_name s _ 0) as [i|] eqn:E; [|discriminate]. apply find_name_nth in E; auto. rewrite nth_error_map in E |- *. destruct (nth_error vs i) as [f|] eqn:Ef; [|discriminate]. cbn in E |- *.
        destruct (attr_of f) eqn:Ea; try discriminate. intros [= <-]. left. exists f. repeat split; auto. congruence.
      * destruct v; try contradiction. intros [(f & Ef & Ea & -> & [= ->])|(? & ? & ? & ? & _ & _ & ? & _)]; [|discriminate].
        rewrite (proj2 (find_name_nth (map name_of vs) (name_of f) i D)) by (rewrite nth_error_map, Ef; reflexivity). rewrite nth_error_map, Ef. cbn. rewrite Ea. reflexivity.
    + destruct l as [|[k x] [|? ?]]; try (split; [discriminate|]; destruct v; try contradiction; intros [(? & _ & _ & _ & ?)|(? & ? & ? & ? & _ & _ & ? & _)]; discriminate).
      destruct N as [(Nk & _ & Nx) _]. cbn [fst snd] in Nk, Nx. split.
      * destruct (content_ident _ k) as [[i|]|] eqn:E; try discriminate. apply ident_called in E; auto. destruct E as (n & En & C). specialize (X i).
        destruct (nth_error (map _ vs) i) as [p|] eqn:Ep in X |- *; [|discriminate]. destruct X as (q & Eq & G). destruct (p x) as [u|] eqn:Eu; [|discriminate]. intros [= <-].
        right. exists q, n, k, x. repeat split; auto. apply G; auto.
      * destruct v; try contradiction. intros [(? & _ & _ & _ & ?)|(q & n & k' & x' & Eq & En & [= <- <-] & C & H)]; [discriminate|].
        rewrite (proj2 (ident_called (map name_of vs) k i D Nk)) by eauto. specialize (X i). destruct (nth_error (map (fun f => get (snd f)) vs) i) as [p|]; [|congruence].
        destruct X as (q' & Eq' & G). assert (q' = q) by congruence. subst q'. apply G in H; auto. rewrite H. reflexivity.
Qed.

(** ** Untagged enums *)
Lemma variant_agree f c v : kind_ok (fst f) (snd f) -> wf (snd f) -> no_number_keys c -> (untagged_variant fo f c = Some v <-> variant_as fo f v c).
Proof.
  destruct f as [k t]. intros K W N. unfold untagged_variant, variant_as. cbn [fst snd] in *. destruct k.
  - destruct c; split; try discriminate; try (intros [= <-]; auto; fail); intros [-> [E|E]]; try discriminate; reflexivity.
  - apply content_agree; auto.
  - apply content_agree; auto.
  - destruct c; try (split; [discriminate|]; intros [[? ?] _]; discriminate). rewrite (content_agree t W _ v N). split; [intros H; split; eauto|intros [_ H]; exact H].
Qed.
Lemma pick_agree vs c : Forall (fun f => kind_ok (fst f) (snd f) /\ wf (snd f)) vs -> no_number_keys c -> forall k,
  (forall i v, first_variant fo vs i v c -> untagged_pick fo vs k c = Some (UVar (k + i) v)) /\
  (no_variant fo vs c -> untagged_pick fo vs k c = None).
Proof.
  intros H N. induction H as [|f vs [K W] _ IH]; intros k; split.
  - intros i v (f & E & _). destruct i; discriminate.
  - reflexivity.
  - intros i v (g & E & V & F). cbn [untagged_pick]. destruct i as [|i].
    + injection E as ->. apply variant_agree in V; auto. rewrite V, Nat.add_0_r. reflexivity.
    + destruct (untagged_variant fo f c) as [u|] eqn:U; [apply variant_agree in U; auto; destruct (F 0%nat f u ltac:(lia) eq_refl U)|].
      rewrite (proj1 (IH (S k)) i v); [f_equal; f_equal; lia|]. exists g. split; auto. split; auto. intros j g' u L E'. apply (F (S j)); auto. lia.
  - intros F. cbn [untagged_pick]. destruct (untagged_variant fo f c) as [u|] eqn:U; [apply variant_agree in U; auto; destruct (F f u (or_introl eq_refl) U)|].
    apply IH. intros g u J. apply F. right. exact J.
Qed.
End F.

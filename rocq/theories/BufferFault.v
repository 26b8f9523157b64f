(** Enums read through a buffer from inputs with a fault, and what becomes of any input
    at all (C75). *)
From Verif Require Import Prelude PreludeFacts SerdeSer SerdeDe FloatOps MpSpec MpDe MpDeView MpDeEat MpDeTop MpAnySound Types MpTypeSpec
  Base64Spec JsonSpec JsonTypeSpec JsonAnySpec JsonDe Content MpContent JsonContent BufferSpec BufferFacts BufferTop.
From Verif Require MpAnyFaultSpec MpAnyFault JsonAnyFaultSpec JsonAnyFault.

Lemma pick_decides fo vs c : Forall (fun f => kind_ok (fst f) (snd f) /\ wf (snd f)) vs -> no_number_keys c -> forall k,
  match untagged_pick fo vs k c with
  | Some u => exists i v, u = UVar (k + i) v /\ first_variant fo vs i v c
  | None => no_variant fo vs c
  end.
Proof.
  intros H N. induction H as [|f vs [K W] _ IH]; intros k; cbn [untagged_pick]; [intros f v []|].
  destruct (untagged_variant fo f c) as [u|] eqn:U.
  - exists 0%nat, u. split; [rewrite Nat.add_0_r; reflexivity|]. exists f. split; [reflexivity|]. split; [apply variant_agree; auto|]. intros; lia.
  - specialize (IH (S k)). destruct (untagged_pick fo vs (S k) c) as [u|].
    + destruct IH as (i & v & -> & g & E & V & F). exists (S i), v. split; [f_equal; lia|]. exists g. split; [exact E|]. split; [exact V|].
      intros [|j] g' u L E' V'; [injection E' as <-; apply variant_agree in V'; auto; congruence|]. apply (F j g' u); auto. lia.
    + intros g u [<-|J] V; [apply variant_agree in V; auto; congruence|]. exact (IH g u J V).
Qed.

(** ** MessagePack *)
Lemma mp_buffered_err ar fo fuel f input s e : arch32up ar -> slice_of ar input ->
  mp_from_slice ar fo fuel (any DeserializeError) input = Done s (Err e) ->
  mp_from_slice ar fo fuel (buffered DeserializeError f) input = Done s (Err e).
Proof.
  intros A32 Hs. assert (Hr : ready ar (de_from_slice input)) by (apply init_ready; auto).
  assert (Hb : all_bytes (rest (de_from_slice input))) by apply Hs.
  unfold mp_from_slice, dbind. unfold buffered. rewrite mp_then. destruct (r_de _ _ _) as [s' [w'|e']| |] eqn:E1; try discriminate; auto.
  intros E. exfalso. destruct (proj1 (any_sound ar fo fuel) _ _ _ Hr Hb E1) as (bs & A1 & _).
  pose proof (ate_ready _ _ _ _ A1) as R1. unfold de_end in E. pose proof (rest_length _ _ R1) as L1.
  destruct (d_index s' <=? zlen (sl_data (d_input s'))) eqn:E2; [|pose proof (zlen_nonneg (rest s')); lia].
  match type of E with (if ?b then _ else _) _ = _ => destruct b end; discriminate.
Qed.
Theorem mp_buffered_fault ar fo f bs e tail : arch32up ar -> MpAnyFaultSpec.any_fault bs e -> slice_of ar (bs ++ tail) ->
  exists N, forall fuel, (N <= fuel)%nat -> exists s, mp_from_slice ar fo fuel (buffered DeserializeError f) (bs ++ tail) = Done s (Err e).
Proof.
  intros A F S. destruct (MpAnyFault.any_fault_named ar fo A bs e tail F S) as [N HN]. exists N. intros fuel L. destruct (HN fuel L) as [s E].
  exists s. apply mp_buffered_err; auto.
Qed.
Theorem mp_faults_pass ar fo vs tag tvs bs e tail : arch32up ar -> MpAnyFaultSpec.any_fault bs e -> slice_of ar (bs ++ tail) ->
  exists N, forall fuel, (N <= fuel)%nat ->
    (exists s, mp_from_slice ar fo fuel (untagged fo DeserializeError vs) (bs ++ tail) = Done s (Err e)) /\
    (exists s, mp_from_slice ar fo fuel (tagged fo DeserializeError tag tvs) (bs ++ tail) = Done s (Err e)).
Proof.
  intros A F S. destruct (mp_buffered_fault ar fo (untagged_pick fo vs 0) bs e tail A F S) as [N1 H1].
  destruct (mp_buffered_fault ar fo (tagged_pick fo tag tvs) bs e tail A F S) as [N2 H2]. exists (N1 + N2)%nat. intros fuel L.
  split; [apply H1|apply H2]; lia.
Qed.
Theorem mp_untagged_outcome ar fo vs input fuel : arch64 ar -> Forall (fun f => kind_ok (fst f) (snd f) /\ wf (snd f)) vs ->
  slice64 input -> (6 + 3 * length input <= fuel)%nat ->
  exists s r, mp_from_slice ar fo fuel (untagged fo DeserializeError vs) input = Done s r /\
  match r with
  | Ok (u, n) => exists m bs tail c, input = bs ++ tail /\ zlen bs = n /\ mp_fmt m bs /\ denotes m (inl c) /\
      (no_number_keys c -> exists i v, u = UVar i v /\ first_variant fo vs i v c)
  | Err e =>
    (exists bs tail, input = bs ++ tail /\ MpAnyFaultSpec.any_fault bs e) \/
    (e = UnexpectedEof /\ forall bs tail, input = bs ++ tail ->
      (forall m v, mp_fmt m bs -> ~ denotes m (inl v)) /\ (forall e, ~ MpAnyFaultSpec.any_fault bs e)) \/
    (e = DeserializeError /\ exists m bs tail c, input = bs ++ tail /\ mp_fmt m bs /\ denotes m (inl c) /\
      (no_number_keys c -> no_variant fo vs c))
  end.
Proof.
  intros A W S L. destruct (MpAnyFault.any_decided ar fo A input fuel S L) as (s & r & E & H).
  destruct r as [[c n]|e].
  - pose proof (mp_from_buffered ar fo fuel (untagged_pick fo vs 0) _ _ _ _ E) as B. destruct H as (m & bs & tail & -> & <- & F & D).
    pose proof (fun N => pick_decides fo vs c W N 0) as P. exists s. eexists. split; [exact B|].
    destruct (untagged_pick fo vs 0 c) as [u|].
    + exists m, bs, tail, c. auto.
    + right; right. split; [reflexivity|]. exists m, bs, tail, c. auto.
  - pose proof (mp_buffered_err ar fo fuel (untagged_pick fo vs 0) _ _ _ (arch64_up ar A) (slice64_of ar _ A S) E) as B. exists s. eexists. split; [exact B|].
    destruct e; auto.
Qed.

(** ** JSON *)
Section Js.
Context (ar : arch) (fl : float_parser) (fo : float_ops) (any_f32 : bool) (dec : byte_decoder).
Local Notation float_of := (if any_f32 then f32_from_str fl else f64_from_str fl).
Lemma js_buffered_err fuel f input s e : js_from_mut_slice ar fl any_f32 dec fuel (any JDeserializeError) input = Done s (Err e) ->
  exists s' e', js_from_mut_slice ar fl any_f32 dec fuel (buffered JDeserializeError f) input = Done s' (Err e') /\
    (e' = e \/ (e = JTrailingCharacters /\ e' = JDeserializeError)).
Proof.
  unfold js_from_mut_slice, dbind. unfold buffered. rewrite js_then. destruct (jr_de _ _ _ _) as [s' [w'|e']| |]; try discriminate; [|intros [= -> ->]; eauto].
  intros E. destruct (f w') eqn:Ef.
  - destruct (j_end s') as [s2 [tl|e2]| |]; try discriminate. injection E as -> ->. eauto.
  - exists s', JDeserializeError. split; [reflexivity|]. unfold j_end in E. destruct (eat_whitespace s') as [s2 [?|e2]| |]; try discriminate. injection E as -> <-. auto.
Qed.
Theorem js_buffered_fault f input e : all_bytes input -> (dec = Base64Decoder -> 3 * zlen input <= usize_max ar) ->
  JsonAnyFaultSpec.any_document_fault any_f32 float_of input e ->
  exists N, forall fuel, (N <= fuel)%nat -> exists s e', js_from_mut_slice ar fl any_f32 dec fuel (buffered JDeserializeError f) input = Done s (Err e') /\
    (e' = e \/ (e = JTrailingCharacters /\ e' = JDeserializeError)).
Proof.
  intros B R F. destruct (JsonAnyFault.any_named ar fl any_f32 dec input e B R F) as [N HN]. exists N. intros fuel L. destruct (HN fuel L) as [s E].
  eapply js_buffered_err, E.
Qed.
Theorem js_faults_pass vs tag tvs input e : all_bytes input -> (dec = Base64Decoder -> 3 * zlen input <= usize_max ar) ->
  JsonAnyFaultSpec.any_document_fault any_f32 float_of input e ->
  exists N, forall fuel, (N <= fuel)%nat ->
    (exists s e', js_from_mut_slice ar fl any_f32 dec fuel (untagged fo JDeserializeError vs) input = Done s (Err e') /\
      (e' = e \/ (e = JTrailingCharacters /\ e' = JDeserializeError))) /\
    (exists s e', js_from_mut_slice ar fl any_f32 dec fuel (tagged fo JDeserializeError tag tvs) input = Done s (Err e') /\
      (e' = e \/ (e = JTrailingCharacters /\ e' = JDeserializeError))).
Proof.
  intros B R F. destruct (js_buffered_fault (untagged_pick fo vs 0) input e B R F) as [N1 H1].
  destruct (js_buffered_fault (tagged_pick fo tag tvs) input e B R F) as [N2 H2]. exists (N1 + N2)%nat. intros fuel L.
  split; [apply H1|apply H2]; lia.
Qed.
Theorem js_untagged_outcome vs input fuel : Forall (fun f => kind_ok (fst f) (snd f) /\ wf (snd f)) vs ->
  all_bytes input -> (dec = Base64Decoder -> 3 * zlen input <= usize_max ar) -> (6 + 3 * length input <= fuel)%nat ->
  exists s r, js_from_mut_slice ar fl any_f32 dec fuel (untagged fo JDeserializeError vs) input = Done s r /\
  match r with
  | Ok u => exists i v c d w1 text w2, u = UVar i v /\ first_variant fo vs i v c /\
      input = w1 ++ text ++ w2 /\ any_ws w1 /\ any_ws w2 /\ loose_text d text /\ any_as any_f32 float_of c d
  | Err e =>
    JsonAnyFaultSpec.any_document_fault any_f32 float_of input e \/
    (e = JDeserializeError /\
      (JsonAnyFaultSpec.any_document_fault any_f32 float_of input JTrailingCharacters \/
       exists c d w1 text w2, no_variant fo vs c /\
         input = w1 ++ text ++ w2 /\ any_ws w1 /\ any_ws w2 /\ loose_text d text /\ any_as any_f32 float_of c d))
  end.
Proof.
  intros W B R L. destruct (JsonAnyFault.any_decided ar fl any_f32 dec input fuel B R L) as (s & [c|e] & E & H).
  - destruct (js_from_buffered ar fl any_f32 dec fuel (untagged_pick fo vs 0) _ _ _ E) as [s' E']. exists s'. eexists. split; [exact E'|].
    destruct H as (d & w1 & text & w2 & H). pose proof (pick_decides fo vs c W (any_no_numbers _ _ _ _ (proj2 (proj2 (proj2 (proj2 H))))) 0) as P.
    destruct (untagged_pick fo vs 0 c) as [u|].
    + destruct P as (i & v & -> & P). exists i, v, c, d, w1, text, w2. auto.
    + right. split; [reflexivity|]. right. exists c, d, w1, text, w2. auto.
  - destruct (js_buffered_err fuel (untagged_pick fo vs 0) _ _ _ E) as (s' & e' & E' & D). exists s'. eexists. split; [exact E'|].
    destruct D as [->|[-> ->]]; auto.
Qed.
End Js.

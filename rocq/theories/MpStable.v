(** What MessagePack decoding returns is a value of the type that is written and read
    back as it is (C67). *)
From Verif Require Import Prelude PreludeFacts Utf8Spec Utf8Facts SerdeSer SerdeDe FloatOps MpErrMap MpSpec MpSer MpDe MpDeTop Types TypesFacts MpTypeSpec MpTyped MpTypedSer MpTypedTop MpSound MpDeReads StableSpec StableFacts.

Lemma short_hdr {h n} : arr_hdr n h \/ map_hdr n h \/ str_hdr n h \/ bin_hdr n h -> n < 2 ^ 32.
Proof.
  intros H. repeat destruct H as [H|H]; destruct H; try lia; match goal with X : uint_be _ _ _ |- _ => apply uint_be_range in X; cbn in X; lia end.
Qed.

Section Fields.
Context (fs : list (bytes * fattr * ty)) (p : bytes * fattr * ty -> val -> bytes -> Prop) (Q : bytes * fattr * ty -> val -> Prop).
Context (given : forall f v b, In f fs -> p f v b -> Q f v) (absent : forall f v, In f fs -> absent_ok f v -> Q f v).
Lemma seq_ok : forall gs l b, incl gs fs -> length l = length gs -> seq_enc (zip (fun p v => p v) (map p gs) l) b -> all2 Q gs l.
Proof.
  induction gs as [|f gs IH]; intros [|v l] b Hi Hl H; cbn in *; try discriminate; auto. destruct H as (x & y & -> & Hx & Hy).
  split; [eapply given; [apply Hi; left; auto|exact Hx]|]. eapply IH; [|lia|exact Hy]. intros z Hz. apply Hi. right. auto.
Qed.
Lemma entries_ok names got n b got' : entries names (map p fs) got n b got' -> all2 (held_ok Q) fs got -> all2 (held_ok Q) fs got'.
Proof.
  induction 1 as [|got n i q v k b rest got' Hg Hi Hk Hv _ IH|got n m k b rest got' Hk Hm _ IH]; auto.
  intros Ho. apply IH. rewrite nth_error_map in Hi. destruct (nth_error fs i) as [f|] eqn:Ef; [|discriminate]. injection Hi as <-.
  eapply held_set; [exact Ef| |exact Ho]. eapply given; [eapply nth_error_In, Ef|exact Hv].
Qed.
Lemma struct_ok l bs : struct_enc fs (map p fs) l bs -> all2 Q fs l.
Proof.
  intros [(n & h & b & -> & Hn & Hh & Hl & Hb & Hd)|(n & h & b & got & -> & Hh & He & Hf)].
  - apply (all2_join Q n).
    + rewrite firstn_map in Hb. eapply seq_ok; [| |exact Hb]; [|rewrite !firstn_length; lia].
      intros x Hx. rewrite <- (firstn_skipn n fs). apply in_or_app. auto.
    + apply (defaults_ok fs Q absent); [|exact Hd]. intros x Hx. rewrite <- (firstn_skipn n fs). apply in_or_app. auto.
  - eapply (fields_ok fs Q absent); [apply incl_refl| |exact Hf]. eapply entries_ok; [exact He|]. apply held_none.
Qed.
End Fields.

Section Stable.
Context (fo : float_ops).
Local Notation adm := (adm fo).

Lemma tuple_ok (P : ty -> val -> Prop) ts l b : length l = length ts -> seq_enc (zip (fun p v => p v) (map adm ts) l) b ->
  (forall t v b, In t ts -> adm t v b -> P t v) -> all2 P ts l.
Proof.
  intros Hl H K. revert l b Hl H. induction ts as [|t ts IH]; intros [|v l] b Hl H; cbn in *; try discriminate; auto. destruct H as (x & y & -> & Hx & Hy).
  split; [eapply K; [left; auto|exact Hx]|]. eapply IH; [|lia|exact Hy]. intros; eapply K; [right|]; eauto.
Qed.
Lemma seq_adm (P : val -> Prop) t l : (forall v b, adm t v b -> P v) -> forall b, seq_enc (map (adm t) l) b -> Forall P l.
Proof. intros K. induction l as [|v l IH]; intros b H; constructor; cbn in H; destruct H as (x & y & -> & Hx & Hy); eauto. Qed.
Lemma pairs_adm (P Q : val -> Prop) k v l : (forall x b, adm k x b -> P x) -> (forall x b, adm v x b -> Q x) -> forall b,
  seq_enc (map (fun e b => exists x y, b = x ++ y /\ adm k (fst e) x /\ adm v (snd e) y) l) b -> Forall (fun e => P (fst e) /\ Q (snd e)) l.
Proof.
  intros K1 K2. induction l as [|e l IH]; intros b H; constructor; cbn in H; destruct H as (x & y & -> & (x1 & x2 & -> & H1 & H2) & Hy); eauto.
Qed.

Theorem adm_hastype t : conversions_ok fo -> wf t -> forall v bs, adm t v bs -> hastype t v.
Proof.
  intros C. induction t as [ |k| | | | | | | |t IH|t IH|t IH|ts IH|ts IH|kt vt IHk IHv|fs IH|vs IH] using ty_ind'; intros W v bs H.
  11: exact (IH W v bs H).
  all: destruct v; cbn [Verif.MpTypeSpec.adm] in H; try contradiction; cbn [hastype]; auto.
  - tauto.
  - destruct H as [(h & -> & U)|[(h & y & -> & U & ->)|[(z & _ & ->)|[_ ->]]]]; [apply uint_be_range in U; exact U|apply C|apply C|lia].
  - destruct H as [(h & -> & U)|[(h & y & -> & U & ->)|[(z & _ & ->)|[_ ->]]]]; [apply uint_be_range in U; exact U|apply C|apply C|lia].
  - tauto.
  - destruct H as (V & h & Hh & _). split; auto. unfold short. eapply short_hdr. eauto.
  - destruct H as (V & h & Hh & _). split; auto. unfold short. eapply short_hdr. eauto.
  - destruct H as [H _]. eapply IH; eauto.
  - destruct H as (h & b & -> & Hh & Hb). split; [|unfold short; eapply short_hdr; eauto]. eapply seq_adm; [|exact Hb]. intros; eapply IH; eauto.
  - destruct H as (h & b & -> & Hh & Hl & Hb). rewrite all2_map. eapply tuple_ok; eauto. intros t x y Ht Hx. rewrite Forall_forall in IH. eapply IH; eauto. eapply all_list_In; [apply W|exact Ht].
  - destruct H as (h & b & -> & Hh & Hl & Hb). rewrite all2_map. eapply tuple_ok; eauto. intros t x y Ht Hx. rewrite Forall_forall in IH. eapply IH; eauto. eapply all_list_In; [apply W|exact Ht].
  - destruct H as (h & b & -> & Hh & Hb), W as [W1 W2]. split; [|unfold short; eapply short_hdr; eauto]. eapply pairs_adm; [| |exact Hb]; eauto.
  - rewrite all2_map. destruct W as [_ W]. rewrite Forall_forall in IH. eapply (struct_ok fs (fun f => adm (snd f))); [| |exact H].
    + intros f x b Hf Hx. eapply IH; eauto. apply (all_list_In _ _ W _ Hf).
    + intros f x Hf Hx. pose proof (all_list_In _ _ W _ Hf) as [_ Wd]. unfold absent_ok in Hx. destruct (attr_of f); [|subst; auto].
      destruct Hx as (-> & t & ->). cbn. auto.
  - destruct W as [_ W]. rewrite nth_error_map in *. destruct (nth_error vs i) as [f|] eqn:E; [|contradiction]. cbn [option_map] in *.
    apply nth_error_In in E. rewrite Forall_forall in IH. pose proof (all_list_In _ _ W _ E) as [Wf Wk].
    destruct (attr_of f) eqn:Ea; try (destruct H as (k & b & -> & _ & Hb); eapply IH; eauto).
    destruct H as [-> _]. unfold kind_ok in Wk. destruct (snd f); try contradiction. cbn. auto.
Qed.

Lemma nullish_nil t : forall v bs, adm t v bs -> nullish t v = true -> bs = [0xc0].
Proof.
  induction t using ty_ind'; intros v bs H0 N.
  11: exact (IHt v bs H0 N).
  all: destruct v; cbn in H0, N; try contradiction; try discriminate; auto.
  destruct H0 as [H0 _]. exact (IHt v bs H0 N).
Qed.
Lemma unit_collapse t : collapse nullish t UUnit = UUnit.
Proof. induction t; cbn; auto. Qed.
Theorem adm_collapse t : forall v bs, adm t v bs -> collapse nullish t v = v.
Proof.
  induction t as [ |k| | | | | | | |t IH|t IH|t IH|ts IH|ts IH|kt vt IHk IHv|fs IH|vs IH] using ty_ind'; intros v bs H.
  11: exact (IH v bs H).
  all: destruct v; cbn [Verif.MpTypeSpec.adm] in H; try contradiction; cbn [collapse]; auto.
  - destruct H as [H Hn]. destruct (nullish t v) eqn:N; [elim Hn; eapply nullish_nil; eauto|]. f_equal. eauto.
  - destruct H as (h & b & -> & Hh & Hb). f_equal. rewrite <- (map_id l) at 2. apply map_ext_Forall. eapply (seq_adm (fun v => collapse nullish t v = v)); eauto.
  - destruct H as (h & b & -> & Hh & Hl & Hb). f_equal. rewrite zip_map. apply zip_same. eapply tuple_ok; eauto. intros t x y Ht Hx. rewrite Forall_forall in IH. eapply IH; eauto.
  - destruct H as (h & b & -> & Hh & Hl & Hb). f_equal. rewrite zip_map. apply zip_same. eapply tuple_ok; eauto. intros t x y Ht Hx. rewrite Forall_forall in IH. eapply IH; eauto.
  - destruct H as (h & b & -> & Hh & Hb). f_equal. rewrite <- (map_id l) at 2. apply map_ext_Forall.
    eapply Forall_impl; [|eapply (pairs_adm (fun x => collapse nullish kt x = x) (fun x => collapse nullish vt x = x)); [| |exact Hb]; eauto].
    intros [x y] [H1 H2]. cbn in *. congruence.
  - f_equal. rewrite zip_map. apply zip_same. rewrite Forall_forall in IH. eapply (struct_ok fs (fun f => adm (snd f))); [| |exact H].
    + intros f x b Hf Hx. cbn. destruct (skipped (attr_of f) x); auto. eapply IH; eauto.
    + intros f x Hf Hx. cbn. destruct (skipped (attr_of f) x) eqn:E; auto. unfold absent_ok in Hx. destruct (attr_of f) eqn:Ea.
      * destruct Hx as (-> & t & ->). auto.
      * subst. rewrite <- Ea in E. rewrite skipped_default in E; [discriminate|auto].
  - rewrite nth_error_map in *. destruct (nth_error vs i) as [f|] eqn:E; [|reflexivity]. cbn [option_map] in *.
    apply nth_error_In in E. rewrite Forall_forall in IH. f_equal.
    destruct (attr_of f) eqn:Ea; try (destruct H as (k & b & -> & _ & Hb); eapply IH; eauto).
    destruct H as [-> _]. apply unit_collapse.
Qed.
End Stable.

Theorem mp_decoded_typed ar fo fuel t input s v n : arch64 ar -> conversions_ok fo -> wf t -> slice64 input ->
  mp_from_slice ar fo fuel (denote DeserializeError t) input = Done s (Ok (v, n)) -> hastype t v /\ collapse nullish t v = v.
Proof.
  intros A C W S E. destruct (typed_sound ar fo A _ _ _ _ _ _ W S E) as (bs & tail & -> & <- & H).
  split; [eapply adm_hastype|eapply adm_collapse]; eauto.
Qed.
Theorem mp_stable ar ar' fo fo' cfg fl fuel t input s v n out tail : arch64 ar -> arch32up ar' -> conversions_ok fo -> wf t -> slice64 input ->
  mp_from_slice ar fo fuel (denote DeserializeError t) input = Done s (Ok (v, n)) ->
  mp_to_vec cfg fl (trace t v) = Ok out -> slice_of ar' (out ++ tail) ->
  exists N, forall fuel, (N <= fuel)%nat -> exists s, mp_from_slice ar' fo' fuel (denote DeserializeError t) (out ++ tail) = Done s (Ok (v, zlen out)).
Proof.
  intros A A' C W S E Eo So. destruct (mp_decoded_typed _ _ _ _ _ _ _ _ A C W S E) as [H Hc].
  destruct (typed_round_trip ar' fo' A' cfg fl t v out tail W H Eo So) as [N HN]. rewrite Hc in HN. exists N. exact HN.
Qed.

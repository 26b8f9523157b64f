(** What JSON decoding returns is a value of the type; which of them are written and
    read back as they are (C67). *)
From Verif Require Import Prelude PreludeFacts Utf8Spec Utf8Facts SerdeSer SerdeDe MpSpec Base64Spec Base64Facts JsonSpec JsonTypeSpec JsonFacts JsonStr JsonSer JsonErrMap
  JsonDe Types TypesFacts MpTypeSpec MpTyped MpTypedSer JsonTypedSer JsonCases JsonSize JsonSoundTop StableSpec StableFacts.

(** ** Bytes *)
Lemma hex_all raw s : hex_bytes raw s -> all_bytes s.
Proof. induction 1; constructor; auto. unfold hex_digit, is_byte in *. lia. Qed.
Lemma base64_all raw s : bytes_as_base64 raw s -> all_bytes s.
Proof. intros (ds & n & _ & H & ->). apply b64_bytes_range, H. Qed.
Lemma ints_all s toks : Forall2 (int_lit U8) s toks -> all_bytes s.
Proof. induction 1 as [|z t s l [H _] _ IH]; constructor; auto. unfold in_ikind in H. cbn in H. unfold is_byte. lia. Qed.

(** ** Fields *)
Section Fields.
Context (fs : list (bytes * fattr * ty)) (p : bytes * fattr * ty -> val -> jv -> Prop) (D : jv -> Prop) (Q : bytes * fattr * ty -> val -> Prop).
Context (given : forall f v d, In f fs -> D d -> p f v d -> Q f v) (absent : forall f v, In f fs -> absent_ok f v -> Q f v).
Lemma seq_ok : forall gs l ds, incl gs fs -> Forall D ds -> all3 (fun p v d => p v d) (map p gs) l ds -> all2 Q gs l.
Proof.
  induction gs as [|f gs IH]; intros [|v l] [|d ds] Hi Hd H; cbn in *; try tauto. inversion Hd; subst.
  split; [eapply given; [apply Hi; left; auto| |apply H]; auto|]. eapply IH; [|eauto|apply H]. intros z Hz. apply Hi. right. auto.
Qed.
Lemma members_ok names got ms got' : obj_fields names (map p fs) got ms got' -> Forall (fun m => D (snd m)) ms -> all2 (held_ok Q) fs got -> all2 (held_ok Q) fs got'.
Proof.
  induction 1 as [|got i n q v raw d ms got' Hg Hi Hn Hr Hv _ IH|got raw s d ms got' Hr Hs Hd _ IH]; auto; intros HD Ho; inversion HD; subst; auto.
  apply IH; auto. rewrite nth_error_map in Hi. destruct (nth_error fs i) as [f|] eqn:Ef; [|discriminate]. injection Hi as <-.
  eapply held_set; [exact Ef| |exact Ho]. eapply given; [eapply nth_error_In, Ef| |exact Hv]. auto.
Qed.
Lemma struct_ok l d : (forall ds, d = JArr ds -> Forall D ds) -> (forall ms, d = JObj ms -> Forall (fun m => D (snd m)) ms) -> struct_as fs (map p fs) l d -> all2 Q fs l.
Proof.
  intros HA HO [(ds & -> & Hn & Hl & Hb & Hd)|(ms & got & -> & He & Hf)].
  - apply (all2_join Q (length ds)).
    + rewrite firstn_map in Hb. eapply seq_ok; [|apply HA; reflexivity|exact Hb].
      intros x Hx. rewrite <- (firstn_skipn (length ds) fs). apply in_or_app. auto.
    + apply (defaults_ok fs Q absent); [|exact Hd]. intros x Hx. rewrite <- (firstn_skipn (length ds) fs). apply in_or_app. auto.
  - eapply (fields_ok fs Q absent); [apply incl_refl| |exact Hf]. eapply members_ok; [exact He|apply HO; reflexivity|]. apply held_none.
Qed.
End Fields.

(** ** Small documents *)
Definition fits (d : jv) : Prop := Z.of_nat (least d) < 2 ^ 32.
Lemma fits_items l : fits (JArr l) -> Forall fits l /\ zlen l < 2 ^ 32.
Proof.
  unfold fits. cbn [least]. fold (least_all l). intros H. assert (K : Z.of_nat (least_all l) < 2 ^ 32) by lia. clear H.
  induction l as [|d l IH]; [split; [auto|reflexivity]|]. rewrite least_all_cons in K.
  assert (X : (length l <= least_all l)%nat). { clear. induction l as [|d l IH]; [cbn; lia|]. rewrite least_all_cons. cbn [length]. lia. }
  destruct IH as [I1 I2]; [lia|]. split; [constructor; auto; lia|]. unfold zlen in *. cbn [length]. lia.
Qed.
Lemma fits_members l : fits (JObj l) -> Forall (fun m => Z.of_nat (length (fst m)) < 2 ^ 32 /\ fits (snd m)) l /\ zlen l < 2 ^ 32.
Proof.
  unfold fits. cbn [least]. fold (least_members l). intros H. assert (K : Z.of_nat (least_members l) < 2 ^ 32) by lia. clear H.
  induction l as [|[k d] l IH]; [split; [auto|reflexivity]|]. rewrite least_members_cons in K.
  assert (X : (length l <= least_members l)%nat). { clear. induction l as [|[k d] l IH]; [cbn; lia|]. rewrite least_members_cons. cbn [length]. lia. }
  destruct IH as [I1 I2]; [lia|]. split; [constructor; auto; cbn [fst snd]; lia|]. unfold zlen in *. cbn [length]. lia.
Qed.
Lemma Forall2_len {A B} (P : A -> B -> Prop) l m : Forall2 P l m -> length l = length m. Proof. induction 1; cbn; auto. Qed.

Section Typed.
Context (key_ws : bytes -> Prop) (f32_of f64_of : bytes -> option Z) (bytes_of : bytes -> bytes -> Prop).
Context (bytes_ok : forall raw s, bytes_of raw s -> all_bytes s /\ (length s <= length raw)%nat).
Local Notation reads := (reads_as key_ws f32_of f64_of bytes_of).

Lemma key_hastype t v raw : wf t -> Z.of_nat (length raw) < 2 ^ 32 -> key_as key_ws t v raw -> hastype t v.
Proof.
  intros W L. destruct t, v; cbn [key_as hastype]; try contradiction; auto.
  - intros (w & tok & _ & _ & H & _). exact H.
  - tauto.
  - intros H. split; [apply H|]. apply literal_len in H. unfold short, zlen. lia.
  - intros H. split; [apply valid_utf8_bytes, H|]. apply literal_len in H. unfold short, zlen. lia.
  - intros (-> & n & H & _). rewrite nth_error_map in *. destruct (nth_error vs i) as [f|] eqn:E; [|discriminate]. cbn in *. injection H as _ Ha.
    pose proof (all_list_In _ _ (proj2 W) _ (nth_error_In _ _ E)) as [_ K]. rewrite Ha in K. destruct (snd f); try contradiction. cbn. auto.
Qed.
Lemma tuple_ok (D : jv -> Prop) (P : ty -> val -> Prop) ts l ds : all3 (fun p v d => p v d) (map reads ts) l ds -> Forall D ds ->
  (forall t v d, In t ts -> D d -> reads t v d -> P t v) -> all2 P ts l.
Proof.
  revert l ds. induction ts as [|t ts IH]; intros [|v l] [|d ds] H HD K; cbn in *; try tauto. inversion HD; subst.
  split; [eapply K; [left; auto| |apply H]; auto|]. eapply IH; [apply H|auto|]. intros; eapply K; [right| |]; eauto.
Qed.
Lemma seq_reads (D : jv -> Prop) (P : val -> Prop) t l ds : (forall v d, D d -> reads t v d -> P v) -> Forall D ds -> Forall2 (reads t) l ds -> Forall P l.
Proof. intros K HD. induction 1; inversion HD; subst; constructor; eauto. Qed.

Theorem reads_hastype t : (forall tok b, f32_of tok = Some b -> 0 <= b < 2 ^ 32) -> (forall tok b, f64_of tok = Some b -> 0 <= b < 2 ^ 64) ->
  wf t -> forall v d, fits d -> reads t v d -> hastype t v.
Proof.
  intros R32 R64. induction t as [ |k| | | | | | | |t IH|t IH|t IH|ts IH|ts IH|kt vt IHk IHv|fs IH|vs IH] using ty_ind'; intros W v d F H.
  11: exact (IH W v d F H).
  all: destruct v; cbn [reads_as] in H; try contradiction; cbn [hastype]; auto.
  - destruct H as (tok & _ & H & _). exact H.
  - destruct H as [(tok & _ & H)|[_ ->]]; [eauto|lia].
  - destruct H as [(tok & _ & H)|[_ ->]]; [eauto|lia].
  - destruct H as (raw & _ & _ & H). exact H.
  - destruct H as (raw & -> & H). split; [apply H|]. apply literal_len in H. unfold fits in F. cbn [least] in F. unfold short, zlen. lia.
  - destruct H as [(raw & -> & H)|(toks & -> & H)].
    + apply bytes_ok in H. split; [apply H|]. unfold fits in F. cbn [least] in F. unfold short, zlen. lia.
    + split; [eapply ints_all, H|]. apply fits_items in F. destruct F as [_ F]. unfold short, zlen in *. rewrite (Forall2_len _ _ _ H). rewrite map_length in F. exact F.
  - destruct H as [H _]. eapply IH; eauto.
  - destruct H as (ds & -> & H). apply fits_items in F. destruct F as [F1 F2]. split; [|unfold short, zlen in *; rewrite (Forall2_len _ _ _ H); exact F2].
    eapply (seq_reads fits); [|exact F1|exact H]. eauto.
  - destruct H as (ds & -> & H). apply fits_items in F. rewrite StableFacts.all2_map. eapply (tuple_ok fits); [exact H|apply F|]. intros t x y Ht Fy Hx. rewrite Forall_forall in IH. eapply IH; eauto. eapply all_list_In; [apply W|exact Ht].
  - destruct H as (ds & -> & H). apply fits_items in F. rewrite StableFacts.all2_map. eapply (tuple_ok fits); [exact H|apply F|]. intros t x y Ht Fy Hx. rewrite Forall_forall in IH. eapply IH; eauto. eapply all_list_In; [apply W|exact Ht].
  - destruct H as (ms & -> & H), W as [W1 W2]. apply fits_members in F. destruct F as [F1 F2]. split; [|unfold short, zlen in *; rewrite (Forall2_len _ _ _ H); exact F2].
    clear F2. revert F1. induction H as [|e m l ms [Hk Hv] _ I]; intros F1; inversion F1 as [|? ? [Fa Fb] Fc]; subst; constructor; auto.
    split; [eapply key_hastype; eauto|eapply IHv; eauto].
  - rewrite StableFacts.all2_map. destruct W as [_ W]. rewrite Forall_forall in IH. eapply (struct_ok fs (fun f => reads (snd f)) fits); [| | | |exact H].
    + intros f x b Hf Hx. eapply IH; eauto. apply (all_list_In _ _ W _ Hf).
    + intros f x Hf Hx. pose proof (all_list_In _ _ W _ Hf) as [_ Wd]. unfold absent_ok in Hx. destruct (attr_of f); [|subst; auto].
      destruct Hx as (-> & t & ->). cbn. auto.
    + intros ds ->. apply fits_items in F. apply F.
    + intros ms ->. apply fits_members in F. eapply Forall_impl; [|apply F]. cbn. tauto.
  - destruct W as [_ W]. rewrite nth_error_map in *. destruct (nth_error vs i) as [f|] eqn:E; [|contradiction]. cbn [option_map] in *.
    apply nth_error_In in E. rewrite Forall_forall in IH. pose proof (all_list_In _ _ W _ E) as [Wf Wk].
    destruct (attr_of f) eqn:Ea.
    1: destruct H as [-> _]; unfold kind_ok in Wk; destruct (snd f); try contradiction; cbn; auto.
    all: destruct H as (raw & d' & -> & _ & Hb); apply fits_members in F; destruct F as [F _]; inversion F as [|? ? [_ Fd] _]; subst; eapply IH; eauto.
Qed.

(** ** Values that survive *)
(** Numbers are spelled with the characters of numbers. *)
Fixpoint spelled (d : jv) : Prop :=
  match d with
  | JNum tok => number_run tok
  | JArr l => all_list spelled l
  | JObj l => all_list (fun m => spelled (snd m)) l
  | _ => True
  end.
Lemma spelled_items l : spelled (JArr l) -> Forall spelled l.
Proof. cbn. intros H. apply Forall_forall. intros x Hx. eapply all_list_In; eauto. Qed.
Lemma spelled_members l : spelled (JObj l) -> Forall (fun m => spelled (snd m)) l.
Proof. cbn. intros H. apply Forall_forall. intros x Hx. apply (all_list_In _ _ H x Hx). Qed.
Context (nan32 : forall tok, number_run tok -> f32_of tok <> Some 0x7fc00000) (nan64 : forall tok, number_run tok -> f64_of tok <> Some 0x7ff8000000000000).
Lemma null_null t : forall v d, spelled d -> floats_kept v -> reads t v d -> json_null t v = true -> d = JNull.
Proof.
  induction t using ty_ind'; intros v d S K H0 N.
  11: exact (IHt v d S K H0 N).
  all: destruct v; cbn [reads_as json_null] in H0, N; try contradiction; try discriminate; auto.
  - destruct H0 as [(tok & -> & H0)|[-> _]]; auto. cbn in K. apply Z.eqb_eq in N. destruct K as [[K _]| ->]; [contradiction|]. elim (nan32 tok S H0).
  - destruct H0 as [(tok & -> & H0)|[-> _]]; auto. cbn in K. apply Z.eqb_eq in N. destruct K as [[K _]| ->]; [contradiction|]. elim (nan64 tok S H0).
  - destruct H0 as [H0 Hn]. cbn in K. eapply IHt; eauto.
Qed.
Theorem reads_survives t : forall v d, spelled d -> floats_kept v -> reads t v d -> survives t v.
Proof.
  induction t as [ |k| | | | | | | |t IH|t IH|t IH|ts IH|ts IH|kt vt IHk IHv|fs IH|vs IH] using ty_ind'; intros v d S K H.
  11: exact (IH v d S K H).
  all: destruct v; cbn [reads_as] in H; try contradiction; cbn [survives]; auto; cbn [floats_kept] in K.
  - destruct H as [H Hn]. split; [|eauto]. destruct (json_null t v) eqn:N; auto. elim Hn. eapply null_null; eauto.
  - destruct H as (ds & -> & H). apply spelled_items in S. revert K S. induction H as [|x y l ds Hx _ I]; intros K S; [constructor|]. inversion S; subst. destruct K as [K1 K2].
    constructor; eauto.
  - destruct H as (ds & -> & H). apply spelled_items in S. rewrite StableFacts.all2_map. revert l ds H S K. induction IH as [|t ts It _ I]; intros [|v l] [|y ds] H S K; cbn in *; try tauto.
    inversion S; subst. destruct K as [Ka Kb], H as [Ha Hb]. split; eauto.
  - destruct H as (ds & -> & H). apply spelled_items in S. rewrite StableFacts.all2_map. revert l ds H S K. induction IH as [|t ts It _ I]; intros [|v l] [|y ds] H S K; cbn in *; try tauto.
    inversion S; subst. destruct K as [Ka Kb], H as [Ha Hb]. split; eauto.
  - destruct H as (ms & -> & H). apply spelled_members in S. revert K S. induction H as [|x y l ms [_ Hx] _ I]; intros K S; [constructor|]. inversion S; subst. destruct K as [[_ K1] K2].
    constructor; eauto.
  - rewrite StableFacts.all2_map. rewrite Forall_forall in IH.
    assert (X : all2 (fun f v => floats_kept v -> skipped (attr_of f) v = true \/ survives (snd f) v) fs l).
    { eapply (struct_ok fs (fun f => reads (snd f)) spelled); [| | | |exact H].
      + intros f x b Hf Hb Hx Kx. right. eapply IH; eauto.
      + intros f x Hf Hx _. unfold absent_ok in Hx. destruct (attr_of f) eqn:Ea.
        * destruct Hx as (-> & t & ->). cbn. auto.
        * subst. left. rewrite <- Ea. apply skipped_default. exact Ea.
      + intros ds ->. apply spelled_items, S.
      + intros ms ->. apply spelled_members, S. }
    eapply all2_mono; [|exact X]. intros f x _ Hx Q. apply Q. eapply all_list_In; eauto.
  - rewrite nth_error_map in *. destruct (nth_error vs i) as [f|] eqn:E; [|cbn; auto]. cbn [option_map] in *.
    apply nth_error_In in E. rewrite Forall_forall in IH.
    destruct (attr_of f) eqn:Ea.
    1: destruct H as [-> _]; clear; induction (snd f); cbn; auto.
    all: destruct H as (raw & d' & -> & _ & Hb); cbn in S; eapply IH; [exact E|apply S|exact K|exact Hb].
Qed.
End Typed.

(** ** After one more pass nothing changes *)
Lemma f32_image_range b : 0 <= b < 2 ^ 32 -> 0 <= f32_image b < 2 ^ 32.
Proof. unfold f32_image. intros H. destruct (_ =? 255); [lia|]. destruct (b =? _); lia. Qed.
Lemma f64_image_range b : 0 <= b < 2 ^ 64 -> 0 <= f64_image b < 2 ^ 64.
Proof. unfold f64_image. intros H. destruct (_ =? 2047); [lia|]. destruct (b =? _); lia. Qed.
Lemma f32_image_kept b : kept32 (f32_image b).
Proof.
  unfold f32_image, kept32, finite32. destruct (Z.eqb_spec (b / 2 ^ 23 mod 256) 255) as [E|E]; [auto|]. left.
  destruct (Z.eqb_spec b 0x80000000); [split; [discriminate|lia]|auto].
Qed.
Lemma f64_image_kept b : kept64 (f64_image b).
Proof.
  unfold f64_image, kept64, finite64. destruct (Z.eqb_spec (b / 2 ^ 52 mod 2048) 2047) as [E|E]; [auto|]. left.
  destruct (Z.eqb_spec b 0x8000000000000000); [split; [discriminate|lia]|auto].
Qed.
Lemma null_image t : forall v, json_null t (json_image t v) = true -> json_null t v = true.
Proof.
  induction t using ty_ind'; intros v N.
  11: exact (IHt v N).
  all: destruct v; cbn [json_image json_null] in *; try discriminate; auto.
  - unfold f32_image in N. destruct (bits / 2 ^ 23 mod 256 =? 255) eqn:E; auto. destruct (bits =? _) in N; [vm_compute in N; discriminate|congruence].
  - unfold f64_image in N. destruct (bits / 2 ^ 52 mod 2048 =? 2047) eqn:E; auto. destruct (bits =? _) in N; [vm_compute in N; discriminate|congruence].
  - destruct (json_null t v) eqn:E; auto. apply IHt in N. congruence.
Qed.
Lemma image_tuple (P R : ty -> val -> Prop) ts : forall l, Forall (fun t => forall v, P t v -> R t (json_image t v)) ts -> all2 P ts l -> all2 R ts (zip (fun t v => json_image t v) ts l).
Proof. induction ts as [|t ts IH]; intros [|v l] H K; cbn in *; try tauto. inversion H; subst. split; [|apply IH]; intuition. Qed.
Lemma image_fields (P : bytes * fattr * ty -> val -> Prop) (R : bytes * fattr * ty -> val -> Prop) fs : forall l,
  Forall (fun f => forall v, P f v -> R f (if skipped (attr_of f) v then v else json_image (snd f) v)) fs -> all2 P fs l ->
  all2 R fs (zip (fun f v => if skipped (attr_of f) v then v else json_image (snd f) v) fs l).
Proof. induction fs as [|f fs IH]; intros [|v l] H K; cbn in *; try tauto. inversion H; subst. split; [|apply IH]; intuition. Qed.
Theorem image_hastype t : forall v, hastype t v -> hastype t (json_image t v).
Proof.
  induction t as [ |k| | | | | | | |t IH|t IH|t IH|ts IH|ts IH|kt vt IHk IHv|fs IH|vs IH] using ty_ind'; intros v H.
  11: exact (IH v H).
  all: destruct v; cbn [hastype] in H; try contradiction; cbn [json_image hastype]; auto.
  - apply f32_image_range, H.
  - apply f64_image_range, H.
  - destruct (json_null t v); auto.
  - destruct H as [H1 H2]. split; [|unfold short, zlen in *; rewrite map_length; exact H2]. rewrite Forall_map. eapply Forall_impl; [|exact H1]. auto.
  - rewrite zip_map. rewrite StableFacts.all2_map in *. apply (image_tuple (fun t v => hastype t v) (fun t v => hastype t v)); auto.
  - rewrite zip_map. rewrite StableFacts.all2_map in *. apply (image_tuple (fun t v => hastype t v) (fun t v => hastype t v)); auto.
  - destruct H as [H1 H2]. split; [|unfold short, zlen in *; rewrite map_length; exact H2]. rewrite Forall_map. eapply Forall_impl; [|exact H1]. cbn. intuition.
  - rewrite zip_map. rewrite StableFacts.all2_map in *. apply (image_fields (fun f v => hastype (snd f) v) (fun f v => hastype (snd f) v)); auto.
    eapply Forall_impl; [|exact IH]. intros f I v Hv. cbn. destruct (skipped _ _); auto.
  - rewrite nth_error_map in *. destruct (nth_error vs i) as [f|] eqn:E; [|contradiction]. cbn [option_map] in *. cbn [hastype]. rewrite nth_error_map, E. cbn.
    rewrite Forall_forall in IH. apply (IH f (nth_error_In _ _ E)), H.
Qed.
Theorem image_settles t : forall v, hastype t v -> survives t (json_image t v).
Proof.
  induction t as [ |k| | | | | | | |t IH|t IH|t IH|ts IH|ts IH|kt vt IHk IHv|fs IH|vs IH] using ty_ind'; intros v H.
  11: exact (IH v H).
  all: destruct v; cbn [hastype] in H; try contradiction; cbn [json_image survives]; auto.
  - apply f32_image_kept.
  - apply f64_image_kept.
  - destruct (json_null t v) eqn:N; cbn [survives]; auto. split; [|auto]. destruct (json_null t (json_image t v)) eqn:N'; auto. apply null_image in N'. congruence.
  - destruct H as [H1 H2]. rewrite Forall_map. eapply Forall_impl; [|exact H1]. auto.
  - rewrite zip_map. rewrite StableFacts.all2_map in *. apply (image_tuple (fun t v => hastype t v) (fun t v => survives t v)); auto.
  - rewrite zip_map. rewrite StableFacts.all2_map in *. apply (image_tuple (fun t v => hastype t v) (fun t v => survives t v)); auto.
  - destruct H as [H1 H2]. rewrite Forall_map. eapply Forall_impl; [|exact H1]. cbn. intuition.
  - rewrite zip_map. rewrite StableFacts.all2_map in *. apply (image_fields (fun f v => hastype (snd f) v) (fun f v => skipped (attr_of f) v = true \/ survives (snd f) v)); auto.
    eapply Forall_impl; [|exact IH]. intros f I v Hv. cbn. destruct (skipped (attr_of f) v) eqn:E; auto.
  - rewrite nth_error_map in *. destruct (nth_error vs i) as [f|] eqn:E; [|contradiction]. cbn [option_map] in *. cbn [survives]. rewrite nth_error_map, E. cbn.
    rewrite Forall_forall in IH. apply (IH f (nth_error_In _ _ E)), H.
Qed.

(** ** Top level *)
Lemma text_spelled :
  (forall d b, loose_text d b -> spelled d) /\
  (forall l b, elements any_ws quoted loose_key number_run l b -> all_list spelled l) /\
  (forall l b, members any_ws quoted loose_key number_run l b -> all_list (fun m => spelled (snd m)) l).
Proof. apply jtext_mutind; intros; cbn; auto. Qed.

Section Top.
Local Notation prog t := (denote JDeserializeError t).
Context (ar : arch) (fl : float_parser) (any_f32 : bool) (dec : byte_decoder).
Definition floats_in_range : Prop :=
  (forall tok b, f32_from_str fl tok = Some b -> 0 <= b < 2 ^ 32) /\ (forall tok b, f64_from_str fl tok = Some b -> 0 <= b < 2 ^ 64).

Theorem js_decoded_typed fuel t input s v : f32_from_str fl [] = None -> f64_from_str fl [] = None -> floats_in_range ->
  wf t -> all_bytes input -> short input -> (dec = Base64Decoder -> 3 * zlen input <= usize_max ar) ->
  js_from_mut_slice ar fl any_f32 dec fuel (prog t) input = Done s (Ok v) ->
  hastype t v /\ ((forall tok, number_run tok -> f32_from_str fl tok <> Some 0x7fc00000 /\ f64_from_str fl tok <> Some 0x7ff8000000000000) -> floats_kept v -> survives t v).
Proof.
  intros F1 F2 [R32 R64] W B L R E.
  destruct (proj1 (decoding_exact ar fl any_f32 dec t v input F1 F2 W B R) (ex_intro _ _ (ex_intro _ _ E))) as (d & w1 & text & w2 & -> & _ & _ & T & H).
  split.
  - eapply reads_hastype; [|exact R32|exact R64|exact W| |exact H].
    + intros raw x Hx. destruct dec; [split; [apply str_body_bytes in Hx; apply Hx|exact (body_len _ _ _ Hx)]|split; [exact (hex_all _ _ Hx)|exact (hex_len _ _ Hx)]|split; [exact (base64_all _ _ Hx)|exact (base64_len _ _ Hx)]].
    + apply least_text in T. unfold fits, short, zlen in *. rewrite !app_length in L. lia.
  - intros N K. eapply reads_survives; [| | |exact K|exact H].
    + intros tok Ht. apply N, Ht.
    + intros tok Ht. apply N, Ht.
    + apply text_spelled in T. exact T.
Qed.
Theorem js_stable fp enc fuel t input s v out w1 w2 : f32_from_str fl [] = None -> f64_from_str fl [] = None -> floats_in_range ->
  (forall tok, number_run tok -> f32_from_str fl tok <> Some 0x7fc00000 /\ f64_from_str fl tok <> Some 0x7ff8000000000000) ->
  law32 fl fp -> law64 fl fp -> printer_ok fp -> In (enc, dec) flavours ->
  wf t -> no_newtype_keys t -> all_bytes input -> short input -> (dec = Base64Decoder -> 3 * zlen input <= usize_max ar) ->
  js_from_mut_slice ar fl any_f32 dec fuel (prog t) input = Done s (Ok v) -> floats_kept v ->
  js_to_string fp enc (trace t v) = Ok out -> any_ws w1 -> any_ws w2 -> (dec = Base64Decoder -> 3 * zlen (w1 ++ out ++ w2) <= usize_max ar) ->
  exists N, forall fuel, (N <= fuel)%nat -> exists s, js_from_mut_slice ar fl any_f32 dec fuel (prog t) (w1 ++ out ++ w2) = Done s (Ok v).
Proof.
  intros F1 F2 FR N L32 L64 P F W K B L R E Kf Eo W1 W2 R'. destruct (js_decoded_typed _ _ _ _ _ F1 F2 FR W B L R E) as [H HS].
  eapply round_trip_survives; eauto.
Qed.
Theorem js_settles fp enc fuel t input s v out w1 w2 out' w3 w4 : f32_from_str fl [] = None -> f64_from_str fl [] = None -> floats_in_range ->
  law32 fl fp -> law64 fl fp -> printer_ok fp -> In (enc, dec) flavours ->
  wf t -> no_newtype_keys t -> all_bytes input -> short input -> (dec = Base64Decoder -> 3 * zlen input <= usize_max ar) ->
  js_from_mut_slice ar fl any_f32 dec fuel (prog t) input = Done s (Ok v) ->
  js_to_string fp enc (trace t v) = Ok out -> any_ws w1 -> any_ws w2 -> (dec = Base64Decoder -> 3 * zlen (w1 ++ out ++ w2) <= usize_max ar) ->
  js_to_string fp enc (trace t (json_image t v)) = Ok out' -> any_ws w3 -> any_ws w4 -> (dec = Base64Decoder -> 3 * zlen (w3 ++ out' ++ w4) <= usize_max ar) ->
  exists N, forall fuel, (N <= fuel)%nat ->
    (exists s, js_from_mut_slice ar fl any_f32 dec fuel (prog t) (w1 ++ out ++ w2) = Done s (Ok (json_image t v))) /\
    (exists s, js_from_mut_slice ar fl any_f32 dec fuel (prog t) (w3 ++ out' ++ w4) = Done s (Ok (json_image t v))).
Proof.
  intros F1 F2 FR L32 L64 P F W K B L R E Eo W1 W2 R1 Eo' W3 W4 R2. destruct (js_decoded_typed _ _ _ _ _ F1 F2 FR W B L R E) as [H _].
  destruct (round_trip_image ar fl fp any_f32 enc dec t v out w1 w2) as [N1 H1]; auto.
  destruct (round_trip_survives ar fl fp any_f32 enc dec t (json_image t v) out' w3 w4) as [N2 H2]; auto using image_hastype, image_settles.
  exists (N1 + N2)%nat. intros f Hf. split; [apply H1|apply H2]; lia.
Qed.
End Top.

(** An infinity inside [Some] is lost. *)
Theorem overflow_lost ar fl fp any_f32 enc dec tok b : json_number tok -> f64_from_str fl tok = Some b -> 0 <= b < 2 ^ 64 -> ~ finite64 b ->
  In (enc, dec) flavours -> (dec = Base64Decoder -> 3 * (zlen tok + 4) <= usize_max ar) ->
  exists N, forall fuel, (N <= fuel)%nat ->
    (exists s, js_from_mut_slice ar fl any_f32 dec fuel (denote JDeserializeError (TOption TF64)) tok = Done s (Ok (USome (UF64 b)))) /\
    js_to_string fp enc (trace (TOption TF64) (USome (UF64 b))) = Ok [110; 117; 108; 108] /\
    (exists s, js_from_mut_slice ar fl any_f32 dec fuel (denote JDeserializeError (TOption TF64)) [110; 117; 108; 108] = Done s (Ok UNone)).
Proof.
  intros Ht Hb Rb Nf F R. assert (0 <= zlen tok) by (unfold zlen; lia).
  destruct (JsonTypedTop.interoperability ar fl any_f32 dec (TOption TF64) (USome (UF64 b)) (JNum tok) tok [] []) as [N1 H1].
  { exact I. } { split; [left; eauto|discriminate]. } { constructor. exact Ht. } { constructor. } { constructor. }
  { cbn [app]. rewrite app_nil_r. intros E. specialize (R E). lia. }
  destruct (JsonTypedTop.interoperability ar fl any_f32 dec (TOption TF64) UNone JNull [110; 117; 108; 108] [] []) as [N2 H2].
  { exact I. } { reflexivity. } { constructor. } { constructor. } { constructor. } { intros E. specialize (R E). change (zlen ([] ++ [110; 117; 108; 108] ++ [])) with 4. lia. }
  exists (N1 + N2)%nat. intros f Hf. cbn [app] in H1, H2. rewrite app_nil_r in H1. split; [apply H1; lia|]. split; [|apply H2; lia].
  assert (Ef : is_finite_f64 b = false) by (unfold is_finite_f64; unfold finite64 in Nf; clear - Rb Nf; apply Z.ltb_ge; assert (K : b / 2 ^ 52 mod 2048 = 2047) by lia; Z.div_mod_to_equations; lia).
  assert (Ee : enc <> PassThroughByteEncoder) by (intros ->; cbn in F; intuition discriminate).
  unfold js_to_string, js_to_writer. cbn [trace js_ser]. unfold js_f64. rewrite Ef. destruct enc; try contradiction; reflexivity.
Qed.

(** ** A parser as the theorems assume it: a float is the number of its bit pattern *)
Definition some_fl : float_parser :=
  let p max nan t := match t with [] => None | _ => let n := dec_val t in if (0 <=? n) && (n <? max) && negb (n =? nan) then Some n else None end in
  {| f32_from_str := p (2 ^ 32) 0x7fc00000; f64_from_str := p (2 ^ 64) 0x7ff8000000000000 |}.
Lemma some_floats : floats_in_range some_fl /\ law32 some_fl bits_fp /\ law64 some_fl bits_fp /\
  forall tok, f32_from_str some_fl tok <> Some 0x7fc00000 /\ f64_from_str some_fl tok <> Some 0x7ff8000000000000.
Proof.
  destruct bits_floats as (_ & L32 & L64). split; [|split; [|split]].
  - split; intros [|c tok] b; cbn [some_fl f32_from_str f64_from_str]; try discriminate; cbv zeta; destruct (_ && _) eqn:E; try discriminate; intros [= <-];
      apply andb_prop in E; destruct E as [E _]; apply andb_prop in E; lia.
  - intros b Hb F. specialize (L32 b Hb F). cbn [some_fl bits_fl f32_from_str] in *. destruct (format_f32 bits_fp b); [exact L32|].
    injection L32 as L32. rewrite L32. cbv zeta. unfold finite32 in F.
    destruct (Z.eqb_spec b 0x7fc00000) as [->|Nb]; [vm_compute in F; contradiction|].
    destruct (Z.eqb_spec b 0x80000000) as [->|Nz]; [reflexivity|].
    replace (0 <=? b) with true by lia. replace (b <? 2 ^ 32) with true by lia. replace (b =? 0x7fc00000) with false by lia. reflexivity.
  - intros b Hb F. specialize (L64 b Hb F). cbn [some_fl bits_fl f64_from_str] in *. destruct (format_f64 bits_fp b); [exact L64|].
    injection L64 as L64. rewrite L64. cbv zeta. unfold finite64 in F.
    destruct (Z.eqb_spec b 0x7ff8000000000000) as [->|Nb]; [vm_compute in F; contradiction|].
    destruct (Z.eqb_spec b 0x8000000000000000) as [->|Nz]; [reflexivity|].
    replace (0 <=? b) with true by lia. replace (b <? 2 ^ 64) with true by lia. replace (b =? 0x7ff8000000000000) with false by lia. reflexivity.
  - intros tok. split; destruct tok as [|c tok]; cbn [some_fl f32_from_str f64_from_str]; try discriminate; cbv zeta; destruct (_ && _) eqn:E; try discriminate; intros [= K];
      apply andb_prop in E; destruct E as [_ E]; rewrite K in E; discriminate.
Qed.

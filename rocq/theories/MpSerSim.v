(** The MessagePack serializers do the same on every lawful writer. *)
From Verif Require Import Prelude PreludeFacts Writer WriterContract SerMonad SerdeSer SerSim MpSer.

Definition mp_werr {E} (e : mp_ser_error E) : Prop :=
  (exists x, e = MWriter x) \/ e = MFormatError.

Lemma mp_werr_writer {E} (e : E) : mp_werr (MWriter e).
Proof. left. eauto. Qed.

Section S.
Context {W E : Type} (SW : SerWrite W E) (inv : W -> Prop) (content : W -> bytes).
Hypothesis law : lawful SW inv content.
Variables (cfg : mp_cfg) (fl : flavour).

Local Notation sim := (sim SW inv content mp_werr).

Lemma sim_w bs : sim (write SW bs) (write VecWriter bs).
Proof. apply sim_write; auto using mp_werr_writer. Qed.
Lemma sim_wb b : sim (write_byte SW b) (write_byte VecWriter b).
Proof. apply sim_write_byte; auto using mp_werr_writer. Qed.
Lemma sim_ws b : sim (out_write_str SW b) (out_write_str VecWriter b).
Proof. apply sim_write_str; auto using mp_werr_writer. Qed.

Ltac go :=
  repeat first
    [ apply sim_w | apply sim_wb | apply sim_ws | apply sim_ret | apply sim_fail
    | apply sim_bind; [|intros]
    | apply sim_if
    | apply sim_opt; [intros|]
    | assumption ].

Lemma sim_str_len n : sim (write_str_len SW n) (write_str_len VecWriter n).
Proof. unfold write_str_len. go. Qed.
Lemma sim_str s : sim (MpSer.write_str SW s) (MpSer.write_str VecWriter s).
Proof. unfold MpSer.write_str. apply sim_bind; [apply sim_str_len|intros; go]. Qed.
Lemma sim_array_len n : sim (write_array_len SW n) (write_array_len VecWriter n).
Proof. unfold write_array_len. go. Qed.
Lemma sim_map_len n : sim (write_map_len SW n) (write_map_len VecWriter n).
Proof. unfold write_map_len. go. Qed.
Lemma sim_u32 n : sim (write_u32 SW n) (write_u32 VecWriter n).
Proof. unfold write_u32. go. Qed.
Lemma sim_int k z : sim (serialize_int SW k z) (serialize_int VecWriter k z).
Proof.
  destruct k; cbn [serialize_int];
    unfold serialize_i8, serialize_i16, serialize_i32, serialize_i64,
           serialize_u8, serialize_u16, serialize_u32, serialize_u64, write_u32; go.
Qed.
Lemma sim_variant i n : sim (serialize_variant SW fl i n) (serialize_variant VecWriter fl i n).
Proof. unfold serialize_variant. destruct fl; apply sim_u32 || apply sim_str. Qed.
Lemma sim_struct n :
  sim (inherent_serialize_struct SW fl n) (inherent_serialize_struct VecWriter fl n).
Proof.
  unfold inherent_serialize_struct.
  destruct fl; (apply sim_bind; [apply sim_map_len || apply sim_array_len|intros; go]).
Qed.
Lemma sim_dec n e : sim (@checked_dec W E n e) (checked_dec n e).
Proof. unfold checked_dec. go. Qed.

Lemma sim_items (f : sval -> SM W (mp_ser_error E) unit) (g : sval -> SM bytes (mp_ser_error E) unit) l n :
  Forall (fun x => sim (f x) (g x)) l -> sim (ser_items f l n) (ser_items g l n).
Proof.
  intros H. revert n. induction H; intros n; cbn; [go|].
  unfold seq_serialize_element. apply sim_bind; auto.
  apply sim_bind; [apply sim_dec|intros]. go.
Qed.

Lemma sim_entries (f : sval -> SM W (mp_ser_error E) unit) (g : sval -> SM bytes (mp_ser_error E) unit) l n :
  Forall (fun x => sim (f (snd x)) (g (snd x))) l -> sim (ser_entries f l n) (ser_entries g l n).
Proof.
  intros H. revert n. induction H as [|[isk x] l Hx Hl IH]; intros n; cbn [ser_entries]; [go|].
  apply sim_bind; auto. unfold map_serialize_key, map_serialize_value. cbn in Hx.
  destruct isk; go.
Qed.

Lemma sim_fields (f : sval -> SM W (mp_ser_error E) unit) (g : sval -> SM bytes (mp_ser_error E) unit) l st :
  Forall (fun x => forall v, snd x = Some v -> sim (f v) (g v)) l ->
  sim (ser_fields SW fl f l st) (ser_fields VecWriter fl g l st).
Proof.
  intros H. revert st. induction H as [|[k x] l Hx Hl IH]; intros st; cbn [ser_fields]; [go|].
  apply sim_bind; auto. cbn in Hx. destruct st as [len idx].
  destruct x as [x|].
  - specialize (Hx x eq_refl). unfold struct_serialize_field, serialize_u32, serialize_str.
    destruct fl; (apply sim_bind; [apply sim_dec|intros]); go; apply sim_u32 || apply sim_str.
  - unfold struct_skip_field. destruct fl; go.
Qed.

Lemma sim_collector p : fmt_propagates p ->
  forall len, sim (collect_pass2 SW p len) (collect_pass2 VecWriter p len).
Proof.
  unfold collect_pass2. induction p as [ok | c k1 IH1 k2 _]; intros Hp len.
  - cbn. destruct ok; [apply sim_ret|apply sim_fail].
  - destruct Hp as [-> Hp]. specialize (IH1 Hp).
    intros w out0 I. cbn [run_fmt collector_write_str].
    destruct (len <? zlen c).
    + cbn. exists []. rewrite !app_nil_r. repeat split; auto. left. rewrite Nat.add_0_r. auto.
    + pose proof (law_str _ _ _ law c w) as L.
      pose proof (fun cap B => bounded_str SW inv content cap B c w) as B. unfold fits in B.
      destruct (sw_write_str SW w c) as [w1 r1] eqn:Ew. specialize (L w1 r1 I eq_refl). destruct L as [I1 L].
      cbn [sw_write_str SerWrite_default VecWriter].
      destruct (IH1 (len - zlen c) w1 (out0 ++ c) I1) as (o2 & E2 & I2 & H2).
      destruct (run_fmt (@collector_write_str bytes E VecWriter) k1 (len - zlen c, out0 ++ c)) as [[lr br] okr].
      cbn [fst snd] in *.
      exists (c ++ o2). rewrite app_assoc. split; [auto|].
      destruct r1 as [[]|e].
      * destruct (run_fmt (collector_write_str SW) k1 (len - zlen c, w1)) as [[lm wm] okm].
        cbn [fst snd] in *. split; [auto|].
        destruct H2 as [(R & C & K) | (He & p & Pp & C & K)].
        -- left. split; [auto|]. rewrite C, L, app_assoc. split; [auto|].
           intros cap Hb. destruct (B cap Hb w1 (Ok tt) I eq_refl) as [b1 b2], (K cap Hb) as [c2 k2].
           rewrite L, app_length in k2. rewrite app_length. split; [congruence|].
           intros. assert (length (content w) + length c <= cap w)%nat by (apply b2; auto). lia.
        -- right. split; auto. exists (c ++ p). rewrite C, L, app_assoc.
           split; [apply prefix_app; auto|]. split; [auto|].
           intros cap Hb. destruct (B cap Hb w1 (Ok tt) I eq_refl) as [b1 b2]. specialize (K cap Hb).
           rewrite L, app_length in K. rewrite app_length. lia.
      * cbn [run_fmt fst snd]. split; [auto|]. right. split; [exists MFormatError; split; [auto|right; auto]|].
        destruct L as (p & Pp & C). exists p. split; [apply prefix_app_l; auto|]. split; [auto|].
        intros cap Hb. destruct (B cap Hb w1 (Err e) I eq_refl) as [b1 b2]. rewrite app_length.
        destruct (Nat.le_gt_cases (length (content w) + length c) (cap w)) as [G|G]; [|lia].
        apply b2 in G. discriminate.
Qed.

Lemma all_list_Forall {A} (P : A -> Prop) l : all_list P l <-> Forall P l.
Proof.
  split.
  - induction l; cbn; constructor; tauto.
  - induction 1; cbn; auto.
Qed.

Lemma Forall_impl2 {A} (P Q R : A -> Prop) l :
  (forall x, P x -> Q x -> R x) -> Forall P l -> Forall Q l -> Forall R l.
Proof. intros H F. induction F; intros G; inversion G; subst; constructor; auto. Qed.

Theorem mp_ser_sim v : displays_propagate v ->
  sim (mp_ser SW cfg fl v) (mp_ser VecWriter cfg fl v).
Proof.
  induction v using sval_ind'; intros Hd; cbn [mp_ser displays_propagate] in *.
  - unfold serialize_bool. go.
  - apply sim_int.
  - go.
  - unfold serialize_f32. go.
  - unfold serialize_f64. go.
  - apply sim_str.
  - apply sim_str.
  - unfold serialize_bytes. go.
  - unfold serialize_none. go.
  - auto.
  - unfold serialize_unit, serialize_none. go.
  - unfold serialize_unit_struct, serialize_unit, serialize_none. go.
  - apply sim_variant.
  - auto.
  - unfold serialize_newtype_variant. go; [apply sim_variant|auto].
  - rewrite all_list_Forall in Hd.
    assert (F : Forall (fun x => sim (mp_ser SW cfg fl x) (mp_ser VecWriter cfg fl x)) items)
      by (eapply Forall_impl2; [|exact H|exact Hd]; auto).
    unfold serialize_seq, seq_end. go; apply sim_array_len || (apply sim_items; auto).
  - rewrite all_list_Forall in Hd.
    assert (F : Forall (fun x => sim (mp_ser SW cfg fl x) (mp_ser VecWriter cfg fl x)) items)
      by (eapply Forall_impl2; [|exact H|exact Hd]; auto).
    unfold serialize_tuple, seq_end. go; apply sim_array_len || (apply sim_items; auto).
  - rewrite all_list_Forall in Hd.
    assert (F : Forall (fun x => sim (mp_ser SW cfg fl x) (mp_ser VecWriter cfg fl x)) items)
      by (eapply Forall_impl2; [|exact H|exact Hd]; auto).
    unfold serialize_tuple_struct, serialize_tuple, seq_end. go; apply sim_array_len || (apply sim_items; auto).
  - rewrite all_list_Forall in Hd.
    assert (F : Forall (fun x => sim (mp_ser SW cfg fl x) (mp_ser VecWriter cfg fl x)) items)
      by (eapply Forall_impl2; [|exact H|exact Hd]; auto).
    unfold serialize_tuple_variant, serialize_tuple, seq_end.
    go; apply sim_variant || apply sim_array_len || (apply sim_items; auto).
  - rewrite all_list_Forall in Hd.
    assert (F : Forall (fun x => sim (mp_ser SW cfg fl (snd x)) (mp_ser VecWriter cfg fl (snd x))) ops)
      by (eapply Forall_impl2; [|exact H|exact Hd]; auto).
    unfold serialize_map, map_end. go; apply sim_map_len || (apply sim_entries; auto).
  - rewrite all_list_Forall in Hd.
    assert (F : Forall (fun x => forall v, snd x = Some v -> sim (mp_ser SW cfg fl v) (mp_ser VecWriter cfg fl v)) fs).
    { eapply Forall_impl2; [|exact H|exact Hd]. intros x Hx Dx v Ev. apply Hx; auto. cbn beta in Dx. rewrite Ev in Dx. auto. }
    unfold serialize_struct, struct_end.
    apply sim_bind; [apply sim_struct|intros]. apply sim_bind; [apply sim_fields; auto|intros].
    destruct fl; go.
  - rewrite all_list_Forall in Hd.
    assert (F : Forall (fun x => forall v, snd x = Some v -> sim (mp_ser SW cfg fl v) (mp_ser VecWriter cfg fl v)) fs).
    { eapply Forall_impl2; [|exact H|exact Hd]. intros x Hx Dx v Ev. apply Hx; auto. cbn beta in Dx. rewrite Ev in Dx. auto. }
    unfold serialize_struct_variant, struct_end.
    apply sim_bind; [|intros; apply sim_bind; [apply sim_fields; auto|intros]; destruct fl; go].
    go; apply sim_variant || apply sim_struct.
  - unfold collect_str. destruct (cfg_alloc cfg).
    + destruct (run_fmt string_write_str a []) as [t ok]. destruct ok; [apply sim_str|apply sim_fail].
    + destruct (run_fmt (counter_write_str cfg) a 0) as [len ok]. destruct ok; [|apply sim_fail].
      apply sim_bind; [apply sim_str_len|intros]. apply sim_collector. apply Hd.
  - apply sim_fail.
Qed.
End S.

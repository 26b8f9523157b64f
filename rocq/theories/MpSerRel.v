(** A relation between serializer runs that is kept by sequencing and holds for
    the writer calls holds for whole serializations; two uses of it. *)
From Verif Require Import Prelude PreludeFacts Writer SerMonad SerdeSer SerSpec MpSer MpSerSim MpErrMap.

(** The errors that do not come from the writer. *)
Definition own {E} (e : mp_ser_error Empty_set) : mp_ser_error E :=
  err_map (fun x : Empty_set => match x with end) e.

Section Rel.
Context {W E W' E' : Type} (SW : SerWrite W E) (SW' : SerWrite W' E').
Variables (cfg : mp_cfg) (fl : flavour).
Variable R : forall A, SM W (mp_ser_error E) A -> SM W' (mp_ser_error E') A -> Prop.
Arguments R {A}.
Hypothesis R_ret : forall A (a : A), R (sret a) (sret a).
Hypothesis R_fail : forall A e, R (@sfail _ _ A (own e)) (sfail (own e)).
Hypothesis R_bind : forall A B (m : SM W _ A) m' (f : A -> SM W _ B) f',
  R m m' -> (forall a, R (f a) (f' a)) -> R (sbind m f) (sbind m' f').
Hypothesis R_write : forall bs, R (write SW bs) (write SW' bs).
Hypothesis R_byte : forall b, R (write_byte SW b) (write_byte SW' b).
Hypothesis R_str : forall bs, R (out_write_str SW bs) (out_write_str SW' bs).
Hypothesis R_pass2 : forall p len, fmt_propagates p -> R (collect_pass2 SW p len) (collect_pass2 SW' p len).

Lemma R_if {A} (b : bool) (m1 m2 : SM W (mp_ser_error E) A) r1 r2 :
  R m1 r1 -> R m2 r2 -> R (if b then m1 else m2) (if b then r1 else r2).
Proof. destruct b; auto. Qed.
Lemma R_opt {A B} (o : option B) (m1 : B -> SM W (mp_ser_error E) A) m2 r1 r2 :
  (forall b, R (m1 b) (r1 b)) -> R m2 r2 ->
  R (match o with Some b => m1 b | None => m2 end) (match o with Some b => r1 b | None => r2 end).
Proof. destruct o; auto. Qed.

Lemma fail_map {A} : R (@sfail _ _ A MMapLength) (sfail MMapLength). Proof. apply (R_fail A MMapLength). Qed.
Lemma fail_seq {A} : R (@sfail _ _ A MSeqLength) (sfail MSeqLength). Proof. apply (R_fail A MSeqLength). Qed.
Lemma fail_str {A} : R (@sfail _ _ A MStrLength) (sfail MStrLength). Proof. apply (R_fail A MStrLength). Qed.
Lemma fail_data {A} : R (@sfail _ _ A MDataLength) (sfail MDataLength). Proof. apply (R_fail A MDataLength). Qed.
Lemma fail_skip {A} : R (@sfail _ _ A MFieldSkipped) (sfail MFieldSkipped). Proof. apply (R_fail A MFieldSkipped). Qed.
Lemma fail_fmt {A} : R (@sfail _ _ A MFormatError) (sfail MFormatError). Proof. apply (R_fail A MFormatError). Qed.
Lemma fail_ser {A} : R (@sfail _ _ A MSerializeError) (sfail MSerializeError). Proof. apply (R_fail A MSerializeError). Qed.
Lemma fail_panic {A} : R (@sfail _ _ A MPanic) (sfail MPanic). Proof. apply (R_fail A MPanic). Qed.

Ltac go :=
  repeat first
    [ apply R_write | apply R_byte | apply R_str | apply R_ret
    | apply fail_map | apply fail_seq | apply fail_str | apply fail_data | apply fail_skip
    | apply fail_fmt | apply fail_ser | apply fail_panic
    | apply R_bind; [|intros]
    | apply R_if
    | apply R_opt; [intros|]
    | assumption ].

Lemma R_str_len n : R (write_str_len SW n) (write_str_len SW' n).
Proof. unfold write_str_len. go. Qed.
Lemma R_wstr s : R (MpSer.write_str SW s) (MpSer.write_str SW' s).
Proof. unfold MpSer.write_str. apply R_bind; [apply R_str_len|intros; go]. Qed.
Lemma R_array_len n : R (write_array_len SW n) (write_array_len SW' n).
Proof. unfold write_array_len. go. Qed.
Lemma R_map_len n : R (write_map_len SW n) (write_map_len SW' n).
Proof. unfold write_map_len. go. Qed.
Lemma R_u32 n : R (write_u32 SW n) (write_u32 SW' n).
Proof. unfold write_u32. go. Qed.
Lemma R_int k z : R (serialize_int SW k z) (serialize_int SW' k z).
Proof.
  destruct k; cbn [serialize_int];
    unfold serialize_i8, serialize_i16, serialize_i32, serialize_i64,
           serialize_u8, serialize_u16, serialize_u32, serialize_u64, write_u32; go.
Qed.
Lemma R_variant i n : R (serialize_variant SW fl i n) (serialize_variant SW' fl i n).
Proof. unfold serialize_variant. destruct fl; apply R_u32 || apply R_wstr. Qed.
Lemma R_struct n :
  R (inherent_serialize_struct SW fl n) (inherent_serialize_struct SW' fl n).
Proof.
  unfold inherent_serialize_struct.
  destruct fl; (apply R_bind; [apply R_map_len || apply R_array_len|intros; go]).
Qed.
Lemma R_items (f : sval -> SM W (mp_ser_error E) unit) (g : sval -> SM W' (mp_ser_error E') unit) l n :
  Forall (fun x => R (f x) (g x)) l -> R (ser_items f l n) (ser_items g l n).
Proof.
  intros H. revert n. induction H; intros n; cbn; [go|].
  unfold seq_serialize_element, checked_dec. apply R_bind; auto. go.
Qed.
Lemma R_entries (f : sval -> SM W (mp_ser_error E) unit) (g : sval -> SM W' (mp_ser_error E') unit) l n :
  Forall (fun x => R (f (snd x)) (g (snd x))) l -> R (ser_entries f l n) (ser_entries g l n).
Proof.
  intros H. revert n. induction H as [|[isk x] l Hx Hl IH]; intros n; cbn [ser_entries]; [go|].
  apply R_bind; auto. unfold map_serialize_key, map_serialize_value, checked_dec. cbn in Hx.
  destruct isk; go.
Qed.
Lemma R_fields (f : sval -> SM W (mp_ser_error E) unit) (g : sval -> SM W' (mp_ser_error E') unit) l st :
  Forall (fun x => forall v, snd x = Some v -> R (f v) (g v)) l ->
  R (ser_fields SW fl f l st) (ser_fields SW' fl g l st).
Proof.
  intros H. revert st. induction H as [|[k x] l Hx Hl IH]; intros st; cbn [ser_fields]; [go|].
  apply R_bind; auto. cbn in Hx. destruct st as [len idx].
  destruct x as [x|].
  - specialize (Hx x eq_refl). unfold struct_serialize_field, serialize_u32, serialize_str, checked_dec.
    destruct fl; go; apply R_u32 || apply R_wstr.
  - unfold struct_skip_field. destruct fl; go.
Qed.

Theorem mp_ser_rel v : displays_propagate v -> R (mp_ser SW cfg fl v) (mp_ser SW' cfg fl v).
Proof.
  induction v using sval_ind'; intros Hd; cbn [mp_ser displays_propagate] in *.
  - unfold serialize_bool. go.
  - apply R_int.
  - go.
  - unfold serialize_f32. go.
  - unfold serialize_f64. go.
  - apply R_wstr.
  - apply R_wstr.
  - unfold serialize_bytes. go.
  - unfold serialize_none. go.
  - auto.
  - unfold serialize_unit, serialize_none. go.
  - unfold serialize_unit_struct, serialize_unit, serialize_none. go.
  - apply R_variant.
  - auto.
  - unfold serialize_newtype_variant. go; [apply R_variant|auto].
  - rewrite all_list_Forall in Hd.
    assert (F : Forall (fun x => R (mp_ser SW cfg fl x) (mp_ser SW' cfg fl x)) items)
      by (eapply Forall_impl2; [|exact H|exact Hd]; auto).
    unfold serialize_seq, seq_end. go; apply R_array_len || (apply R_items; auto).
  - rewrite all_list_Forall in Hd.
    assert (F : Forall (fun x => R (mp_ser SW cfg fl x) (mp_ser SW' cfg fl x)) items)
      by (eapply Forall_impl2; [|exact H|exact Hd]; auto).
    unfold serialize_tuple, seq_end. go; apply R_array_len || (apply R_items; auto).
  - rewrite all_list_Forall in Hd.
    assert (F : Forall (fun x => R (mp_ser SW cfg fl x) (mp_ser SW' cfg fl x)) items)
      by (eapply Forall_impl2; [|exact H|exact Hd]; auto).
    unfold serialize_tuple_struct, serialize_tuple, seq_end. go; apply R_array_len || (apply R_items; auto).
  - rewrite all_list_Forall in Hd.
    assert (F : Forall (fun x => R (mp_ser SW cfg fl x) (mp_ser SW' cfg fl x)) items)
      by (eapply Forall_impl2; [|exact H|exact Hd]; auto).
    unfold serialize_tuple_variant, serialize_tuple, seq_end.
    go; apply R_variant || apply R_array_len || (apply R_items; auto).
  - rewrite all_list_Forall in Hd.
    assert (F : Forall (fun x => R (mp_ser SW cfg fl (snd x)) (mp_ser SW' cfg fl (snd x))) ops)
      by (eapply Forall_impl2; [|exact H|exact Hd]; auto).
    unfold serialize_map, map_end. go; apply R_map_len || (apply R_entries; auto).
  - rewrite all_list_Forall in Hd.
    assert (F : Forall (fun x => forall v, snd x = Some v -> R (mp_ser SW cfg fl v) (mp_ser SW' cfg fl v)) fs).
    { eapply Forall_impl2; [|exact H|exact Hd]. intros x Hx Dx v Ev. apply Hx; auto. cbn beta in Dx. rewrite Ev in Dx. auto. }
    unfold serialize_struct, struct_end.
    apply R_bind; [apply R_struct|intros]. apply R_bind; [apply R_fields; auto|intros].
    destruct fl; go.
  - rewrite all_list_Forall in Hd.
    assert (F : Forall (fun x => forall v, snd x = Some v -> R (mp_ser SW cfg fl v) (mp_ser SW' cfg fl v)) fs).
    { eapply Forall_impl2; [|exact H|exact Hd]. intros x Hx Dx v Ev. apply Hx; auto. cbn beta in Dx. rewrite Ev in Dx. auto. }
    unfold serialize_struct_variant, struct_end.
    apply R_bind; [|intros; apply R_bind; [apply R_fields; auto|intros]; destruct fl; go].
    go; apply R_variant || apply R_struct.
  - unfold collect_str. destruct (cfg_alloc cfg).
    + destruct (run_fmt string_write_str a []) as [t ok]. destruct ok; [apply R_wstr|go].
    + destruct (run_fmt (counter_write_str cfg) a 0) as [len ok]. destruct ok; [|go].
      apply R_bind; [apply R_str_len|intros]. apply R_pass2. apply Hd.
  - go.
Qed.
End Rel.

(** ** Use 1: the writer's error type does not matter to the list writer. *)
Lemma mp_ser_err_type {E F} (f : E -> F) cfg fl v w : displays_propagate v ->
  mp_ser (@VecWriter F) cfg fl v w =
  (fst (mp_ser (@VecWriter E) cfg fl v w), res_map (err_map f) (snd (mp_ser (@VecWriter E) cfg fl v w))).
Proof.
  intros Hd. revert w.
  apply (mp_ser_rel (@VecWriter E) (@VecWriter F) cfg fl
    (fun A m m' => forall w, m' w = (fst (m w), res_map (err_map f) (snd (m w))))); auto; clear.
  - intros A e w. unfold own. destruct e; try reflexivity. destruct e.
  - intros A B m m' g g' Hm Hg w. unfold sbind. rewrite Hm. destruct (m w) as [w1 [a|e]]; cbn; auto.
  - intros p len Hp w. unfold collect_pass2.
    assert (EQ : run_fmt (@collector_write_str bytes E VecWriter) p (len, w) =
                 run_fmt (@collector_write_str bytes F VecWriter) p (len, w)).
    { generalize (len, w). clear. induction p as [ok|c k1 IH1 k2 IH2]; intros st; [auto|].
      cbn [run_fmt]. assert (collector_write_str (@VecWriter E) st c = collector_write_str (@VecWriter F) st c) as ->.
      { destruct st. unfold collector_write_str. destruct (_ <? _); auto. }
      destruct (collector_write_str _ _ _) as [s' []]; auto. }
    rewrite EQ. destruct (run_fmt _ _ _) as [[l' w'] []]; auto.
Qed.

(** ** Use 2: a writer that keeps the results of all calls made on it. *)
(** Calls are made until one fails; a failure is the last call, and is reported. *)
Definition stops {W E A} (m : SM (W * list (result unit E)) (mp_ser_error E) A) : Prop :=
  forall w lg, exists w' new r, m (w, lg) = ((w', lg ++ new), r) /\
    ((all_ok new /\ forall e, r <> Err (MWriter e)) \/
     exists pre e, new = pre ++ [Err e] /\ all_ok pre /\ (r = Err (MWriter e) \/ r = Err MFormatError)).

Lemma mp_ser_stops {W E} (SW : SerWrite W E) cfg fl v : displays_propagate v ->
  stops (mp_ser (Logged SW) cfg fl v).
Proof.
  intros Hd.
  apply (mp_ser_rel (Logged SW) (Logged SW) cfg fl (fun A m _ => stops m)); auto; clear.
  - intros A a w lg. exists w, [], (Ok a). rewrite app_nil_r. split; [auto|]. left. split; [constructor|discriminate].
  - intros A e w lg. exists w, [], (Err (own e)). rewrite app_nil_r. split; [auto|]. left. split; [constructor|].
    destruct e; cbn; try discriminate. destruct e.
  - intros A B m _ f _ Hm Hf w lg. destruct (Hm w lg) as (w1 & n1 & r1 & E1 & H1).
    unfold sbind. rewrite E1. destruct H1 as [[O1 N1]|(pre & e & -> & O1 & Hr)].
    + destruct r1 as [a|e].
      * destruct (Hf a w1 (lg ++ n1)) as (w2 & n2 & r2 & E2 & H2). exists w2, (n1 ++ n2), r2.
        rewrite E2, app_assoc. split; [auto|].
        destruct H2 as [[O2 N2]|(pre & e & -> & O2 & Hr)].
        -- left. split; [apply Forall_app; auto|auto].
        -- right. exists (n1 ++ pre), e. rewrite app_assoc. split; [auto|]. split; [apply Forall_app; auto|auto].
      * exists w1, n1, (Err e). split; [auto|]. left. split; [auto|]. intros e' [= ->]. eapply N1; auto.
    + exists w1, (pre ++ [Err e]). destruct r1 as [a|e']; [destruct Hr; discriminate|].
      exists (Err e'). split; [auto|]. right. exists pre, e. split; [auto|]. split; [auto|].
      destruct Hr as [[= ->]|[= ->]]; auto.
  - intros bs w lg. cbn. unfold write, slift. cbn. destruct (sw_write SW w bs) as [w' [[]|e]].
    + exists w', [Ok tt], (Ok tt). split; [auto|]. left. split; [repeat constructor|discriminate].
    + exists w', [Err e], (Err (MWriter e)). split; [auto|]. right. exists [], e. repeat split; auto. constructor.
  - intros bs w lg. cbn. unfold write_byte, slift. cbn. destruct (sw_write_byte SW w bs) as [w' [[]|e]].
    + exists w', [Ok tt], (Ok tt). split; [auto|]. left. split; [repeat constructor|discriminate].
    + exists w', [Err e], (Err (MWriter e)). split; [auto|]. right. exists [], e. repeat split; auto. constructor.
  - intros bs w lg. cbn. unfold out_write_str, slift. cbn. destruct (sw_write_str SW w bs) as [w' [[]|e]].
    + exists w', [Ok tt], (Ok tt). split; [auto|]. left. split; [repeat constructor|discriminate].
    + exists w', [Err e], (Err (MWriter e)). split; [auto|]. right. exists [], e. repeat split; auto. constructor.
  - intros p len Hp. unfold stops, collect_pass2. revert len. induction p as [ok|c k1 IH1 k2 _]; intros len w lg.
    + cbn. exists w, [], (if ok then Ok tt else Err MFormatError). rewrite app_nil_r. split; [auto|]. left.
      split; [constructor|]. destruct ok; discriminate.
    + destruct Hp as [-> Hp]. cbn [run_fmt]. unfold collector_write_str at 1.
      destruct (len <? zlen c).
      * cbn. exists w, [], (Err MFormatError). rewrite app_nil_r. split; [auto|]. left. split; [constructor|discriminate].
      * cbn [Logged sw_write_str]. destruct (sw_write_str SW w c) as [w' [[]|e]].
        -- destruct (IH1 Hp (len - zlen c) w' (lg ++ [Ok tt])) as (w2 & n2 & r2 & E2 & H2).
           exists w2, (Ok tt :: n2), r2. rewrite E2. change (Ok tt :: n2) with ([Ok tt] ++ n2). rewrite app_assoc.
           split; [auto|]. destruct H2 as [[O2 N2]|(pre & e & -> & O2 & Hr)].
           ++ left. split; [constructor; auto|auto].
           ++ right. exists (Ok tt :: pre), e. split; [auto|]. split; [constructor; auto|auto].
        -- cbn. exists w', [Err e], (Err MFormatError). split; [auto|]. right. exists [], e. repeat split; auto. constructor.
Qed.

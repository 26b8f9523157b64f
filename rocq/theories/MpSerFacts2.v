(** Integer encodings, element counts, skipped fields and collect_str. *)
From Verif Require Import Prelude PreludeFacts Utf8Spec Utf8 Utf8Facts Writer WriterContract
  SerMonad SerdeSer SerSpec SerSim MpSpec MpSer MpErrMap MpSerSim MpSerRel MpSerProofs MpSerFacts.
Ltac Zify.zify_post_hook ::= Z.div_mod_to_equations.

(** ** Integers *)
Definition enc_s (v : Z) : bytes :=
  if (-32 <=? v) && (v <=? 127) then [as_u8 v]
  else if (-128 <=? v) && (v <=? 127) then [INT_8; as_u8 v]
  else if (0 <=? v) && (v <=? 255) then [UINT_8; v]
  else if (- 2 ^ 15 <=? v) && (v <=? 2 ^ 15 - 1) then INT_16 :: be_bytes 2 (v mod 2 ^ 16)
  else if (0 <=? v) && (v <=? 2 ^ 16 - 1) then UINT_16 :: be_bytes 2 v
  else if (- 2 ^ 31 <=? v) && (v <=? 2 ^ 31 - 1) then INT_32 :: be_bytes 4 (v mod 2 ^ 32)
  else if (0 <=? v) && (v <=? 2 ^ 32 - 1) then UINT_32 :: be_bytes 4 v
  else INT_64 :: be_bytes 8 (v mod 2 ^ 64).
Definition enc_u (v : Z) : bytes :=
  if v <=? 127 then [v]
  else if v <=? 255 then [UINT_8; v]
  else if v <=? 2 ^ 16 - 1 then UINT_16 :: be_bytes 2 v
  else if v <=? 2 ^ 32 - 1 then UINT_32 :: be_bytes 4 v
  else UINT_64 :: be_bytes 8 v.

Ltac tf_case k n E :=
  let H := fresh "R" in
  destruct (try_from k n) eqn:E;
    [apply try_from_some in E; destruct E as [-> H]; unfold in_ikind in H; cbn [imin imax] in H
    |apply try_from_none in E; unfold in_ikind in E; cbn [imin imax] in E].
Ltac ifs := repeat match goal with |- context [if ?b then _ else _] =>
   first [ replace b with true by lia | replace b with false by lia ] end.

Lemma int_enc {E} k z : in_ikind k z ->
  emits (serialize_int (@VecWriter E) k z) (if is_signed k then enc_s z else enc_u z) (Ok tt).
Proof.
  intros R. unfold in_ikind in R.
  assert (Hu8 : forall z, 0 <= z < 256 -> as_u8 z = z) by (intros; unfold as_u8; lia).
  destruct k; cbn [serialize_int is_signed imin imax] in *;
    unfold serialize_i8, serialize_i16, serialize_i32, serialize_i64,
           serialize_u8, serialize_u16, serialize_u32, serialize_u64, write_u32,
           fixint_contains, MIN_NEGFIXINT, MAX_POSFIXINT, enc_s, enc_u.
  1-4: (match goal with |- context [if ?b then write_byte _ _ else _] => destruct b eqn:L end; [ifs; apply emits_wb|]).
  5-8: (match goal with |- context [if ?b then write_byte _ _ else _] => destruct b eqn:L end;
     [ifs; rewrite ?Hu8 by lia; apply emits_wb|]).
  all: repeat match goal with |- context [match try_from ?k ?v with _ => _ end] =>
         let EE := fresh "EE" in tf_case k v EE end.
  all: ifs; first [apply emits_wbw | apply emits_wbwb].
Qed.

Lemma be_bytes_mod_small n v : 0 <= v < 256 ^ Z.of_nat n -> be_bytes n (v mod 256 ^ Z.of_nat n) = be_bytes n v.
Proof. intros. rewrite Z.mod_small; auto. Qed.

Lemma int_to_vec cfg fl k z : in_ikind k z ->
  mp_to_vec cfg fl (SInt k z) = Ok (if is_signed k then enc_s z else enc_u z).
Proof. intros H. apply (to_vec_emits cfg fl (SInt k z) _ (Ok tt)). apply int_enc; auto. Qed.

Lemma int_same_bytes cfg fl cfg' fl' k1 k2 z : in_ikind k1 z -> in_ikind k2 z ->
  is_signed k1 = is_signed k2 \/ ~ mixed_range z ->
  mp_to_vec cfg fl (SInt k1 z) = mp_to_vec cfg' fl' (SInt k2 z).
Proof.
  intros H1 H2 H. rewrite !int_to_vec by auto.
  destruct H as [->|H]; [auto|]. f_equal.
  assert (HH : is_signed k1 = is_signed k2 \/
     (enc_s z = enc_u z)).
  { destruct (Bool.bool_dec (is_signed k1) (is_signed k2)) as [?|Hne]; [auto|right].
    assert (0 <= z < 2 ^ 63).
    { destruct k1, k2; cbn in Hne; try congruence; unfold in_ikind in *; cbn in *; lia. }
    unfold mixed_range in H. unfold enc_s, enc_u, as_u8.
    repeat match goal with |- context [if ?b then _ else _] => destruct b eqn:?; try lia end; auto.
    rewrite Z.mod_small by lia. auto. }
  destruct HH as [->|HH]; [auto|]. destruct (is_signed k1), (is_signed k2); congruence.
Qed.

Lemma int_encodes cfg fl k z : in_ikind k z ->
  exists out, mp_to_vec cfg fl (SInt k z) = Ok out /\ int_fmt z out /\
    forall b, int_fmt z b -> (length out <= length b)%nat.
Proof.
  intros H. destruct (@int_ok ser_error k z H) as (b & E1 & F & M). exists b. split; [|auto].
  apply (to_vec_emits cfg fl (SInt k z) _ (Ok tt)). exact E1.
Qed.

(** ** Element counts *)
Section Len.
Context {E : Type}.
Local Notation X := (mp_ser_error E).
Local Notation VW := (@VecWriter E).
Variables (cfg : mp_cfg) (fl : flavour).

Definition errw {A} (e : X) (m : SM bytes X A) : Prop := exists out, emits m out (Err e).
Definition okb {A} (m : SM bytes X A) (a : A) : Prop := exists out, emits m out (Ok a).
Definition ser_ok (m : SM bytes X unit) : Prop := okb m tt.

Lemma errw_bind1 {A B} e (m : SM bytes X A) (f : A -> SM bytes X B) : errw e m -> errw e (sbind m f).
Proof. intros (o & H). exists o. apply emits_bind_err; auto. Qed.
Lemma errw_bind2 {A B} e (m : SM bytes X A) (f : A -> SM bytes X B) a : okb m a -> errw e (f a) -> errw e (sbind m f).
Proof. intros (o & H) (o2 & H2). exists (o ++ o2). eapply emits_bind; eauto. Qed.
Lemma okb_bind {A B} (m : SM bytes X A) (f : A -> SM bytes X B) a b : okb m a -> okb (f a) b -> okb (sbind m f) b.
Proof. intros (o & H) (o2 & H2). exists (o ++ o2). eapply emits_bind; eauto. Qed.
Lemma okb_ret {A} (a : A) : okb (@sret bytes X A a) a.
Proof. exists []. apply emits_ret. Qed.
Lemma errw_fail {A} e : errw e (@sfail bytes X A e).
Proof. exists []. apply emits_fail. Qed.
Lemma okb_dec n e : 1 <= n -> okb (@checked_dec bytes E n e) (n - 1).
Proof. exists []. apply dec_ok; auto. Qed.
Lemma errw_dec n e : n < 1 -> errw e (@checked_dec bytes E n e).
Proof. exists []. apply dec_err; auto. Qed.

Lemma items_len (f : sval -> SM bytes X unit) l n : Forall (fun x => ser_ok (f x)) l -> 0 <= n ->
  if n <? zlen l then errw MSeqLength (ser_items f l n) else okb (ser_items f l n) (n - zlen l).
Proof.
  intros HF. revert n. induction HF as [|x l Hx Hl IH]; intros n Hn; cbn [ser_items].
  - change (zlen []) with 0. replace (n <? 0) with false by lia. rewrite Z.sub_0_r. apply okb_ret.
  - rewrite zlen_cons. pose proof (zlen_nonneg l). unfold seq_serialize_element.
    destruct (Z.lt_ge_cases n 1).
    + replace (n <? 1 + zlen l) with true by lia. apply errw_bind1, errw_bind1, errw_dec; auto.
    + specialize (IH (n - 1) ltac:(lia)).
      assert (S1 : okb (sbind (checked_dec n MSeqLength) (fun len => sbind (f x) (fun _ => sret len))) (n - 1)).
      { eapply okb_bind; [apply okb_dec; auto|]. eapply okb_bind; [exact Hx|apply okb_ret]. }
      replace (n <? 1 + zlen l) with (n - 1 <? zlen l) by lia.
      destruct (n - 1 <? zlen l).
      * eapply errw_bind2; eauto.
      * replace (n - (1 + zlen l)) with (n - 1 - zlen l) by lia. eapply okb_bind; eauto.
Qed.

Lemma array_len_case len : 0 <= len ->
  okb (write_array_len VW len) tt \/ errw MSeqLength (write_array_len VW len).
Proof.
  intros H. destruct (Z.lt_ge_cases len (2 ^ 32)).
  - left. destruct (@array_len_ok E len ltac:(lia)) as (h & E1 & _). exists h. auto.
  - right. exists []. apply array_len_err; auto.
Qed.
Lemma map_len_case len : 0 <= len ->
  okb (write_map_len VW len) tt \/ errw MMapLength (write_map_len VW len).
Proof.
  intros H. destruct (Z.lt_ge_cases len (2 ^ 32)).
  - left. destruct (@map_len_ok E len ltac:(lia)) as (h & E1 & _). exists h. auto.
  - right. exists []. apply map_len_err; auto.
Qed.

Lemma array_mismatch f l len : 0 <= len -> Forall (fun x => ser_ok (f x)) l -> len <> zlen l ->
  errw MSeqLength (sbind (sbind (write_array_len VW len) (fun _ => sret len))
    (fun n => sbind (ser_items f l n) (fun n => seq_end n))).
Proof.
  intros Hl HF Hne. destruct (array_len_case len Hl) as [H|H]; [|apply errw_bind1, errw_bind1; auto].
  eapply errw_bind2; [eapply okb_bind; [exact H|apply okb_ret]|].
  pose proof (items_len f l len HF Hl) as HI. destruct (len <? zlen l) eqn:L.
  - apply errw_bind1; auto.
  - eapply errw_bind2; [exact HI|]. unfold seq_end. replace (len - zlen l =? 0) with false by lia. apply errw_fail.
Qed.

Lemma entries_len (f : sval -> SM bytes X unit) l ps n : Forall (fun x => ser_ok (f (snd x))) l ->
  pair_up l = Some ps -> 0 <= n ->
  if n <? zlen ps then errw MMapLength (ser_entries f l n) else okb (ser_entries f l n) (n - zlen ps).
Proof.
  revert ps n. induction l as [l IH] using list_ind_strong. intros ps n HF HP Hn.
  destruct l as [|[[] k] l]; cbn in HP; try discriminate.
  { injection HP as <-. change (zlen []) with 0. replace (n <? 0) with false by lia. rewrite Z.sub_0_r. apply okb_ret. }
  destruct l as [|[[] v] l]; try discriminate.
  destruct (pair_up l) as [ps'|] eqn:PU; try discriminate. cbn [option_map] in HP. injection HP as <-.
  inversion HF as [|? ? Hk HF' ]; subst. inversion HF' as [|? ? Hv Hl]; subst. clear HF HF'. cbn [snd] in *.
  rewrite zlen_cons. pose proof (zlen_nonneg ps'). cbn [ser_entries].
  unfold map_serialize_key, map_serialize_value.
  destruct (Z.lt_ge_cases n 1).
  - replace (n <? 1 + zlen ps') with true by lia. apply errw_bind1, errw_bind1, errw_dec; auto.
  - specialize (IH l ltac:(cbn; lia) ps' (n - 1) Hl PU ltac:(lia)).
    assert (S1 : okb (sbind (checked_dec n MMapLength) (fun len => sbind (f k) (fun _ => sret len))) (n - 1)).
    { eapply okb_bind; [apply okb_dec; auto|]. eapply okb_bind; [exact Hk|apply okb_ret]. }
    assert (S2 : okb (sbind (f v) (fun _ => sret (n - 1))) (n - 1)).
    { eapply okb_bind; [exact Hv|apply okb_ret]. }
    replace (n <? 1 + zlen ps') with (n - 1 <? zlen ps') by lia.
    destruct (n - 1 <? zlen ps').
    + eapply errw_bind2; [exact S1|]. eapply errw_bind2; eauto.
    + replace (n - (1 + zlen ps')) with (n - 1 - zlen ps') by lia.
      eapply okb_bind; [exact S1|]. eapply okb_bind; eauto.
Qed.

Lemma map_mismatch f l ps len : 0 <= len -> Forall (fun x => ser_ok (f (snd x))) l -> pair_up l = Some ps ->
  len <> zlen ps ->
  errw MMapLength (sbind (sbind (write_map_len VW len) (fun _ => sret len))
    (fun n => sbind (ser_entries f l n) (fun n => map_end n))).
Proof.
  intros Hl HF HP Hne. destruct (map_len_case len Hl) as [H|H]; [|apply errw_bind1, errw_bind1; auto].
  eapply errw_bind2; [eapply okb_bind; [exact H|apply okb_ret]|].
  pose proof (entries_len f l ps len HF HP Hl) as HI. destruct (len <? zlen ps) eqn:L.
  - apply errw_bind1; auto.
  - eapply errw_bind2; [exact HI|]. unfold map_end. replace (len - zlen ps =? 0) with false by lia. apply errw_fail.
Qed.

Lemma present_cons k x fs :
  present ((k, x) :: fs) = (match x with Some _ => 1 | None => 0 end) + present fs.
Proof. unfold present. cbn. destruct x; rewrite ?zlen_cons; lia. Qed.

Definition fok (f : sval -> SM bytes X unit) (x : bytes * option sval) : Prop :=
  all_bytes (fst x) /\ zlen (fst x) < 2 ^ 32 /\ forall v, snd x = Some v -> ser_ok (f v).

Lemma fields_len_map (f : sval -> SM bytes X unit) l n i : fl <> Compact -> Forall (fok f) l ->
  0 <= n -> 0 <= i -> i + zlen l < 2 ^ 32 ->
  if n <? present l then errw MMapLength (ser_fields VW fl f l (n, i))
  else exists i', okb (ser_fields VW fl f l (n, i)) (n - present l, i').
Proof.
  intros Hfl HF. revert n i. induction HF as [|[k x] l (Hk & Hk2 & Hx) Hl IH]; intros n i Hn Hi Hb; cbn [ser_fields].
  - change (present []) with 0. replace (n <? 0) with false by lia. rewrite Z.sub_0_r. exists i. apply okb_ret.
  - rewrite zlen_cons in Hb. rewrite present_cons. cbn [fst snd] in *.
    assert (0 <= present l) by apply zlen_nonneg. pose proof (zlen_nonneg l).
    destruct x as [x|].
    + specialize (Hx x eq_refl).
      destruct (Z.lt_ge_cases n 1).
      * replace (n <? 1 + present l) with true by lia. apply errw_bind1.
        unfold struct_serialize_field. destruct fl; [congruence| |]; apply errw_bind1, errw_dec; auto.
      * assert (S1 : exists i', 0 <= i' /\ i' + zlen l < 2 ^ 32 /\ okb (struct_serialize_field VW fl k (f x) (n, i)) (n - 1, i')).
        { unfold struct_serialize_field. destruct fl; [congruence| |].
          - exists (i + 1). rewrite (Z.mod_small (i + 1)) by lia. split; [lia|]. split; [lia|].
            eapply okb_bind; [apply okb_dec; auto|].
            destruct (@int_ok E U32 i) as (b & Hb1 & _); [unfold in_ikind; cbn; lia|].
            eapply okb_bind; [exists b; exact Hb1|]. eapply okb_bind; [exact Hx|apply okb_ret].
          - exists i. split; [lia|]. split; [lia|]. eapply okb_bind; [apply okb_dec; auto|].
            pose proof (@good_str E k Hk) as G. unfold good, doc_str, lt32 in G. pose proof (zlen_nonneg k).
            replace (_ && _) with true in G by lia. destruct G as (o & G & _).
            eapply okb_bind; [exists o; exact G|]. eapply okb_bind; [exact Hx|apply okb_ret]. }
        destruct S1 as (i' & Hi' & Hb' & S1).
        specialize (IH (n - 1) i' ltac:(lia) Hi' Hb').
        replace (n <? 1 + present l) with (n - 1 <? present l) by lia.
        destruct (n - 1 <? present l).
        -- eapply errw_bind2; eauto.
        -- destruct IH as (i2 & IH). exists i2. replace (n - (1 + present l)) with (n - 1 - present l) by lia.
           eapply okb_bind; eauto.
    + assert (S1 : exists i', 0 <= i' /\ i' + zlen l < 2 ^ 32 /\ okb (@struct_skip_field bytes E fl (n, i)) (n, i')).
      { unfold struct_skip_field. destruct fl; [congruence| |].
        - exists (i + 1). split; [lia|]. split; [lia|]. rewrite Z.mod_small by lia. apply okb_ret.
        - exists i. split; [lia|]. split; [lia|]. apply okb_ret. }
      destruct S1 as (i' & Hi' & Hb' & S1). specialize (IH n i' Hn Hi' Hb').
      rewrite Z.add_0_l. destruct (n <? present l).
      * eapply errw_bind2; eauto.
      * destruct IH as (i2 & IH). exists i2. eapply okb_bind; eauto.
Qed.

Lemma struct_map_mismatch f l len : fl <> Compact -> 0 <= len -> zlen l < 2 ^ 32 -> Forall (fok f) l -> len <> present l ->
  errw MMapLength (sbind (inherent_serialize_struct VW fl len)
    (fun s => sbind (ser_fields VW fl f l s) (fun s => struct_end fl s))).
Proof.
  intros Hfl Hl Hn HF Hne.
  assert (EH : okb (inherent_serialize_struct VW fl len) (len, 0) \/ errw MMapLength (inherent_serialize_struct VW fl len)).
  { unfold inherent_serialize_struct. destruct fl; [congruence| |];
      (destruct (map_len_case len Hl) as [H|H];
       [left; eapply okb_bind; [exact H|apply okb_ret]|right; apply errw_bind1; auto]). }
  destruct EH as [EH|EH]; [|apply errw_bind1; auto].
  eapply errw_bind2; [exact EH|].
  pose proof (fields_len_map f l len 0 Hfl HF Hl ltac:(lia) ltac:(lia)) as HI.
  destruct (len <? present l) eqn:L; [apply errw_bind1; auto|].
  destruct HI as (i' & HI). eapply errw_bind2; [exact HI|]. unfold struct_end. cbn [fst].
  replace (len - present l =? 0) with false by lia. destruct fl; [congruence| |]; apply errw_fail.
Qed.

(** Compact structs: no field may be skipped while elements are still announced. *)
Lemma fields_len_array (f : sval -> SM bytes X unit) l n i : Forall (fok f) l -> 0 <= n ->
  (exists o r, emits (ser_fields VW Compact f l (n, i)) o r /\
    match r with
    | Ok s => fst s = n - present l /\ (n = present l -> skips_at_end l)
    | Err e => (e = MSeqLength /\ n < present l) \/
               (e = MFieldSkipped /\ (n = present l -> ~ skips_at_end l))
    end).
Proof.
  intros HF. revert n i. induction HF as [|[k x] l (Hk & Hk2 & Hx) Hl IH]; intros n i Hn; cbn [ser_fields].
  - exists [], (Ok (n, i)). split; [apply emits_ret|]. cbn. change (present []) with 0. split; [lia|auto].
  - rewrite present_cons. cbn [fst snd skips_at_end] in *. assert (0 <= present l) by apply zlen_nonneg.
    destruct x as [x|]; unfold struct_serialize_field, struct_skip_field.
    + destruct (Hx x eq_refl) as (o1 & E1).
      destruct (Z.lt_ge_cases n 1).
      * exists [], (Err MSeqLength). split; [apply emits_bind_err, emits_bind_err, dec_err; auto|]. left. split; [auto|lia].
      * destruct (IH (n - 1) i ltac:(lia)) as (o2 & r & E2 & H2). exists (o1 ++ o2), r. split.
        -- eapply emits_bind; [|exact E2]. rewrite <- (app_nil_l o1), <- (app_nil_r o1).
           eapply emits_bind; [apply dec_ok; auto|]. eapply emits_bind; [exact E1|apply emits_ret].
        -- destruct r as [s|e].
           ++ destruct H2 as [H2 H3]. split; [lia|]. intros. apply H3. lia.
           ++ destruct H2 as [[-> H2]|[-> H2]]; [left|right]; (split; [auto|]); [lia|]. intros. apply H2. lia.
    + destruct (n =? 0) eqn:L.
      * destruct (IH n i Hn) as (o2 & r & E2 & H2). exists o2, r. split.
        -- rewrite <- (app_nil_l o2). eapply emits_bind; [apply emits_ret|exact E2].
        -- destruct r as [s|e].
           ++ destruct H2 as [H2 H3]. split; [lia|]. lia.
           ++ destruct H2 as [[-> H2]|[-> H2]]; [left|right]; (split; [auto|]); [lia|]. intros H4 _.
              apply H2; [lia|]. assert (Hp : present l = 0) by lia. clear - Hp.
              induction l as [|[k' [x'|]] l IH]; cbn [skips_at_end]; [auto| |];
                rewrite present_cons in Hp; assert (0 <= present l) by apply zlen_nonneg; lia.
      * exists [], (Err MFieldSkipped). split; [apply emits_bind_err, emits_fail|]. right. split; [auto|].
        intros H1 H2. lia.
Qed.

Lemma struct_array_mismatch f l len : fl = Compact -> 0 <= len -> Forall (fok f) l ->
  (len <> present l -> errw MSeqLength (sbind (inherent_serialize_struct VW fl len)
      (fun s => sbind (ser_fields VW fl f l s) (fun s => struct_end fl s))) \/
    errw MFieldSkipped (sbind (inherent_serialize_struct VW fl len)
      (fun s => sbind (ser_fields VW fl f l s) (fun s => struct_end fl s)))) /\
  (len = present l -> len < 2 ^ 32 -> ~ skips_at_end l ->
    errw MFieldSkipped (sbind (inherent_serialize_struct VW fl len)
      (fun s => sbind (ser_fields VW fl f l s) (fun s => struct_end fl s)))).
Proof.
  intros -> Hl HF. unfold inherent_serialize_struct.
  destruct (fields_len_array f l len 0 HF Hl) as (o & r & E2 & H2).
  assert (EH : okb (write_array_len VW len) tt -> okb (sbind (write_array_len VW len) (fun _ => @sret bytes X _ (len, 0))) (len, 0)).
  { intros H. eapply okb_bind; [exact H|apply okb_ret]. }
  split.
  - intros Hne. destruct (array_len_case len Hl) as [H|H]; [|left; apply errw_bind1, errw_bind1; auto].
    specialize (EH H). destruct r as [s|e].
    + left. eapply errw_bind2; [exact EH|]. eapply errw_bind2; [exists o; exact E2|].
      unfold struct_end. replace (fst s =? 0) with false by lia. apply errw_fail.
    + destruct H2 as [[-> _]|[-> _]]; [left|right]; (eapply errw_bind2; [exact EH|]); apply errw_bind1; exists o; auto.
  - intros He Hlt Hs. destruct (array_len_case len Hl) as [H|H].
    + specialize (EH H). eapply errw_bind2; [exact EH|]. apply errw_bind1. exists o.
      destruct r as [s|e]; [tauto|]. destruct H2 as [[-> H2]|[-> H2]]; [lia|auto].
    + exfalso. destruct (@array_len_ok E len ltac:(lia)) as (h & E1 & _). destruct H as [o' H].
      specialize (E1 []). specialize (H []). rewrite E1 in H. discriminate.
Qed.
End Len.

Lemma to_vec_errw cfg fl v e : errw e (mp_ser VecWriter cfg fl v) -> mp_to_vec cfg fl v = Err e.
Proof. intros (o & H). apply (to_vec_emits _ _ _ _ _ H). Qed.

Lemma to_vec_ser_ok cfg fl v out : sval_ok v -> 2 ^ 32 - 1 <= cfg_usize_max cfg ->
  mp_to_vec cfg fl v = Ok out -> @ser_ok ser_error (mp_ser VecWriter cfg fl v).
Proof.
  intros Hv Hc H. pose proof (@mp_ser_good ser_error cfg fl v Hv Hc) as G. unfold good in G.
  destruct (mp_doc _ v) as [m|].
  - destruct G as (o & G & _). exists o. exact G.
  - destruct G as (o & e & G). rewrite (to_vec_emits _ _ _ _ _ G) in H. discriminate.
Qed.

Lemma serializes_ok cfg fl v : 2 ^ 32 - 1 <= cfg_usize_max cfg -> serializes cfg fl v ->
  @ser_ok ser_error (mp_ser VecWriter cfg fl v).
Proof. intros Hc [Hv [out H]]. eapply to_vec_ser_ok; eauto. Qed.

Lemma seq_mismatch cfg fl len l : 2 ^ 32 - 1 <= cfg_usize_max cfg -> 0 <= len ->
  Forall (serializes cfg fl) l -> len <> zlen l ->
  mp_to_vec cfg fl (SSeq (Some len) l) = Err MSeqLength /\
  mp_to_vec cfg fl (STuple len l) = Err MSeqLength /\
  mp_to_vec cfg fl (STupleStruct len l) = Err MSeqLength /\
  forall i n, is_u32 i -> valid_utf8 n -> zlen n < 2 ^ 32 ->
    mp_to_vec cfg fl (STupleVariant i n len l) = Err MSeqLength.
Proof.
  intros Hc Hl HF Hne.
  assert (F : Forall (fun x => @ser_ok ser_error (mp_ser VecWriter cfg fl x)) l).
  { eapply Forall_impl; [|exact HF]. intros; apply serializes_ok; auto. }
  pose proof (array_mismatch (mp_ser VecWriter cfg fl) l len Hl F Hne) as H.
  repeat split.
  - apply to_vec_errw. exact H.
  - apply to_vec_errw. exact H.
  - apply to_vec_errw. exact H.
  - intros i n Hi Hn Hz. apply to_vec_errw. cbn [mp_ser]. unfold serialize_tuple_variant.
    pose proof (@good_variant ser_error fl i n Hi (valid_utf8_bytes n Hn)) as G.
    assert (exists m, doc_variant (style_of fl) i n = Some m) as [m Em].
    { unfold doc_variant, doc_str, lt32. pose proof (zlen_nonneg n). replace (_ && _) with true by lia. destruct fl; cbn; eauto. }
    rewrite Em in G. destruct G as (o & G & _). destruct H as (o2 & H).
    exists (([Z.lor FIXMAP 1] ++ o) ++ o2). intros w. specialize (H ((w ++ [Z.lor FIXMAP 1]) ++ o)).
    unfold sbind in *. cbn [write_byte slift sw_write_byte VecWriter SerWrite_default sw_write]. unfold write_byte, slift. cbn.
    change (Z.lor FIXMAP 1) with 129 in *. rewrite G. unfold serialize_tuple, sbind. rewrite <- !app_assoc in *. rewrite H. auto.
Qed.

Lemma map_len_mismatch cfg fl len ops ps : 2 ^ 32 - 1 <= cfg_usize_max cfg -> 0 <= len ->
  Forall (fun o => serializes cfg fl (snd o)) ops -> pair_up ops = Some ps -> len <> zlen ps ->
  mp_to_vec cfg fl (SMap (Some len) ops) = Err MMapLength.
Proof.
  intros Hc Hl HF HP Hne. apply to_vec_errw. cbn [mp_ser serialize_map].
  apply (map_mismatch (mp_ser VecWriter cfg fl) ops ps len Hl); auto.
  eapply Forall_impl; [|exact HF]. intros a Ha. apply serializes_ok; auto.
Qed.

Lemma field_ok_fok cfg fl l : 2 ^ 32 - 1 <= cfg_usize_max cfg -> Forall (field_ok cfg fl) l ->
  Forall (@fok ser_error (mp_ser VecWriter cfg fl)) l.
Proof.
  intros Hc HF. eapply Forall_impl; [|exact HF]. intros [k x] (H1 & H2 & H3). split; [apply valid_utf8_bytes; auto|].
  split; [auto|]. intros v Hv. apply serializes_ok; auto.
Qed.

Lemma struct_mismatch cfg fl len fs : 2 ^ 32 - 1 <= cfg_usize_max cfg -> 0 <= len -> zlen fs < 2 ^ 32 ->
  Forall (field_ok cfg fl) fs -> len <> present fs ->
  match fl with
  | Compact => mp_to_vec cfg fl (SStruct len fs) = Err MSeqLength \/ mp_to_vec cfg fl (SStruct len fs) = Err MFieldSkipped
  | _ => mp_to_vec cfg fl (SStruct len fs) = Err MMapLength
  end.
Proof.
  intros Hc Hl Hn HF Hne. apply field_ok_fok in HF; [|auto].
  destruct fl.
  - destruct (struct_array_mismatch Compact (mp_ser VecWriter cfg Compact) fs len eq_refl Hl HF) as [H _].
    destruct (H Hne); [left|right]; apply to_vec_errw; auto.
  - apply to_vec_errw. apply struct_map_mismatch; auto. discriminate.
  - apply to_vec_errw. apply struct_map_mismatch; auto. discriminate.
Qed.

Lemma compact_skip cfg fs : 2 ^ 32 - 1 <= cfg_usize_max cfg -> zlen fs < 2 ^ 32 ->
  Forall (field_ok cfg Compact) fs -> ~ skips_at_end fs ->
  mp_to_vec cfg Compact (SStruct (present fs) fs) = Err MFieldSkipped.
Proof.
  intros Hc Hn HF Hs. apply field_ok_fok in HF; [|auto]. apply to_vec_errw.
  assert (Hp : 0 <= present fs <= zlen fs).
  { unfold present, zlen. clear. induction fs as [|[k [x|]] fs IH]; cbn [filter length snd]; lia. }
  destruct (struct_array_mismatch Compact (mp_ser VecWriter cfg Compact) fs (present fs) eq_refl ltac:(lia) HF) as [_ H].
  apply H; auto. lia.
Qed.

(** ** collect_str without alloc *)
Lemma collect_same_as_str cfg fl p1 p2 t : cfg_alloc cfg = false -> zlen t <= cfg_usize_max cfg ->
  fmt_propagates p1 -> fmt_text p1 = Some t -> fmt_text p2 = Some t ->
  mp_to_vec cfg fl (SCollect p1 p2) = mp_to_vec cfg fl (SStr t).
Proof.
  intros Ha Hz Hp H1 H2. unfold mp_to_vec, mp_to_writer. cbn [mp_ser].
  unfold collect_str, serialize_str, write_str. rewrite Ha.
  pose proof (counter_run cfg p1 Hp 0) as HC. rewrite H1 in HC.
  replace (0 + zlen t <=? cfg_usize_max cfg) with true in HC by lia. rewrite HC. rewrite Z.add_0_l.
  unfold sbind. destruct (write_str_len VecWriter (zlen t) []) as [w [[]|e]]; [|auto].
  rewrite (pass2_ok p2 t H2). rewrite (emits_ws t). auto.
Qed.

Lemma collect_growing {W E} (SW : SerWrite W E) cfg fl p1 p2 t1 t2 w : cfg_alloc cfg = false ->
  0 <= cfg_usize_max cfg -> fmt_propagates p1 -> fmt_propagates p2 ->
  fmt_text p1 = Some t1 -> fmt_text p2 = Some t2 -> zlen t1 < zlen t2 ->
  exists e, snd (mp_to_writer SW cfg fl w (SCollect p1 p2)) = Err e.
Proof.
  intros Ha Hu Hp1 Hp2 H1 H2 Hlt. unfold mp_to_writer. cbn [mp_ser]. unfold collect_str. rewrite Ha.
  pose proof (counter_run cfg p1 Hp1 0) as HC. rewrite H1 in HC.
  assert (R : forall t p len w, fmt_propagates p -> fmt_text p = Some t -> len < zlen t -> 0 <= len ->
     snd (run_fmt (collector_write_str SW) p (len, w)) = false).
  { clear. intros t p. revert t. induction p as [ok|c k1 IH k2 _]; intros t len w Hp Ht Hl H0; cbn [fmt_text] in Ht.
    - destruct ok; [|discriminate]. injection Ht as <-. change (zlen []) with 0 in Hl. lia.
    - destruct Hp as [-> Hp]. destruct (fmt_text k1) as [t'|]; [|discriminate]. cbn [option_map] in Ht. injection Ht as <-.
      cbn [run_fmt]. unfold collector_write_str at 1. destruct (len <? zlen c) eqn:L; [auto|].
      destruct (sw_write_str SW w c) as [w' [[]|e]]; [|auto].
      rewrite zlen_app in Hl. apply (IH t'); auto; lia. }
  destruct (0 + zlen t1 <=? cfg_usize_max cfg) eqn:L.
  - rewrite HC. unfold sbind. destruct (write_str_len SW (0 + zlen t1) w) as [w' [[]|e]]; [|eexists; reflexivity].
    unfold collect_pass2. pose proof (zlen_nonneg t1).
    specialize (R t2 p2 (0 + zlen t1) w' Hp2 H2 ltac:(lia) ltac:(lia)).
    destruct (run_fmt _ p2 _) as [[? ?] ok]. cbn in R. subst ok. eexists; reflexivity.
  - destruct HC as [->|HC]; [change (zlen []) with 0 in L; lia|].
    destruct (run_fmt (counter_write_str cfg) p1 0) as [n ok]. cbn in HC. subst ok. eexists; reflexivity.
Qed.

(** ** Where each field of a struct goes *)
Lemma omap_nth {A B} (f : A -> option B) l vs : omap f l = Some vs ->
  length vs = length l /\ forall i, nth_error vs i = match nth_error l i with Some x => f x | None => None end.
Proof.
  revert vs. induction l as [|x l IH]; intros vs; cbn [omap].
  - intros [= <-]. split; [auto|]. intros []; auto.
  - destruct (f x) eqn:F; [|discriminate]. destruct (omap f l); [|discriminate]. intros [= <-].
    destruct (IH l0 eq_refl) as [H1 H2]. split; [cbn; lia|]. intros [|i]; cbn; auto.
Qed.

Lemma doc_fields_array_spec {A} (fs : list (bytes * option A)) vs : doc_fields_array fs = Some vs ->
  forall i, match nth_error vs i with
            | Some v => exists n, nth_error fs i = Some (n, Some v)
            | None => forall n x, nth_error fs i = Some (n, x) -> x = None
            end.
Proof.
  revert vs. induction fs as [|[n [v|]] fs IH]; intros vs; cbn [doc_fields_array].
  - intros [= <-] [|i]; cbn; discriminate.
  - destruct (doc_fields_array fs) as [vs'|]; [|discriminate]. intros [= <-] [|i]; cbn [nth_error]; [eauto|].
    apply (IH vs' eq_refl).
  - destruct (forallb _ fs) eqn:F; [|discriminate]. intros [= <-] i.
    assert (G : forall n x, nth_error ((n, None) :: fs) i = Some (n, x) -> x = None) by (destruct i; cbn; [congruence|];
      intros ? ? H; apply nth_error_In in H; rewrite forallb_forall in F; apply F in H; cbn in H; destruct x; congruence).
    replace (nth_error [] i) with (@None A) by (destruct i; auto).
    intros n' x H. destruct i; cbn in *; [congruence|].
    apply nth_error_In in H; rewrite forallb_forall in F; apply F in H; cbn in H; destruct x; congruence.
Qed.

Lemma doc_fields_index_spec fs : forall b k v, In (k, v) (doc_fields_index b fs) <->
  exists i n, nth_error fs i = Some (n, Some v) /\ k = VInt (b + Z.of_nat i).
Proof.
  induction fs as [|[n [x|]] fs IH]; intros b k v; cbn [doc_fields_index].
  - split; [intros []|]. intros ([|i] & n & H & _); discriminate.
  - cbn [In]. rewrite IH. split.
    + intros [[= <- <-]|(i & n' & H & ->)].
      * exists 0%nat, n. split; [auto|]. f_equal. lia.
      * exists (S i), n'. split; [auto|]. f_equal. lia.
    + intros ([|i] & n' & H & ->); cbn in H.
      * left. injection H as <- <-. f_equal. f_equal. lia.
      * right. exists i, n'. split; [auto|]. f_equal. lia.
  - rewrite IH. split.
    + intros (i & n' & H & ->). exists (S i), n'. split; [auto|]. f_equal. lia.
    + intros ([|i] & n' & H & ->); cbn in H; [discriminate|]. exists i, n'. split; [auto|]. f_equal. lia.
Qed.

Lemma doc_fields_name_spec fs kvs : doc_fields_name fs = Some kvs -> forall k v, In (k, v) kvs <->
  exists i n, nth_error fs i = Some (n, Some v) /\ k = VStr n.
Proof.
  revert kvs. induction fs as [|[n [x|]] fs IH]; intros kvs; cbn [doc_fields_name].
  - intros [= <-] k v. split; [intros []|]. intros ([|i] & n & H & _); discriminate.
  - destruct (doc_str n) as [k0|] eqn:D; [|discriminate].
    destruct (doc_fields_name fs) as [r|]; [|discriminate]. intros [= <-] k v. cbn [In]. rewrite (IH r eq_refl).
    assert (k0 = VStr n) by (unfold doc_str in D; destruct (lt32 _); congruence). subst k0. split.
    + intros [[= <- <-]|(i & n' & H & ->)]; [exists 0%nat, n; auto|exists (S i), n'; auto].
    + intros ([|i] & n' & H & ->); cbn in H; [left; congruence|right; exists i, n'; auto].
  - intros H k v. rewrite (IH kvs H). split.
    + intros (i & n' & H' & ->). exists (S i), n'; auto.
    + intros ([|i] & n' & H' & ->); cbn in H'; [discriminate|]. exists i, n'; auto.
Qed.

Lemma struct_fields_placed cfg fl len fs out :
  sval_ok (SStruct len fs) -> 2 ^ 32 - 1 <= cfg_usize_max cfg ->
  mp_to_vec cfg fl (SStruct len fs) = Ok out ->
  match fl with
  | Compact => exists vs, mp_fmt (VArr vs) out /\ zlen vs = present fs /\
      forall i, match nth_error vs i with
                | Some v => exists n x, nth_error fs i = Some (n, Some x) /\ mp_doc SArray x = Some v
                | None => forall n x, nth_error fs i = Some (n, x) -> x = None
                end
  | StructMapIdx => exists kvs, mp_fmt (VMap kvs) out /\ zlen kvs = present fs /\
      forall k v, In (k, v) kvs <->
        exists i n x, nth_error fs i = Some (n, Some x) /\ mp_doc SIndexMap x = Some v /\ k = VInt (Z.of_nat i)
  | StructMapStr => exists kvs, mp_fmt (VMap kvs) out /\ zlen kvs = present fs /\
      forall k v, In (k, v) kvs <->
        exists i n x, nth_error fs i = Some (n, Some x) /\ mp_doc SNameMap x = Some v /\ k = VStr n
  end.
Proof.
  intros Hv Hc H. destruct (to_vec_ok_documented cfg fl _ out Hv Hc H) as (m & D & F). cbn [mp_doc] in D.
  set (st := style_of fl) in *.
  destruct (omap _ fs) as [ds|] eqn:O; [|discriminate].
  destruct (omap_nth _ _ _ O) as [_ N].
  assert (NV : forall i n v, nth_error ds i = Some (n, Some v) <->
     exists x, nth_error fs i = Some (n, Some x) /\ mp_doc st x = Some v).
  { intros i n v. rewrite N. destruct (nth_error fs i) as [[n' [x|]]|]; cbn [fst snd].
    - destruct (mp_doc st x) eqn:Dx; cbn; split.
      + intros [= <- <-]. eauto.
      + intros (x' & [= <- <-] & E). congruence.
      + discriminate.
      + intros (x' & [= <- <-] & E). congruence.
    - split; [discriminate|]. intros (x' & [=] & _).
    - split; [discriminate|]. intros (x' & [=] & _). }
  assert (NN : forall i n, nth_error fs i = Some (n, None) <-> nth_error ds i = Some (n, None)).
  { intros i n. rewrite N. destruct (nth_error fs i) as [[n' [x|]]|]; cbn [fst snd]; [|split; congruence|split; congruence].
    destruct (mp_doc st x); cbn; split; congruence. }
  assert (P : present fs = zlen (filter (fun f => match snd f with Some _ => true | None => false end) ds)).
  { clear - O. unfold present. revert ds O. induction fs as [|[n [x|]] fs IH]; cbn [omap fst snd filter]; intros ds O.
    - injection O as <-. auto.
    - destruct (mp_doc st x); [|discriminate]. cbn [option_map] in O. destruct (omap _ fs); [|discriminate].
      injection O as <-. cbn [filter snd]. rewrite !zlen_cons, (IH l eq_refl). auto.
    - destruct (omap _ fs); [|discriminate]. injection O as <-. cbn [filter snd]. apply IH; auto. }
  rewrite P. clear P. subst st. destruct fl; cbn [style_of doc_struct doc_array doc_map] in *.
  - destruct (doc_fields_array ds) as [vs|] eqn:A; [|discriminate].
    unfold doc_array, doc_map in D; destruct (_ && _); [|discriminate]. injection D as <-. exists vs. split; [auto|]. split.
    + clear - A. revert vs A. induction ds as [|[n [v|]] ds IH]; intros vs; cbn [doc_fields_array filter snd].
      * intros [= <-]. auto.
      * destruct (doc_fields_array ds); [|discriminate]. intros [= <-]. rewrite !zlen_cons, (IH l eq_refl). auto.
      * destruct (forallb _ ds) eqn:FB; [|discriminate]. intros [= <-].
        clear IH. induction ds as [|[n' [v|]] ds IH]; cbn in *; [auto|discriminate|auto].
    + intros i. pose proof (doc_fields_array_spec ds vs A i) as S. destruct (nth_error vs i) as [v|].
      * destruct S as (n & S). apply NV in S. destruct S as (x & S1 & S2). eauto.
      * intros n [x|] Hx; [|auto]. rewrite N in S. rewrite Hx in S. cbn [fst snd] in S.
        destruct (mp_doc SArray x) as [v|] eqn:Dx.
        -- specialize (S n (Some v) eq_refl). discriminate.
        -- exfalso. specialize (N i). rewrite Hx in N. cbn [fst snd] in N. rewrite Dx in N. cbn in N.
           apply nth_error_None in N. destruct (omap_nth _ _ _ O) as [L _].
           assert (nth_error fs i <> None) by congruence. apply nth_error_Some in H0. lia.
  - unfold doc_array, doc_map in D; destruct (_ && _); [|discriminate]. injection D as <-. eexists. split; [exact F|]. split.
    + generalize 0. clear. induction ds as [|[n [v|]] ds IH]; intros b; cbn [doc_fields_index filter snd]; rewrite ?zlen_cons, ?IH; auto.
    + intros k v. rewrite doc_fields_index_spec. split.
      * intros (i & n & S & ->). apply NV in S. destruct S as (x & S1 & S2). exists i, n, x. auto.
      * intros (i & n & x & S1 & S2 & ->). exists i, n. split; [apply NV; eauto|auto].
  - destruct (doc_fields_name ds) as [kvs|] eqn:A; [|discriminate].
    unfold doc_array, doc_map in D; destruct (_ && _); [|discriminate]. injection D as <-. eexists. split; [exact F|]. split.
    + clear - A. revert kvs A. induction ds as [|[n [v|]] ds IH]; intros kvs; cbn [doc_fields_name filter snd].
      * intros [= <-]. auto.
      * destruct (doc_str n); [|discriminate]. destruct (doc_fields_name ds); [|discriminate]. intros [= <-].
        rewrite !zlen_cons, (IH l eq_refl). auto.
      * apply IH.
    + intros k v. rewrite (doc_fields_name_spec _ _ A). split.
      * intros (i & n & S & ->). apply NV in S. destruct S as (x & S1 & S2). exists i, n, x. auto.
      * intros (i & n & x & S1 & S2 & ->). exists i, n. split; [apply NV; eauto|auto].
Qed.

Lemma app_split2 {A} (x y : A) h s : h ++ s = [x; y] ->
  (h = [] /\ s = [x; y]) \/ (h = [x] /\ s = [y]) \/ (h = [x; y] /\ s = []).
Proof. destruct h as [|a [|b [|]]]; cbn; intros [=]; subst; auto. Qed.

Lemma shrinking_display : exists cfg fl p1 p2 out,
  cfg_alloc cfg = false /\ fmt_propagates p1 /\ fmt_propagates p2 /\
  mp_to_vec cfg fl (SCollect p1 p2) = Ok out /\ ~ exists m, mp_fmt m out.
Proof.
  exists {| cfg_alloc := false; cfg_usize_max := 2 ^ 64 - 1 |}, Compact,
    (FWrite [97;98] (FRet true) (FRet false)), (FWrite [97] (FRet true) (FRet false)), [0xa2; 97].
  do 4 (split; [cbn; auto|]). intros [m H].
  assert (A : forall h s : bytes, h ++ s = [0xa2; 97] -> str_hdr (zlen s) h \/ bin_hdr (zlen s) h -> False).
  { intros h s Hs. apply app_split2 in Hs. destruct Hs as [[-> ->]|[[-> ->]|[-> ->]]]; intros [X|X]; inversion X; subst;
    unfold zlen in *; cbn in *; lia. }
  assert (B : forall n (h s : bytes), h ++ s = [0xa2; 97] -> arr_hdr n h \/ map_hdr n h \/ ext_hdr n h -> False).
  { intros n h s Hs. apply app_split2 in Hs. destruct Hs as [[-> ->]|[[-> ->]|[-> ->]]]; intros [X|[X|X]]; inversion X; subst; repeat match goal with E : match ?n with _ => _ end = 162 |- _ => first [change (144 + n = 162) in E | change (128 + n = 162) in E] end; lia. }
  inversion H; subst; [inversion H0|..]; eauto.
Qed.

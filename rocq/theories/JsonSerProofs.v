(** What the JSON serializer outputs, against [JsonSpec]. *)
From Verif Require Import Prelude PreludeFacts Utf8Spec Utf8 Utf8Facts Writer SerMonad SerdeSer MpSerSim
  Base64Spec Base64 Base64Facts JsonSpec JsonFacts JsonSer.
Ltac Zify.zify_post_hook ::= Z.div_mod_to_equations.

(** ** Digits *)
Lemma dec_nat_step z : 0 <= z -> dec_nat z = if z <? 10 then [48 + z] else dec_nat (z / 10) ++ [48 + z mod 10].
Proof.
  intros Hz. destruct (dec_nat_spec z Hz) as [I V]. destruct (z <? 10) eqn:L.
  - apply int_part_inj; auto.
    + split; [split; [discriminate|constructor; [unfold is_digit; lia|constructor]]|].
      destruct (Z.eq_dec z 0) as [->|]; [left; auto|right; exists (48 + z), []; split; [auto|lia]].
    + rewrite V. unfold dec_val. cbn [fold_left]. lia.
  - destruct (dec_nat_spec (z / 10) ltac:(lia)) as [[[N F] H] V']. apply int_part_inj; auto.
    + split; [split; [destruct (dec_nat (z / 10)); discriminate|apply Forall_app; split; [auto|constructor; [unfold is_digit; lia|constructor]]]|].
      right. destruct H as [E|(d & r & -> & Hd)].
      * rewrite E in V'. unfold dec_val in V'. cbn in V'. lia.
      * exists d. eexists. cbn. split; [reflexivity|auto].
    + rewrite dec_val_app, V, V'. lia.
Qed.

Lemma dec_nat_length z k : 0 <= z < 10 ^ Z.of_nat k -> (0 < k)%nat -> (length (dec_nat z) <= k)%nat.
Proof.
  revert z. induction k as [|k IH]; intros z Hz Hk; [lia|]. rewrite dec_nat_step by lia. destruct (z <? 10) eqn:L; [cbn; lia|].
  rewrite app_length. cbn [length]. rewrite Nat2Z.inj_succ, Z.pow_succ_r in Hz by lia.
  assert (length (dec_nat (z / 10)) <= k)%nat; [|lia]. apply IH; [lia|]. destruct k; [cbn in Hz|]; lia.
Qed.

Lemma splice_none i T (d : option Z) : splice (repeat None (S i) ++ T) i [d] = repeat None i ++ d :: T.
Proof.
  unfold splice. cbn [length].
  assert (E : repeat (@None Z) (S i) = repeat None i ++ [None]) by (change (S i) with (1 + i)%nat; rewrite Nat.add_comm, repeat_app; auto).
  rewrite E, <- app_assoc. rewrite firstn_app, repeat_length, Nat.sub_diag. cbn [firstn]. rewrite app_nil_r.
  rewrite firstn_all2 by (rewrite repeat_length; lia). f_equal. cbn. f_equal.
  rewrite skipn_app, repeat_length. replace (i + 1 - i)%nat with 1%nat by lia.
  rewrite skipn_all2 by (rewrite repeat_length; lia). auto.
Qed.

Lemma scratch_write_ok i T d : scratch_write (repeat None (S i) ++ T) i d = Some (repeat None i ++ Some d :: T).
Proof.
  unfold scratch_write. rewrite app_length, repeat_length. replace (i <? S i + length T)%nat with true by lia.
  rewrite splice_none. auto.
Qed.

Lemma assume_init_some l : assume_init (map Some l) = Some l.
Proof. induction l as [|b l IH]; cbn; [auto|]. rewrite IH. auto. Qed.
Lemma scratch_from_ok k l : scratch_from (repeat None k ++ map Some l) k = Some l.
Proof.
  unfold scratch_from. rewrite app_length, repeat_length. rewrite (proj2 (Nat.leb_le k _)) by lia.
  rewrite skipn_app, repeat_length, Nat.sub_diag. rewrite skipn_all2 by (rewrite repeat_length; lia). apply assume_init_some.
Qed.

Lemma unsigned_loop_ok i : forall v ts, 0 <= v < 10 ^ Z.of_nat (S i) ->
  exists k, unsigned_loop (repeat None (S i) ++ map Some ts) i v = Some (repeat None k ++ map Some (dec_nat v ++ ts), k).
Proof.
  induction i as [|i IH]; intros v ts Hv; cbn [unsigned_loop]; rewrite scratch_write_ok; rewrite dec_nat_step by lia.
  - cbn in Hv. replace (v / 10 =? 0) with true by lia. replace (v <? 10) with true by lia.
    exists 0%nat. cbn [repeat app map]. replace (v mod 10 + 48) with (48 + v) by lia. reflexivity.
  - destruct (v <? 10) eqn:L.
    + replace (v / 10 =? 0) with true by lia. exists (S i). cbn [app map]. replace (v mod 10 + 48) with (48 + v) by lia. reflexivity.
    + replace (v / 10 =? 0) with false by lia. rewrite Nat2Z.inj_succ, Z.pow_succ_r in Hv by lia.
      destruct (IH (v / 10) (48 + v mod 10 :: ts)) as [k Hk]; [lia|]. exists k.
      cbn [map] in Hk. rewrite (Z.add_comm (v mod 10)), Hk. rewrite <- app_assoc. auto.
Qed.

Lemma unsigned_digits_ok N v : 0 <= v < 10 ^ Z.of_nat N -> (0 < N)%nat -> unsigned_digits N v = Some (dec_nat v).
Proof.
  intros Hv HN. destruct N as [|i]; [lia|]. unfold unsigned_digits. replace (S i - 1)%nat with i by lia.
  destruct (unsigned_loop_ok i v [] Hv) as [k Hk]. cbn [map] in Hk. rewrite app_nil_r in Hk. rewrite Hk.
  rewrite app_nil_r. apply scratch_from_ok.
Qed.

Lemma signed_loop_ok i : forall v ts, 0 <= v < 10 ^ Z.of_nat i -> (0 < i)%nat ->
  exists k, signed_loop (repeat None (S i) ++ map Some ts) i v = Some (repeat None (S k) ++ map Some (dec_nat v ++ ts), k).
Proof.
  induction i as [|i IH]; intros v ts Hv Hi; [lia|]. cbn [signed_loop]. rewrite scratch_write_ok. rewrite dec_nat_step by lia.
  destruct (v <? 10) eqn:L.
  - replace (v / 10 =? 0) with true by lia. exists i. cbn [app map]. replace (v mod 10 + 48) with (48 + v) by lia. reflexivity.
  - replace (v / 10 =? 0) with false by lia. rewrite Nat2Z.inj_succ, Z.pow_succ_r in Hv by lia.
    destruct (IH (v / 10) (48 + v mod 10 :: ts)) as [k Hk]; [lia|destruct i; [cbn in Hv|]; lia|]. exists k.
    cbn [map] in Hk. rewrite (Z.add_comm (v mod 10)), Hk. rewrite <- app_assoc. auto.
Qed.

Lemma signed_digits_ok N min max v : - min = max + 1 -> 0 <= max -> min <= v <= max ->
  max + 1 < 10 ^ Z.of_nat (N - 1) -> (1 < N)%nat ->
  signed_digits N min max v = Some (dec_text v).
Proof.
  intros Hm H0 Hv Hb HN. unfold signed_digits.
  assert (E : (if v =? min then (true, max + 1) else if v <? 0 then (true, - v) else (false, v)) = (v <? 0, Z.abs v)).
  { destruct (v =? min) eqn:?, (v <? 0) eqn:?; f_equal; lia. }
  rewrite E. destruct N as [|i]; [lia|]. replace (S i - 1)%nat with i in * by lia.
  destruct (signed_loop_ok i (Z.abs v) [] ltac:(lia) ltac:(lia)) as [k Hk]. cbn [map] in Hk.
  rewrite !app_nil_r in Hk. rewrite Hk. unfold dec_text. destruct (v <? 0) eqn:S.
  - rewrite scratch_write_ok. rewrite Z.abs_neq by lia. apply (scratch_from_ok k (45 :: dec_nat (- v))).
  - rewrite Nat.add_1_r. rewrite Z.abs_eq by lia. apply scratch_from_ok.
Qed.

Lemma int_digits k z : in_ikind k z ->
  match k with I8 | I16 | I32 => signed_digits 11 (imin I32) (imax I32) z = Some (dec_text z) | _ => True end /\
  match k with I64 => signed_digits 20 (imin I64) (imax I64) z = Some (dec_text z) | _ => True end /\
  match k with U8 | U16 | U32 => unsigned_digits 10 z = Some (dec_text z) | _ => True end /\
  match k with U64 => unsigned_digits 20 z = Some (dec_text z) | _ => True end.
Proof.
  intros H. unfold in_ikind in H.
  assert (P10 : 10 ^ Z.of_nat 10 = 10000000000) by reflexivity.
  assert (P19 : 10 ^ Z.of_nat 19 = 10000000000000000000) by reflexivity.
  assert (P20 : 10 ^ Z.of_nat 20 = 100000000000000000000) by reflexivity.
  assert (U : forall N, 0 <= z < 10 ^ Z.of_nat N -> (0 < N)%nat -> unsigned_digits N z = Some (dec_text z)).
  { intros N Hz HN. rewrite unsigned_digits_ok by auto. unfold dec_text. rewrite (proj2 (Z.ltb_ge z 0)) by lia. auto. }
  assert (S32 : - 2147483648 <= z <= 2147483647 -> signed_digits 11 (imin I32) (imax I32) z = Some (dec_text z)).
  { intros Hz. apply signed_digits_ok; change (imin I32) with (-2147483648); change (imax I32) with 2147483647; try lia.
    change (11 - 1)%nat with 10%nat. rewrite P10. lia. }
  assert (S64 : - 9223372036854775808 <= z <= 9223372036854775807 -> signed_digits 20 (imin I64) (imax I64) z = Some (dec_text z)).
  { intros Hz. apply signed_digits_ok; change (imin I64) with (-9223372036854775808);
      change (imax I64) with 9223372036854775807; try lia.
    change (20 - 1)%nat with 19%nat. rewrite P19. lia. }
  clear P19. destruct k; cbn [imin imax] in H; (split; [|split; [|split]]); auto.
  all: match goal with
    | |- signed_digits 11 _ _ _ = _ => apply S32; clear - H; lia
    | |- signed_digits 20 _ _ _ = _ => apply S64; clear - H; lia
    | |- unsigned_digits 10 _ = _ => apply U; [rewrite P10; clear - H; lia|lia]
    | |- unsigned_digits 20 _ = _ => apply U; [rewrite P20; clear - H; lia|lia]
    end.
Qed.

(** ** Output of the primitives on the list writer *)
Section P.
Context {E : Type}.
Local Notation X := (js_ser_error E).
Local Notation VW := (@VecWriter E).

(** On the list writer: [m] appends [out] and returns [r]. *)
Definition gives {A} (m : SM bytes X A) (out : bytes) (r : result A X) : Prop :=
  forall w, m w = (w ++ out, r).

Lemma gives_ret {A} (a : A) : gives (sret a) [] (Ok a).
Proof. intros w. rewrite app_nil_r. auto. Qed.
Lemma gives_fail {A} e : gives (@sfail bytes X A e) [] (Err e).
Proof. intros w. rewrite app_nil_r. auto. Qed.
Lemma gives_bind {A B} (m : SM bytes X A) (f : A -> SM bytes X B) o1 a o2 r :
  gives m o1 (Ok a) -> gives (f a) o2 r -> gives (sbind m f) (o1 ++ o2) r.
Proof. intros H1 H2 w. unfold sbind. rewrite H1, H2, app_assoc. auto. Qed.
Lemma gives_bind_err {A B} (m : SM bytes X A) (f : A -> SM bytes X B) o1 e :
  gives m o1 (Err e) -> gives (sbind m f) o1 (Err e).
Proof. intros H1 w. unfold sbind. rewrite H1. auto. Qed.
Lemma gives_w bs : gives (js_write VW bs) bs (Ok tt).
Proof. intros w. reflexivity. Qed.
Lemma gives_wb b : gives (js_write_byte VW b) [b] (Ok tt).
Proof. intros w. reflexivity. Qed.
Lemma gives_ws bs : gives (js_write_str VW bs) bs (Ok tt).
Proof. intros w. reflexivity. Qed.
Lemma gives_eq {A} (m : SM bytes X A) o o' r : gives m o r -> o = o' -> gives m o' r.
Proof. intros H <-. auto. Qed.
(** Sequencing with a last step that returns what is wanted. *)
Lemma gives_then {A B} (m : SM bytes X A) (f : A -> SM bytes X B) o1 a o2 o r :
  gives m o1 (Ok a) -> gives (f a) o2 r -> o = o1 ++ o2 -> gives (sbind m f) o r.
Proof. intros H1 H2 ->. eapply gives_bind; eauto. Qed.
Lemma gives_unwrap_write (o : option bytes) s : o = Some s ->
  gives (sbind (js_unwrap o) (fun s => js_write VW s)) s (Ok tt).
Proof. intros -> w. reflexivity. Qed.

Lemma gives_int k z : in_ikind k z -> gives (js_int VW k z) (dec_text z) (Ok tt).
Proof.
  intros H. destruct (int_digits k z H) as (A & B & C & D).
  destruct k; cbn [js_int]; unfold js_i32, js_i64, js_u32, js_u64; apply gives_unwrap_write; auto.
Qed.

Lemma hex_spec b : is_byte b -> hex b = [hex_upper (b / 16); hex_upper (b mod 16)].
Proof.
  intros H. unfold hex, hex_4bit, hex_upper, is_byte in *.
  rewrite Z.shiftr_div_pow2 by lia. change (2 ^ 4) with 16.
  rewrite (land_ones_mod b 4 0x0F) by (reflexivity || lia). change (2 ^ 4) with 16.
  destruct (b / 16 <=? 9) eqn:?, (b / 16 <? 10) eqn:?, (b mod 16 <=? 9) eqn:?, (b mod 16 <? 10) eqn:?; try lia;
    repeat match goal with |- ?a :: _ = ?b :: _ => replace a with b by lia; f_equal end.
Qed.

Lemma gives_hex v : all_bytes v -> gives (serialize_bytes_as_hex_str VW v) (hex_text v) (Ok tt).
Proof.
  induction 1 as [|b l Hb Hl IH]; cbn [serialize_bytes_as_hex_str]; [apply gives_ret|].
  eapply gives_then; [apply gives_w|exact IH|]. rewrite hex_spec by auto. auto.
Qed.

Lemma gives_base64 v : all_bytes v -> gives (js_base64 VW v) (b64_text v) (Ok tt).
Proof. intros H w. unfold js_base64. rewrite encode_vec by auto. auto. Qed.

(** ** Escaping *)
Lemma boundary_at done rest : valid_utf8 rest -> is_char_boundary (done ++ rest) (length done) = true.
Proof.
  intros V. unfold is_char_boundary. destruct (length done =? 0)%nat eqn:Z0; [auto|].
  rewrite app_length. destruct rest as [|b rest].
  - cbn [length]. rewrite Nat.add_0_r. replace (length done <=? length done)%nat with true by lia. lia.
  - cbn [length]. replace (length done + S (length rest) <=? length done)%nat with false by lia.
    rewrite app_nth2, Nat.sub_diag by lia. cbn [nth]. destruct (utf8_first b rest V); lia.
Qed.

Lemma slice_middle {A} (a b c : list A) : slice (a ++ b ++ c) (length a) (length b) = b.
Proof.
  unfold slice. rewrite skipn_app, Nat.sub_diag, skipn_all. cbn [app skipn].
  rewrite firstn_app, Nat.sub_diag, firstn_all. cbn [firstn]. apply app_nil_r.
Qed.

Lemma str_slice_ok done pend rest : valid_utf8 (pend ++ rest) -> valid_utf8 rest ->
  str_slice (done ++ pend ++ rest) (length done) (length done + length pend) = Some pend.
Proof.
  intros V1 V2. unfold str_slice. rewrite boundary_at by auto.
  assert (B : is_char_boundary (done ++ pend ++ rest) (length done + length pend) = true).
  { rewrite app_assoc, <- app_length. apply boundary_at; auto. }
  rewrite B. replace (length done <=? length done + length pend)%nat with true by lia. cbn.
  replace (length done + length pend - length done)%nat with (length pend) by lia. rewrite slice_middle. auto.
Qed.

(** A byte the loop passes over. *)
Definition kept (b : Z) : Prop := 32 <= b /\ b <> 34 /\ b <> 92.
Lemma esc_kept l : Forall kept l -> esc_text l = l.
Proof.
  induction 1 as [|b l Hb Hl IH]; [auto|]. unfold esc_text. cbn [flat_map]. fold (esc_text l). rewrite IH.
  unfold kept in Hb. unfold esc_byte. replace (b <? 32) with false by lia. replace (b =? 34) with false by lia.
  replace (b =? 92) with false by lia. auto.
Qed.

Lemma escape_code b : is_byte b ->
  match (if b <=? 0x1F then Some (nth (Z.to_nat b) ESCAPE 0) else if (b =? QU) || (b =? BS) then Some b else None) with
  | None => kept b
  | Some e => b < 128 /\ esc_byte b = if e =? UU then [92; 117; 48; 48] ++ hex b else [92; e]
  end.
Proof.
  intros H. pose proof (hex_spec b H) as Hh. unfold is_byte in H. destruct (b <=? 0x1F) eqn:L.
  - split; [lia|]. rewrite Hh. clear Hh.
    pose (chk := fun b => if list_eq_dec Z.eq_dec (esc_byte b)
       (if nth (Z.to_nat b) ESCAPE 0 =? UU then [92; 117; 48; 48] ++ [hex_upper (b / 16); hex_upper (b mod 16)] else [92; nth (Z.to_nat b) ESCAPE 0])
       then true else false).
    assert (C : chk b = true) by (apply (zrange_forall chk 32); [vm_compute; reflexivity|lia]).
    unfold chk in C. destruct (list_eq_dec _ _ _) as [C1|]; [exact C1|discriminate].
  - unfold QU, BS, UU, esc_byte, kept in *. destruct (b =? 34) eqn:?, (b =? 92) eqn:?; cbn [orb]; try lia.
    + replace b with 34 by lia. cbn. split; [lia|auto].
    + replace b with 92 by lia. cbn. split; [lia|auto].
Qed.

Lemma gives_escape_loop rest : forall done pend, valid_utf8 (pend ++ rest) -> Forall kept pend ->
  gives (escape_loop VW (done ++ pend ++ rest) rest (length done + length pend) (length done)) (esc_text (pend ++ rest)) (Ok tt).
Proof.
  induction rest as [|b rest IH]; intros done pend V K; cbn [escape_loop].
  - rewrite app_nil_r in *. rewrite esc_kept by auto. rewrite app_length.
    destruct (length done =? length done + length pend)%nat eqn:L.
    + assert (pend = []) as -> by (destruct pend; [auto|cbn [length] in L; lia]). apply gives_ret.
    + intros w. assert (S : str_slice (done ++ pend) (length done) (length done + length pend) = Some pend).
      { pose proof (str_slice_ok done pend []) as H. rewrite !app_nil_r in H. apply H; [auto|apply valid_utf8_nil]. }
      rewrite S. reflexivity.
  - assert (Hb : is_byte b).
    { pose proof (valid_utf8_bytes _ V) as A. unfold all_bytes in A. rewrite Forall_app in A. destruct A as [_ A]. inversion A; auto. }
    pose proof (escape_code b Hb) as EC.
    destruct (if b <=? 0x1F then _ else _) as [e|].
    + destruct EC as [Lt EC]. destruct (utf8_ascii_split pend b rest V) as [V1 V2]; [unfold is_byte in Hb; lia|].
      rewrite esc_text_app, (esc_kept pend) by auto. unfold esc_text. cbn [flat_map]. fold (esc_text rest).
      eapply gives_then with (o1 := pend) (a := tt); [|eapply gives_then with (o1 := esc_byte b) (a := tt)|reflexivity].
      * destruct (length done <? length done + length pend)%nat eqn:L.
        -- rewrite str_slice_ok; [|auto|].
           ++ intros w. reflexivity.
           ++ change (b :: rest) with ([b] ++ rest). apply valid_utf8_app; [|auto].
              apply valid_utf8_ascii. constructor; [unfold is_byte in Hb; lia|constructor].
        -- assert (pend = []) as -> by (destruct pend; [auto|cbn [length] in L; lia]). apply gives_ret.
      * rewrite EC. destruct (e =? UU); [|apply gives_w].
        eapply gives_bind; apply gives_w.
      * specialize (IH (done ++ pend ++ [b]) [] V2 (Forall_nil _)). cbn [app] in IH.
        rewrite !app_length in IH. cbn [length] in IH. rewrite <- !app_assoc in IH. cbn [app] in IH.
        replace (length done + (length pend + 1) + 0)%nat with (S (length done + length pend)) in IH by lia.
        replace (length done + (length pend + 1))%nat with (S (length done + length pend)) in IH by lia. exact IH.
      * reflexivity.
    + assert (K' : Forall kept (pend ++ [b])) by (apply Forall_app; auto).
      specialize (IH done (pend ++ [b])). rewrite <- !app_assoc in IH. cbn [app] in IH. rewrite app_length in IH. cbn [length] in IH.
      replace (length done + (length pend + 1))%nat with (S (length done + length pend)) in IH by lia. auto.
Qed.

Lemma gives_escaped s : valid_utf8 s -> gives (format_escaped_str_contents VW s) (esc_text s) (Ok tt).
Proof. intros V. apply (gives_escape_loop s [] []); [auto|constructor]. Qed.

Lemma gives_str s : valid_utf8 s -> gives (js_str VW s) (34 :: esc_text s ++ [34]) (Ok tt).
Proof.
  intros V. unfold js_str. eapply gives_then; [apply gives_wb| |].
  - eapply gives_bind; [apply gives_escaped; auto|apply gives_wb].
  - reflexivity.
Qed.

(** ** Display *)
Lemma run_collector p : fmt_all valid_utf8 p -> forall w, exists out,
  run_fmt (string_collector_write VW) p (w, false) = ((w ++ out, false), match fmt_text p with Some _ => true | None => false end) /\
  (forall t, fmt_text p = Some t -> out = esc_text t) /\ valid_utf8 out.
Proof.
  induction p as [ok|c k1 IH1 k2 IH2]; intros F w; cbn [run_fmt fmt_text fmt_all] in *.
  - exists []. rewrite app_nil_r. split; [destruct ok; auto|]. split; [|apply valid_utf8_nil].
    intros t. destruct ok; intros [= <-]. auto.
  - destruct F as (Vc & F1 & _). unfold string_collector_write at 1. rewrite (gives_escaped c Vc w).
    destruct (IH1 F1 (w ++ esc_text c)) as (out & R & T & V). exists (esc_text c ++ out).
    rewrite app_assoc. split; [|split].
    + rewrite R. destruct (fmt_text k1); auto.
    + intros t Ht. destruct (fmt_text k1) as [t1|] eqn:E1; [|discriminate]. cbn in Ht. injection Ht as <-.
      rewrite esc_text_app, (T t1); auto.
    + apply valid_utf8_app; [apply esc_text_utf8|]; auto.
Qed.

Lemma gives_collect p : fmt_all valid_utf8 p ->
  match fmt_text p with
  | Some t => gives (js_collect_str VW p) (34 :: esc_text t ++ [34]) (Ok tt)
  | None => exists out, gives (js_collect_str VW p) out (Err JFormatError)
  end.
Proof.
  intros F. unfold js_collect_str.
  destruct (fmt_text p) as [t|] eqn:T.
  - eapply gives_then; [apply gives_wb| |].
    + eapply gives_bind; [|apply gives_wb]. intros w. unfold js_fmt.
      destruct (run_collector p F w) as (out & -> & Ht & _). rewrite T in *. rewrite (Ht t eq_refl). reflexivity.
    + reflexivity.
  - assert (O : exists out, forall w, js_fmt VW p w = (w ++ out, Err JFormatError)).
    { clear - F T. unfold js_fmt. revert F T. induction p as [ok|c k1 IH1 k2 IH2]; intros F T; cbn [run_fmt fmt_text fmt_all] in *.
      - exists []. intros w. rewrite app_nil_r. destruct ok; [discriminate|auto].
      - destruct F as (Vc & F1 & _). destruct IH1 as [out H]; [auto|destruct (fmt_text k1); [discriminate|auto]|].
        exists (esc_text c ++ out). intros w. unfold string_collector_write at 1. rewrite (gives_escaped c Vc w).
        rewrite H, app_assoc. auto. }
    destruct O as [out O]. exists ([34] ++ out). eapply gives_bind; [apply gives_wb|].
    apply gives_bind_err. exact O.
Qed.

(** ** Keys *)
Definition key_err (e : X) : Prop := e = JInvalidKeyType \/ e = JFormatError \/ e = JSerializeError.

Lemma key_good v : strings_ok v ->
  match key_doc v with
  | Some s => valid_utf8 s /\ gives (js_key VW v) (34 :: esc_text s ++ [34]) (Ok tt)
  | None => exists out e, gives (js_key VW v) out (Err e) /\ key_err e
  end.
Proof.
  unfold key_err. induction v using sval_ind'; intros Hv; cbn [key_doc js_key strings_ok] in *;
    try (do 2 eexists; split; [apply gives_fail|tauto]).
  - split; [destruct b; apply valid_utf8_ascii; repeat constructor; lia|].
    unfold js_quote. eapply gives_then; [apply gives_wb|eapply gives_bind; [apply gives_w|apply gives_wb]|].
    destruct b; reflexivity.
  - split; [apply valid_utf8_ascii, json_number_ascii, dec_text_number|].
    unfold js_quote. eapply gives_then; [apply gives_wb|eapply gives_bind; [apply gives_int; auto|apply gives_wb]|].
    rewrite esc_kept; [reflexivity|].
    assert (D : forall z, 0 <= z -> Forall kept (dec_nat z)).
    { intros y Hy. destruct (dec_nat_spec y Hy) as [[[_ F] _] _]. eapply Forall_impl; [|exact F]. unfold is_digit, kept. intros; lia. }
    unfold dec_text. destruct (z <? 0) eqn:?; [constructor; [unfold kept; lia|]|]; apply D; lia.
  - split; [apply valid_utf8_char; auto|]. unfold js_char. rewrite encode_utf8_spec by auto. apply gives_str, valid_utf8_char; auto.
  - split; [auto|]. apply gives_str; auto.
  - split; [auto|]. apply gives_str; auto.
  - apply IHv; auto.
  - pose proof (gives_collect a Hv) as G. destruct (fmt_text a) as [t|] eqn:T.
    + split; [|exact G]. clear G. revert t Hv T. induction a as [ok|c k1 IH1 k2 _]; intros t Hv T; cbn in *.
      * destruct ok; [|discriminate]. injection T as <-. apply valid_utf8_nil.
      * destruct Hv as (Vc & F1 & _). destruct (fmt_text k1) as [t1|]; [|discriminate]. cbn in T. injection T as <-.
        apply valid_utf8_app; auto.
    + destruct G as [out G]. exists out, JFormatError. tauto.
Qed.

Lemma key_no_output v : match v with SCollect _ _ | SNewtypeStruct _ => False | _ => True end ->
  key_doc v = None -> exists e, gives (js_key VW v) [] (Err e).
Proof.
  destruct v; cbn; intros H K; try discriminate; try contradiction; eexists; apply gives_fail.
Qed.

(** ** Values *)
Section Values.
Context (fp : float_printer) (enc : byte_encoder) (ws : bytes -> Prop).
Variables (bytes_doc : bytes -> option jv) (f32_doc f64_doc : Z -> option bytes).
Hypothesis ws_nil : ws [].
Hypothesis Hbytes : forall s, all_bytes s ->
  match bytes_doc s with
  | Some j => exists out, gives (js_bytes VW enc s) out (Ok tt) /\ jtext ws canon canon json_number j out
  | None => False
  end.
Hypothesis H32 : forall b, 0 <= b < 2 ^ 32 ->
  match f32_doc b with
  | Some t => is_finite_f32 b = true /\ format_f32 fp b = t /\ json_number t
  | None => is_finite_f32 b = false
  end.
Hypothesis H64 : forall b, 0 <= b < 2 ^ 64 ->
  match f64_doc b with
  | Some t => is_finite_f64 b = true /\ format_f64 fp b = t /\ json_number t
  | None => is_finite_f64 b = false
  end.

Local Notation doc := (js_doc bytes_doc f32_doc f64_doc).
Local Notation J := (jtext ws canon canon json_number).
Local Notation ser := (js_ser VW fp enc).

Definition jgood (m : SM bytes X unit) (o : option jv) : Prop :=
  match o with
  | Some j => exists out, gives m out (Ok tt) /\ J j out
  | None => exists out e, gives m out (Err e) /\ key_err e
  end.

(** A list of parts written with commas in between. *)
Definition seps (first : bool) : bytes := if first then [] else [44].

Lemma gives_sep (first : bool) : gives (if first then sret tt else js_write_byte VW 44) (seps first) (Ok tt).
Proof. destruct first; [apply gives_ret|apply gives_wb]. Qed.

Lemma items_jgood l : Forall (fun x => jgood (ser x) (doc x)) l -> forall first,
  match doc_list doc l with
  | Some js => exists out b, gives (js_items VW ser l first) out (Ok b) /\
      match l with [] => out = [] /\ js = [] | _ => exists r, out = seps first ++ r /\ elements ws canon canon json_number js r end
  | None => exists out e, gives (js_items VW ser l first) out (Err e) /\ key_err e
  end.
Proof.
  induction 1 as [|x l Hx Hl IH]; intros first; cbn [doc_list js_items].
  - exists [], first. split; [apply gives_ret|auto].
  - fold (doc_list doc). fold (js_items VW ser). unfold jgood in Hx. unfold js_element.
    destruct (doc x) as [j|].
    + destruct Hx as (ox & Gx & Jx).
      assert (G1 : gives (sbind (if first then sret tt else js_write_byte VW 44) (fun _ => sbind (ser x) (fun _ => sret false)))
                (seps first ++ ox) (Ok false)).
      { eapply gives_then; [apply gives_sep|eapply gives_bind; [exact Gx|apply gives_ret]|]. rewrite app_nil_r. auto. }
      specialize (IH false). unfold omap2. destruct (doc_list doc l) as [js|].
      * destruct IH as (ol & b & Gl & Hl'). do 2 eexists. split; [eapply gives_bind; [exact G1|exact Gl]|].
        -- exists (ox ++ ol). rewrite <- app_assoc. split; [auto|]. destruct l as [|y l].
           ++ destruct Hl' as [-> ->]. apply (L_one ws canon canon json_number j ox [] []); auto.
           ++ destruct Hl' as (r & -> & El). apply (L_more ws canon canon json_number j ox js r [] []); auto.
      * destruct IH as (ol & e & Gl & He). do 2 eexists. split; [eapply gives_bind; [exact G1|exact Gl]|auto].
    + destruct Hx as (ox & e & Gx & He). cbn [omap2]. do 2 eexists. split; [|exact He].
      apply gives_bind_err. eapply gives_bind; [apply gives_sep|]. apply gives_bind_err. exact Gx.
Qed.

Lemma arr_jgood l (m1 : SM bytes X bool) (m3 : SM bytes X unit) h t (mk : jv -> jv) : Forall (fun x => jgood (ser x) (doc x)) l ->
  gives m1 (h ++ [91]) (Ok true) -> gives m3 (93 :: t) (Ok tt) ->
  (forall j b, J j b -> J (mk j) (h ++ b ++ t)) ->
  jgood (sbind m1 (fun first => sbind (js_items VW ser l first) (fun _ => m3))) (option_map (fun js => mk (JArr js)) (doc_list doc l)).
Proof.
  intros Hl G1 G3 Mk. unfold jgood. pose proof (items_jgood l Hl true) as I.
  destruct (doc_list doc l) as [js|]; cbn [option_map].
  - destruct I as (out & b & G2 & HI). exists (h ++ (91 :: out ++ [93]) ++ t). split.
    + eapply gives_then; [exact G1|eapply gives_bind; [exact G2|exact G3]|]. rewrite <- !app_assoc. cbn. rewrite <- app_assoc. auto.
    + apply Mk. destruct l as [|x l].
      * destruct HI as [-> ->]. apply (T_arr0 ws canon canon json_number []). auto.
      * destruct HI as (r & -> & El). apply T_arr. exact El.
  - destruct I as (out & e & G2 & He). do 2 eexists. split; [eapply gives_bind; [exact G1|]; apply gives_bind_err; exact G2|auto].
Qed.

Lemma fields_jgood l : Forall (fun f => valid_utf8 (fst f) /\ forall x, snd f = Some x -> jgood (ser x) (doc x)) l -> forall first,
  match doc_fields doc l with
  | Some js => exists out b, gives (js_fields VW ser l first) out (Ok b) /\
      match js with [] => out = [] | _ => exists r, out = seps first ++ r /\ members ws canon canon json_number js r end
  | None => exists out e, gives (js_fields VW ser l first) out (Err e) /\ key_err e
  end.
Proof.
  induction 1 as [|[k [x|]] l [Vk Hx] Hl IH]; intros first; cbn [doc_fields js_fields].
  - exists [], first. split; [apply gives_ret|auto].
  - fold (doc_fields doc). fold (js_fields VW ser). cbn [fst snd] in *. specialize (Hx x eq_refl). unfold jgood in Hx. unfold js_field.
    destruct (doc x) as [j|]; cbn [option_map omap2].
    + destruct Hx as (ox & Gx & Jx).
      assert (G1 : gives (sbind (if first then sret tt else js_write_byte VW 44) (fun _ =>
                 sbind (js_str VW k) (fun _ => sbind (js_write VW [58]) (fun _ => sbind (ser x) (fun _ => sret false)))))
                (seps first ++ (34 :: esc_text k ++ [34]) ++ [58] ++ ox) (Ok false)).
      { eapply gives_bind; [apply gives_sep|]. eapply gives_bind; [apply gives_str; auto|]. eapply gives_bind; [apply gives_w|].
        eapply gives_then; [exact Gx|apply gives_ret|]. rewrite app_nil_r. auto. }
      specialize (IH false). destruct (doc_fields doc l) as [js|].
      * destruct IH as (ol & b & Gl & Hl'). do 2 eexists. split; [eapply gives_bind; [exact G1|exact Gl]|].
        eexists. rewrite <- app_assoc. split; [reflexivity|].
        rewrite <- !app_assoc. destruct js as [|j2 js].
        -- subst ol. apply (O_one ws canon canon json_number k (34 :: esc_text k ++ [34]) j ox [] [] [] []); auto using esc_canon.
        -- destruct Hl' as (r & -> & El). apply (O_more ws canon canon json_number k (34 :: esc_text k ++ [34]) j ox _ r [] [] [] []); auto using esc_canon.
      * destruct IH as (ol & e & Gl & He). do 2 eexists. split; [eapply gives_bind; [exact G1|exact Gl]|auto].
    + destruct Hx as (ox & e & Gx & He). do 2 eexists. split; [|exact He].
      apply gives_bind_err. eapply gives_bind; [apply gives_sep|]. eapply gives_bind; [apply gives_str; auto|].
      eapply gives_bind; [apply gives_w|]. apply gives_bind_err. exact Gx.
  - fold (doc_fields doc). fold (js_fields VW ser). specialize (IH first). destruct (doc_fields doc l) as [js|].
    + destruct IH as (out & b & G & H). exists out, b. split; [|auto]. eapply gives_then; [apply gives_ret|exact G|auto].
    + destruct IH as (out & e & G & H). exists out, e. split; [|auto]. eapply gives_then; [apply gives_ret|exact G|auto].
Qed.

Lemma obj_jgood {S} (body : option (list (bytes * jv))) (m1 : SM bytes X S) (m2 : S -> SM bytes X bool) (m3 : SM bytes X unit) s h t (mk : jv -> jv) :
  gives m1 (h ++ [123]) (Ok s) -> gives m3 (125 :: t) (Ok tt) ->
  match body with
  | Some js => exists out b, gives (m2 s) out (Ok b) /\
      match js with [] => out = [] | _ => members ws canon canon json_number js out end
  | None => exists out e, gives (m2 s) out (Err e) /\ key_err e
  end ->
  (forall j b, J j b -> J (mk j) (h ++ b ++ t)) ->
  jgood (sbind m1 (fun first => sbind (m2 first) (fun _ => m3))) (option_map (fun js => mk (JObj js)) body).
Proof.
  intros G1 G3 I Mk. unfold jgood. destruct body as [js|]; cbn [option_map].
  - destruct I as (out & b & G2 & HI). exists (h ++ (123 :: out ++ [125]) ++ t). split.
    + eapply gives_then; [exact G1|eapply gives_bind; [exact G2|exact G3]|]. rewrite <- !app_assoc. cbn. rewrite <- app_assoc. auto.
    + apply Mk. destruct js as [|x l].
      * subst out. apply (T_obj0 ws canon canon json_number []). auto.
      * apply T_obj. exact HI.
  - destruct I as (out & e & G2 & He). do 2 eexists. split; [eapply gives_bind; [exact G1|]; apply gives_bind_err; exact G2|auto].
Qed.

Lemma pair_ind {A} (P : list A -> Prop) : P [] -> (forall a, P [a]) -> (forall a b l, P l -> P (a :: b :: l)) -> forall l, P l.
Proof. intros H0 H1 H2. fix IH 1. intros [|a [|b l]]; [exact H0|exact (H1 a)|exact (H2 a b l (IH l))]. Qed.

Lemma entries_jgood l : alternates l ->
  Forall (fun o => strings_ok (snd o) /\ jgood (ser (snd o)) (doc (snd o))) l -> forall first,
  match doc_entries doc l with
  | Some js => exists out b, gives (js_entries VW ser l first) out (Ok b) /\
      match js with [] => out = [] | _ => exists r, out = seps first ++ r /\ members ws canon canon json_number js r end
  | None => exists out e, gives (js_entries VW ser l first) out (Err e) /\ key_err e
  end.
Proof.
  induction l as [|[b x]|[b1 k] [b2 x] l IH] using pair_ind; intros Al F first.
  - cbn. exists [], first. split; [apply gives_ret|auto].
  - destruct b; contradiction.
  - destruct b1, b2; try contradiction. cbn [alternates] in Al. inversion F as [|? ? [Sk _] F1]; subst. inversion F1 as [|? ? [_ Hx] F2]; subst.
    cbn [snd] in *. specialize (IH Al F2 false). cbn [doc_entries js_entries]. fold (doc_entries doc). fold (js_entries VW ser).
    pose proof (key_good k Sk) as Hk. unfold jgood in Hx. destruct (key_doc k) as [ks|]; cbn [omap2].
    + destruct Hk as [Vk Gk].
      assert (G1 : gives (js_map_key VW first (js_key VW k)) (seps first ++ 34 :: esc_text ks ++ [34]) (Ok false)).
      { unfold js_map_key. eapply gives_bind; [apply gives_sep|]. eapply gives_then; [exact Gk|apply gives_ret|]. rewrite app_nil_r; auto. }
      destruct (doc x) as [j|].
      * destruct Hx as (ox & Gx & Jx).
        assert (G2 : gives (js_map_value VW false (ser x)) ([58] ++ ox) (Ok false)).
        { unfold js_map_value. eapply gives_bind; [apply gives_w|]. eapply gives_then; [exact Gx|apply gives_ret|]. rewrite app_nil_r; auto. }
        destruct (doc_entries doc l) as [js|].
        -- destruct IH as (ol & b & Gl & Hl'). do 2 eexists.
           split; [eapply gives_bind; [exact G1|eapply gives_bind; [exact G2|exact Gl]]|].
           eexists. rewrite <- !app_assoc. split; [reflexivity|]. destruct js as [|j2 js].
           ++ subst ol. apply (O_one ws canon canon json_number ks (34 :: esc_text ks ++ [34]) j ox [] [] [] []); auto using esc_canon.
           ++ destruct Hl' as (r & -> & El).
              apply (O_more ws canon canon json_number ks (34 :: esc_text ks ++ [34]) j ox _ r [] [] [] []); auto using esc_canon.
        -- destruct IH as (ol & e & Gl & He). do 2 eexists.
           split; [eapply gives_bind; [exact G1|eapply gives_bind; [exact G2|exact Gl]]|auto].
      * destruct Hx as (ox & e & Gx & He). do 2 eexists. split; [|exact He]. eapply gives_bind; [exact G1|].
        apply gives_bind_err. unfold js_map_value. eapply gives_bind; [apply gives_w|]. apply gives_bind_err. exact Gx.
    + destruct Hk as (ok & e & Gk & He). do 2 eexists. split; [|exact He].
      apply gives_bind_err. unfold js_map_key. eapply gives_bind; [apply gives_sep|]. apply gives_bind_err. exact Gk.
Qed.

Lemma variant_mk n j b : valid_utf8 n -> J j b -> J (JObj [(n, j)]) ((123 :: (34 :: esc_text n ++ [34]) ++ [58]) ++ b ++ [125]).
Proof.
  intros V Hj. cbn [app].
  replace (123 :: 34 :: ((esc_text n ++ [34]) ++ [58]) ++ b ++ [125])
    with (123 :: ([] ++ (34 :: esc_text n ++ [34]) ++ [] ++ 58 :: [] ++ b ++ []) ++ [125]).
  - apply T_obj. apply O_one; auto using esc_canon.
  - cbn [app]. rewrite app_nil_r, <- !app_assoc. auto.
Qed.

Theorem js_ser_good v : strings_ok v -> maps_ok v -> jgood (ser v) (doc v).
Proof.
  induction v using sval_ind'; intros Hs Hm; cbn [js_ser js_doc strings_ok maps_ok] in *.
  - unfold js_bool. destruct b; eexists; split; try apply gives_w; constructor.
  - eexists. split; [apply gives_int; auto|]. constructor. apply dec_text_number.
  - do 2 eexists. split; [apply gives_fail|unfold key_err; tauto].
  - unfold js_f32. specialize (H32 b Hs). destruct (f32_doc b) as [t|]; cbn [float_jv].
    + destruct H32 as (-> & -> & N). eexists. split; [apply gives_ws|]. constructor; auto.
    + rewrite H32. eexists. split; [apply gives_w|constructor].
  - unfold js_f64. specialize (H64 b Hs). destruct (f64_doc b) as [t|]; cbn [float_jv].
    + destruct H64 as (-> & -> & N). eexists. split; [apply gives_ws|]. constructor; auto.
    + rewrite H64. eexists. split; [apply gives_w|constructor].
  - unfold js_char. rewrite encode_utf8_spec by auto. eexists. split; [apply gives_str, valid_utf8_char; auto|].
    apply canon_text, valid_utf8_char; auto.
  - eexists. split; [apply gives_str; auto|]. apply canon_text; auto.
  - specialize (Hbytes s Hs). unfold jgood. destruct (bytes_doc s); [exact Hbytes|contradiction].
  - eexists. split; [apply gives_w|constructor].
  - auto.
  - eexists. split; [apply gives_w|constructor].
  - eexists. split; [apply gives_w|constructor].
  - eexists. split; [apply gives_str; auto|]. apply canon_text; auto.
  - auto.
  - destruct Hs as [Vn Hs]. specialize (IHv Hs Hm). unfold jgood in *. destruct (doc v) as [j|]; cbn [option_map].
    + destruct IHv as (ov & Gv & Jv). eexists. split.
      * eapply gives_bind; [apply gives_wb|]. eapply gives_bind; [apply gives_str; auto|]. eapply gives_bind; [apply gives_wb|].
        eapply gives_bind; [exact Gv|apply gives_wb].
      * pose proof (variant_mk n j ov Vn Jv) as K. cbn [app] in *. rewrite <- !app_assoc in *. exact K.
    + destruct IHv as (ov & e & Gv & He). do 2 eexists. split; [|exact He].
      eapply gives_bind; [apply gives_wb|]. eapply gives_bind; [apply gives_str; auto|]. eapply gives_bind; [apply gives_wb|].
      apply gives_bind_err. exact Gv.
  - rewrite all_list_Forall in *. apply (arr_jgood items _ _ [] [] (fun j => j)).
    + eapply Forall_impl2; [|eapply Forall_impl2; [|exact H|exact Hs]|exact Hm]; cbn; intros; [|exact (H0 H1)]. cbn in *. auto.
    + intros w. reflexivity.
    + apply gives_wb.
    + intros j b Hj. rewrite app_nil_r. auto.
  - rewrite all_list_Forall in *. apply (arr_jgood items _ _ [] [] (fun j => j)).
    + eapply Forall_impl2; [|eapply Forall_impl2; [|exact H|exact Hs]|exact Hm]; cbn; intros; [|exact (H0 H1)]. cbn in *. auto.
    + intros w. reflexivity.
    + apply gives_wb.
    + intros j b Hj. rewrite app_nil_r. auto.
  - rewrite all_list_Forall in *. apply (arr_jgood items _ _ [] [] (fun j => j)).
    + eapply Forall_impl2; [|eapply Forall_impl2; [|exact H|exact Hs]|exact Hm]; cbn; intros; [|exact (H0 H1)]. cbn in *. auto.
    + intros w. reflexivity.
    + apply gives_wb.
    + intros j b Hj. rewrite app_nil_r. auto.
  - destruct Hs as [Vn Hs]. rewrite all_list_Forall in *.
    apply (arr_jgood items _ _ (123 :: (34 :: esc_text n ++ [34]) ++ [58]) [125] (fun j => JObj [(n, j)])).
    + eapply Forall_impl2; [|eapply Forall_impl2; [|exact H|exact Hs]|exact Hm]; cbn; intros; [|exact (H0 H1)]. cbn in *. auto.
    + unfold js_open_variant. eapply gives_then; [apply gives_wb|eapply gives_bind; [apply gives_str; auto|eapply gives_bind; [apply gives_w|apply gives_ret]]|].
      cbn [app]. rewrite <- ?app_assoc. auto.
    + apply gives_w.
    + intros. apply variant_mk; auto.
  - destruct Hm as [Al Hm]. rewrite all_list_Forall in *. apply (obj_jgood _ _ _ _ true [] [] (fun j => j)).
    + intros w. reflexivity.
    + apply gives_wb.
    + assert (F : Forall (fun o => strings_ok (snd o) /\ jgood (ser (snd o)) (doc (snd o))) ops).
      { rewrite Forall_forall in *. intros o Ho. split; [apply Hs; auto|]. apply H; auto. }
      pose proof (entries_jgood ops Al F true) as G. destruct (doc_entries doc ops) as [js|]; [|exact G].
      destruct G as (out & b & G & Hj). exists out, b. split; [auto|]. destruct js; [auto|]. destruct Hj as (r & -> & Hr). auto.
    + intros j b Hj. rewrite app_nil_r. auto.
  - rewrite all_list_Forall in *. apply (obj_jgood _ _ _ _ true [] [] (fun j => j)).
    + intros w. reflexivity.
    + apply gives_wb.
    + assert (F : Forall (fun f => valid_utf8 (fst f) /\ forall x, snd f = Some x -> jgood (ser x) (doc x)) fs).
      { rewrite Forall_forall in *. intros f Hf. specialize (H f Hf). specialize (Hs f Hf). specialize (Hm f Hf).
        cbn beta in *. split; [tauto|]. intros x Ex. rewrite Ex in *. apply H; tauto. }
      pose proof (fields_jgood fs F true) as G. destruct (doc_fields doc fs) as [js|]; [|exact G].
      destruct G as (out & b & G & Hj). exists out, b. split; [auto|]. destruct js; [auto|]. destruct Hj as (r & -> & Hr). auto.
    + intros j b Hj. rewrite app_nil_r. auto.
  - destruct Hs as [Vn Hs]. rewrite all_list_Forall in *.
    apply (obj_jgood _ _ _ _ true (123 :: (34 :: esc_text n ++ [34]) ++ [58]) [125] (fun j => JObj [(n, j)])).
    + unfold js_open_variant. eapply gives_then; [apply gives_wb|eapply gives_bind; [apply gives_str; auto|eapply gives_bind; [apply gives_w|apply gives_ret]]|].
      cbn [app]. rewrite <- ?app_assoc. auto.
    + apply gives_w.
    + assert (F : Forall (fun f => valid_utf8 (fst f) /\ forall x, snd f = Some x -> jgood (ser x) (doc x)) fs).
      { rewrite Forall_forall in *. intros f Hf. specialize (H f Hf). specialize (Hs f Hf). specialize (Hm f Hf).
        cbn beta in *. split; [tauto|]. intros x Ex. rewrite Ex in *. apply H; tauto. }
      pose proof (fields_jgood fs F true) as G. destruct (doc_fields doc fs) as [js|]; [|exact G].
      destruct G as (out & b & G & Hj). exists out, b. split; [auto|]. destruct js; [auto|]. destruct Hj as (r & -> & Hr). auto.
    + intros. apply variant_mk; auto.
  - pose proof (gives_collect a Hs) as G. unfold jgood. destruct (fmt_text a) as [t|] eqn:T; cbn [option_map].
    + eexists. split; [exact G|]. apply canon_text. clear G. revert t Hs T.
      induction a as [ok|c k1 IH1 k2 _]; intros t Hv T; cbn in *.
      * destruct ok; [|discriminate]. injection T as <-. apply valid_utf8_nil.
      * destruct Hv as (Vc & F1 & _). destruct (fmt_text k1) as [t1|]; [|discriminate]. cbn in T. injection T as <-.
        apply valid_utf8_app; auto.
    + destruct G as [out G]. exists out, JFormatError. unfold key_err. tauto.
  - do 2 eexists. split; [apply gives_fail|unfold key_err; tauto].
Qed.
End Values.
End P.

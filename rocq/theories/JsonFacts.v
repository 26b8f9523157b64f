(** Facts about the JSON specification: numerals, hex, escaped strings. *)
From Verif Require Import Prelude PreludeFacts Utf8Spec Utf8 Utf8Facts SerdeSer Base64Spec Base64Facts JsonSpec.
Ltac Zify.zify_post_hook ::= Z.div_mod_to_equations.

(** ** Decimal numerals *)
Lemma dec_val_app a b : dec_val (a ++ [b]) = dec_val a * 10 + (b - 48).
Proof. unfold dec_val. rewrite fold_left_app. reflexivity. Qed.

Lemma dec_digits_spec n z : 0 <= z < 2 ^ Z.of_nat n -> (0 < n)%nat ->
  int_part (dec_digits n z) /\ dec_val (dec_digits n z) = z.
Proof.
  revert z. induction n as [|n IH]; intros z Hz Hn; [lia|]. cbn [dec_digits].
  destruct (z <? 10) eqn:L.
  - split; [|unfold dec_val; cbn [fold_left]; lia]. split.
    + split; [discriminate|]. constructor; [unfold is_digit; lia|constructor].
    + destruct (Z.eq_dec z 0) as [->|]; [left; reflexivity|]. right. exists (48 + z), []. split; [auto|lia].
  - rewrite Nat2Z.inj_succ, Z.pow_succ_r in Hz by lia.
    destruct (IH (z / 10)) as [[[Hne Hd] Hi] Hv]; [lia|destruct n; [cbn in Hz|]; lia|].
    split; [|rewrite dec_val_app, Hv; lia]. split.
    + split; [destruct (dec_digits n (z / 10)); discriminate|]. apply Forall_app. split; [auto|].
      constructor; [unfold is_digit; lia|constructor].
    + right. destruct Hi as [E|(d & r & -> & Hd0)].
      * rewrite E in Hv. unfold dec_val in Hv. cbn in Hv. lia.
      * exists d. eexists. cbn. split; [reflexivity|auto].
Qed.

Lemma dec_nat_spec z : 0 <= z -> int_part (dec_nat z) /\ dec_val (dec_nat z) = z.
Proof.
  intros Hz. unfold dec_nat. apply dec_digits_spec; [|lia]. split; [auto|].
  destruct (Z.eq_dec z 0) as [->|]; [reflexivity|].
  destruct (Z.log2_spec z ltac:(lia)) as [_ H]. rewrite Nat2Z.inj_succ, Z2Nat.id by apply Z.log2_nonneg. exact H.
Qed.

Lemma dec_val_cons_lb d r : Forall is_digit (d :: r) -> (d - 48) * 10 ^ zlen r <= dec_val (d :: r) < (d - 47) * 10 ^ zlen r.
Proof.
  assert (G : forall l a, Forall is_digit l -> fold_left (fun a c => a * 10 + (c - 48)) l a =
     a * 10 ^ zlen l + dec_val l /\ 0 <= dec_val l < 10 ^ zlen l).
  { intros l. induction l as [|c l IH] using rev_ind; intros a F.
    - unfold dec_val, zlen. cbn. lia.
    - apply Forall_app in F. destruct F as [F1 F2]. apply Forall_inv in F2. unfold is_digit in F2.
      rewrite fold_left_app, dec_val_app. cbn [fold_left]. destruct (IH a F1) as [-> B].
      unfold zlen in *. rewrite app_length. cbn [length]. rewrite Nat2Z.inj_add, Z.pow_add_r by lia.
      change (10 ^ Z.of_nat 1) with 10. nia. }
  intros F. inversion F as [|? ? Hd Fr]; subst. unfold dec_val. cbn [fold_left]. destruct (G r (0 * 10 + (d - 48)) Fr) as [-> B]. nia.
Qed.

(** A number has one canonical numeral. *)
Lemma int_part_inj a b : int_part a -> int_part b -> dec_val a = dec_val b -> a = b.
Proof.
  assert (V0 : forall d r, Forall is_digit (d :: r) -> d <> 48 -> 1 <= dec_val (d :: r)).
  { intros d r F N. pose proof (dec_val_cons_lb d r F). inversion F as [|? ? Hd Fr]; subst. unfold is_digit in Hd.
    assert (0 < 10 ^ zlen r) by (apply Z.pow_pos_nonneg; unfold zlen; lia). nia. }
  assert (L : forall l m, Forall is_digit l -> Forall is_digit m -> length l = length m -> dec_val l = dec_val m -> l = m).
  { intros l. induction l as [|c l IH] using rev_ind; intros m Fl Fm Hl Hv.
    - destruct m; [auto|discriminate].
    - destruct m as [|c' m _] using rev_ind; [rewrite app_length in Hl; cbn in Hl; lia|].
      rewrite !app_length in Hl. cbn in Hl. rewrite !dec_val_app in Hv.
      apply Forall_app in Fl, Fm. destruct Fl as [Fl Hc], Fm as [Fm Hc'].
      apply Forall_inv in Hc, Hc'. unfold is_digit in *. f_equal; [apply IH; auto; lia|f_equal; lia]. }
  intros [[Na Fa] Ha] [[Nb Fb] Hb] Hv.
  destruct Ha as [-> | (d & r & -> & Hd)], Hb as [-> | (d' & r' & -> & Hd')]; auto.
  - pose proof (V0 _ _ Fb Hd'). rewrite <- Hv in H. unfold dec_val in H. cbn in H. lia.
  - pose proof (V0 _ _ Fa Hd). rewrite Hv in H. unfold dec_val in H. cbn in H. lia.
  - apply L; auto. pose proof (dec_val_cons_lb _ _ Fa) as La. pose proof (dec_val_cons_lb _ _ Fb) as Lb.
    rewrite Hv in La. inversion Fa; inversion Fb; subst. unfold is_digit in *. cbn [length]. f_equal.
    assert (P : forall n m, (n < m)%nat -> 10 * 10 ^ Z.of_nat n <= 10 ^ Z.of_nat m).
    { intros n m ?. rewrite <- Z.pow_succ_r by lia. apply Z.pow_le_mono_r; lia. }
    unfold zlen in *. set (X := dec_val (d' :: r')) in *.
    assert (0 < 10 ^ Z.of_nat (length r)) by (apply Z.pow_pos_nonneg; lia).
    assert (0 < 10 ^ Z.of_nat (length r')) by (apply Z.pow_pos_nonneg; lia).
    destruct (Nat.lt_trichotomy (length r) (length r')) as [G|[G|G]]; [|auto|]; specialize (P _ _ G); nia.
Qed.

Lemma dec_text_number z : json_number (dec_text z).
Proof.
  unfold dec_text. destruct (z <? 0) eqn:N.
  - exists [45], (dec_nat (- z)), [], []. rewrite !app_nil_r. split; [auto|]. split; [auto|].
    split; [apply dec_nat_spec; lia|]. split; left; auto.
  - exists [], (dec_nat z), [], []. rewrite !app_nil_r. split; [auto|]. split; [auto|].
    split; [apply dec_nat_spec; lia|]. split; left; auto.
Qed.

Lemma ascii_digits l : Forall is_digit l -> Forall (fun b => 0 <= b <= 127) l.
Proof. apply Forall_impl. unfold is_digit. lia. Qed.

Lemma json_number_ascii t : json_number t -> Forall (fun b => 0 <= b <= 127) t.
Proof.
  intros (sg & i & f & e & -> & Hs & [[_ Hi] _] & Hf & He). repeat (apply Forall_app; split).
  - destruct Hs as [-> | ->]; repeat constructor; lia.
  - apply ascii_digits; auto.
  - destruct Hf as [->|(ds & -> & _ & Hd)]; [constructor|]. constructor; [lia|]. apply ascii_digits; auto.
  - destruct He as [->|(c & sg' & ds & -> & Hc & Hsg & _ & Hd)]; [constructor|].
    constructor; [lia|]. apply Forall_app. split; [|apply ascii_digits; auto].
    destruct Hsg as [->|[->| ->]]; repeat constructor; lia.
Qed.

Lemma json_number_nonnil t : json_number t -> t <> [].
Proof.
  intros (sg & i & f & e & -> & _ & [[Hi _] _] & _) H. destruct sg; [|discriminate]. destruct i; [auto|discriminate].
Qed.

(** ** Hex *)
Lemma hex_upper_ascii v : 0 <= v < 16 -> 48 <= hex_upper v <= 70.
Proof. unfold hex_upper. destruct (v <? 10) eqn:?; lia. Qed.
Lemma hex_upper_digit v : 0 <= v < 16 -> hex_digit (hex_upper v) v.
Proof. unfold hex_upper, hex_digit. destruct (v <? 10) eqn:?; lia. Qed.

Lemma hex_text_plain bs : all_bytes bs -> Forall (fun b => plain_byte b /\ b <= 127) (hex_text bs).
Proof.
  induction 1 as [|b l Hb Hl IH]; [constructor|]. unfold hex_text. cbn [flat_map app]. unfold is_byte in Hb.
  pose proof (hex_upper_ascii (b / 16) ltac:(lia)). pose proof (hex_upper_ascii (b mod 16) ltac:(lia)).
  constructor; [unfold plain_byte; lia|]. constructor; [unfold plain_byte; lia|auto].
Qed.

Lemma b64_char_plain v : 0 <= v < 64 -> plain_byte (b64_char v) /\ b64_char v <= 127.
Proof.
  intros H. unfold plain_byte, b64_char.
  destruct (v <? 26) eqn:?, (v <? 52) eqn:?, (v <? 62) eqn:?, (v =? 62) eqn:?; lia.
Qed.
Lemma b64_text_plain bs : all_bytes bs -> Forall (fun b => plain_byte b /\ b <= 127) (b64_text bs).
Proof.
  intros H. unfold b64_text. apply Forall_map. eapply Forall_impl; [|apply b64_digits_range, H].
  intros. apply b64_char_plain; auto.
Qed.

Lemma plain_body pairs l : Forall plain_byte l -> str_body pairs l l.
Proof. induction 1; constructor; auto. Qed.
Lemma plain_ascii_string ws pairs l : Forall (fun b => plain_byte b /\ b <= 127) l ->
  json ws pairs (JStr l) (34 :: l ++ [34]).
Proof.
  intros H. apply T_str. exists l. split; [auto|]. split.
  - apply valid_utf8_ascii. eapply Forall_impl; [|exact H]. unfold plain_byte. cbn. intros; lia.
  - apply plain_body. eapply Forall_impl; [|exact H]. cbn; intros ? [? _]; auto.
Qed.

(** ** Escaped strings *)
(** The escaped form of one byte. *)
Definition esc_byte (b : Z) : bytes :=
  if b <? 32 then
    if b =? 8 then [92; 98] else if b =? 9 then [92; 116] else if b =? 10 then [92; 110]
    else if b =? 12 then [92; 102] else if b =? 13 then [92; 114]
    else [92; 117; 48; 48; hex_upper (b / 16); hex_upper (b mod 16)]
  else if b =? 34 then [92; 34] else if b =? 92 then [92; 92] else [b].
Definition esc_text (s : bytes) : bytes := flat_map esc_byte s.

Lemma esc_text_app a b : esc_text (a ++ b) = esc_text a ++ esc_text b.
Proof. apply flat_map_app. Qed.

Lemma esc_text_body pairs s : all_bytes s -> str_body pairs (esc_text s) s.
Proof.
  induction 1 as [|b l Hb Hl IH]; [constructor|]. unfold esc_text. cbn [flat_map]. fold (esc_text l).
  unfold is_byte in Hb. unfold esc_byte.
  destruct (b <? 32) eqn:?.
  - destruct (b =? 8) eqn:?; [replace b with 8 by lia; apply B_esc; [constructor|auto]|].
    destruct (b =? 9) eqn:?; [replace b with 9 by lia; apply B_esc; [constructor|auto]|].
    destruct (b =? 10) eqn:?; [replace b with 10 by lia; apply B_esc; [constructor|auto]|].
    destruct (b =? 12) eqn:?; [replace b with 12 by lia; apply B_esc; [constructor|auto]|].
    destruct (b =? 13) eqn:?; [replace b with 13 by lia; apply B_esc; [constructor|auto]|].
    change (b :: l) with ([b] ++ l). replace [b] with (utf8_char b).
    2:{ unfold utf8_char. replace (b <=? 0x7F) with true by lia. auto. }
    apply (B_u pairs [48; 48; hex_upper (b / 16); hex_upper (b mod 16)] b).
    + exists 48, 48, (hex_upper (b / 16)), (hex_upper (b mod 16)), 0, 0, (b / 16), (b mod 16).
      split; [auto|]. repeat split; try (apply hex_upper_digit; lia); try (unfold hex_digit; lia).
    + left. lia.
    + auto.
  - destruct (b =? 34) eqn:?; [replace b with 34 by lia; apply B_esc; [constructor|auto]|].
    destruct (b =? 92) eqn:?; [replace b with 92 by lia; apply B_esc; [constructor|auto]|].
    apply B_plain; [unfold plain_byte; lia|auto].
Qed.

Lemma esc_byte_ascii b : 0 <= b <= 127 -> Forall (fun c => 0 <= c <= 127) (esc_byte b).
Proof.
  intros H. unfold esc_byte. pose proof (hex_upper_ascii (b / 16)). pose proof (hex_upper_ascii (b mod 16)).
  repeat match goal with |- context [if ?c then _ else _] => destruct c eqn:? end; repeat constructor; lia.
Qed.
Lemma esc_byte_high b : 128 <= b -> esc_byte b = [b].
Proof. intros H. unfold esc_byte. replace (b <? 32) with false by lia. replace (b =? 34) with false by lia.
  replace (b =? 92) with false by lia. auto. Qed.

(** All bytes of a character outside ASCII are at least 128. *)
Lemma utf8_char_high c : is_scalar c -> 128 <= c -> Forall (fun b => 128 <= b < 256) (utf8_char c).
Proof.
  intros H Hc. unfold utf8_char. unfold is_scalar in H.
  destruct (c <=? 127) eqn:?; [lia|].
  destruct (c <=? 0x7FF) eqn:?; [repeat constructor; lia|].
  destruct (c <=? 0xFFFF) eqn:?; repeat constructor; lia.
Qed.
Lemma utf8_char_low c : 0 <= c < 128 -> utf8_char c = [c].
Proof. intros H. unfold utf8_char. replace (c <=? 127) with true by lia. auto. Qed.

Lemma esc_text_utf8 s : valid_utf8 s -> valid_utf8 (esc_text s).
Proof.
  intros (cs & F & ->). induction F as [|c cs Hc Hcs IH]; [apply valid_utf8_nil|].
  unfold utf8. cbn [flat_map]. fold (utf8 cs). rewrite esc_text_app. apply valid_utf8_app; [|auto].
  destruct (Z.lt_ge_cases c 128) as [L|G].
  - rewrite utf8_char_low by (unfold is_scalar in Hc; lia). unfold esc_text. cbn [flat_map]. rewrite app_nil_r.
    apply valid_utf8_ascii, esc_byte_ascii. unfold is_scalar in Hc. lia.
  - replace (esc_text (utf8_char c)) with (utf8_char c); [apply valid_utf8_char; auto|].
    assert (E : forall l, Forall (fun b => 128 <= b < 256) l -> l = esc_text l).
    { induction 1 as [|b l Hb Hl IHl]; [auto|]. unfold esc_text. cbn [flat_map]. fold (esc_text l).
      rewrite esc_byte_high by lia. cbn. f_equal. auto. }
    apply E, utf8_char_high; auto.
Qed.

Lemma esc_text_string ws pairs s : valid_utf8 s -> json ws pairs (JStr s) (34 :: esc_text s ++ [34]).
Proof.
  intros H. apply T_str. exists (esc_text s). split; [auto|]. split; [apply esc_text_utf8; auto|].
  apply esc_text_body, valid_utf8_bytes, H.
Qed.

(** The literal the serializer writes. *)
Definition canon (s t : bytes) : Prop := valid_utf8 s /\ t = 34 :: esc_text s ++ [34].
Lemma canon_string pairs s t : canon s t -> json_string pairs s t.
Proof.
  intros [H ->]. exists (esc_text s). split; [auto|]. split; [apply esc_text_utf8; auto|].
  apply esc_text_body, valid_utf8_bytes, H.
Qed.
Lemma esc_canon s : valid_utf8 s -> canon s (34 :: esc_text s ++ [34]).
Proof. split; auto. Qed.
Lemma canon_text ws s : valid_utf8 s -> jtext ws canon canon json_number (JStr s) (34 :: esc_text s ++ [34]).
Proof. intros H. apply T_str, esc_canon, H. Qed.
Lemma esc_text_plain l : Forall plain_byte l -> esc_text l = l.
Proof.
  induction 1 as [|b l Hb Hl IH]; [auto|]. unfold esc_text in *. cbn [flat_map]. rewrite IH.
  pose (chk := fun b => (b <? 32) || (b =? 34) || (b =? 92) || if list_eq_dec Z.eq_dec (esc_byte b) [b] then true else false).
  assert (C : chk b = true) by (apply (zrange_forall chk 256); [vm_compute; reflexivity|unfold plain_byte in Hb; lia]).
  unfold chk in C. unfold plain_byte in Hb. destruct (list_eq_dec Z.eq_dec (esc_byte b) [b]) as [->|]; [reflexivity|]. lia.
Qed.
Lemma plain_ascii_canon l : Forall (fun b => plain_byte b /\ b <= 127) l -> canon l (34 :: l ++ [34]).
Proof.
  intros H. split.
  - apply valid_utf8_ascii. eapply Forall_impl; [|exact H]. unfold plain_byte. cbn. intros; lia.
  - rewrite esc_text_plain; [auto|]. eapply Forall_impl; [|exact H]. cbn; intros ? [? _]; auto.
Qed.

(** More literals, more texts. *)
Scheme jtext_mind := Induction for jtext Sort Prop
with elements_mind := Induction for elements Sort Prop
with members_mind := Induction for members Sort Prop.
Combined Scheme jtext_mutind from jtext_mind, elements_mind, members_mind.
Lemma jtext_mono (ws ws' : bytes -> Prop) (str str' key key' : bytes -> bytes -> Prop) (num num' : bytes -> Prop) :
  (forall w, ws w -> ws' w) -> (forall s t, str s t -> str' s t) -> (forall s t, key s t -> key' s t) -> (forall t, num t -> num' t) ->
  forall j t, jtext ws str key num j t -> jtext ws' str' key' num' j t.
Proof.
  intros Hw Hs Hk Hn.
  enough (H : (forall j t, jtext ws str key num j t -> jtext ws' str' key' num' j t) /\
    (forall l t, elements ws str key num l t -> elements ws' str' key' num' l t) /\
    (forall l t, members ws str key num l t -> members ws' str' key' num' l t)) by apply H.
  apply jtext_mutind; intros; try (constructor; auto; fail).
Qed.

(** ** Splitting UTF-8 at an ASCII byte *)
Lemma utf8_ascii_split a c b : valid_utf8 (a ++ c :: b) -> 0 <= c < 128 -> valid_utf8 a /\ valid_utf8 b.
Proof.
  intros (cs & F & E) Hc. revert a E. induction F as [|x cs Hx Hcs IH]; intros a E.
  - destruct a; discriminate.
  - unfold utf8 in E. cbn [flat_map] in E. fold (utf8 cs) in E.
    destruct (Z.lt_ge_cases x 128) as [L|G].
    + rewrite utf8_char_low in E by (unfold is_scalar in Hx; lia).
      destruct a as [|a0 a]; cbn in E.
      * assert (b = utf8 cs) as -> by congruence. split; [apply valid_utf8_nil|]. exists cs. auto.
      * assert (a0 = x) as -> by congruence. destruct (IH a) as [Va Vb]; [congruence|]. split; [|auto].
        change (x :: a) with ([x] ++ a). apply valid_utf8_app; [|auto].
        apply valid_utf8_ascii. constructor; [unfold is_scalar in Hx; lia|constructor].
    + pose proof (utf8_char_high x Hx G) as Hh.
      assert (exists a', a = utf8_char x ++ a') as [a' ->].
      { clear IH Hcs. revert a E. induction Hh as [|y l Hy Hl IHl]; intros a E; [exists a; auto|].
        destruct a as [|a0 a]; cbn in E.
        - exfalso. assert (c = y) by congruence. lia.
        - assert (a0 = y) as -> by congruence. destruct (IHl a) as [a' ->]; [congruence|]. exists a'. auto. }
      rewrite <- app_assoc in E. apply app_inv_head in E.
      destruct (IH a' E) as [Va Vb]. split; [|auto]. apply valid_utf8_app; [apply valid_utf8_char; auto|auto].
Qed.

(** The first byte of valid UTF-8 is not a continuation byte. *)
Lemma utf8_first b l : valid_utf8 (b :: l) -> b < 128 \/ 192 <= b.
Proof.
  intros (cs & F & E). destruct F as [|c cs Hc Hcs]; [discriminate|]. unfold utf8 in E. cbn [flat_map] in E.
  unfold utf8_char in E. unfold is_scalar in Hc.
  destruct (c <=? 127) eqn:?; [|destruct (c <=? 0x7FF) eqn:?; [|destruct (c <=? 0xFFFF) eqn:?]];
    apply (f_equal (hd 0)) in E; cbn [hd app] in E; lia.
Qed.

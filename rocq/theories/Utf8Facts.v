(** The UTF-8 decoder model meets the UTF-8 specification. *)
From Verif Require Import Prelude PreludeFacts Utf8Spec Utf8.
Ltac Zify.zify_post_hook ::= Z.div_mod_to_equations.

Lemma inr_spec lo hi b : inr lo hi b = true <-> lo <= b <= hi.
Proof. unfold inr. lia. Qed.

Lemma is_scalarb_spec c : is_scalarb c = true <-> is_scalar c.
Proof. unfold is_scalarb, is_scalar. lia. Qed.

Lemma list_ind_strong {A} (P : list A -> Prop) :
  (forall l, (forall l', (length l' < length l)%nat -> P l') -> P l) -> forall l, P l.
Proof.
  intros H l. assert (G : forall n l, (length l < n)%nat -> P l).
  { induction n; intros l' Hl; [lia|]. apply H. intros. apply IHn. lia. }
  apply (G (S (length l))). lia.
Qed.

Lemma utf8_decode_char c l : is_scalar c ->
  utf8_decode (utf8_char c ++ l) = option_map (cons c) (utf8_decode l).
Proof.
  unfold is_scalar, utf8_char. intros H.
  destruct (c <=? 0x7F) eqn:E1; [|destruct (c <=? 0x7FF) eqn:E2; [|destruct (c <=? 0xFFFF) eqn:E3]];
    cbn [app utf8_decode].
  - replace (inr 0 127 c) with true by (unfold inr; lia). auto.
  - replace (inr 0 127 _) with false by (unfold inr; lia).
    replace (inr _ _ _ && inr _ _ _) with true by (unfold inr; lia).
    do 2 f_equal. lia.
  - replace (inr 0 127 _) with false by (unfold inr; lia).
    replace (inr 0xC2 0xDF _ && inr _ _ _) with false by (unfold inr; lia).
    match goal with |- context [if ?b then _ else _] => replace b with true by (unfold inr; lia) end.
    do 2 f_equal. lia.
  - replace (inr 0 127 _) with false by (unfold inr; lia).
    replace (inr 0xC2 0xDF _ && inr _ _ _) with false by (unfold inr; lia).
    match goal with |- context [if ?b then _ else _] => replace b with false by (unfold inr; lia) end.
    match goal with |- context [if ?b then _ else _] => replace b with true by (unfold inr; lia) end.
    do 2 f_equal. lia.
Qed.

Lemma utf8_decode_utf8 cs : Forall is_scalar cs -> utf8_decode (utf8 cs) = Some cs.
Proof.
  induction 1; [reflexivity|]. unfold utf8 in *. cbn [flat_map].
  rewrite utf8_decode_char, IHForall by auto. reflexivity.
Qed.

Lemma utf8_decode_sound l cs : utf8_decode l = Some cs -> Forall is_scalar cs /\ l = utf8 cs.
Proof.
  revert cs. induction l as [l IH] using list_ind_strong. intros cs.
  assert (G : forall c l', (length l' < length l)%nat -> is_scalar c -> l = utf8_char c ++ l' ->
             option_map (cons c) (utf8_decode l') = Some cs -> Forall is_scalar cs /\ l = utf8 cs).
  { intros c l' Hl Hc -> E. destruct (utf8_decode l') as [cs'|] eqn:D; [|discriminate].
    injection E as <-. destruct (IH l' Hl cs' D) as [F ->]. split; [constructor; auto|]. reflexivity. }
  destruct l as [|b0 l0]; cbn [utf8_decode].
  { intros [= <-]. split; [constructor|reflexivity]. }
  destruct (inr 0 127 b0) eqn:E0.
  { apply G; [cbn; lia| unfold is_scalar, inr in *; lia |].
    unfold utf8_char. replace (b0 <=? 127) with true by (unfold inr in *; lia). auto. }
  destruct l0 as [|b1 l1]; [discriminate|].
  destruct (inr 0xC2 0xDF b0 && inr _ _ b1) eqn:E1.
  { unfold inr in *. apply G; [cbn; lia| unfold is_scalar; lia |].
    unfold utf8_char. replace (_ <=? 127) with false by lia. replace (_ <=? 0x7FF) with true by lia.
    cbn [app]. repeat f_equal; lia. }
  destruct l1 as [|b2 l2]; [discriminate|].
  match goal with |- context [if ?b then _ else _] => destruct b eqn:E2 end.
  { unfold inr in *. apply G; [cbn; lia| unfold is_scalar; lia |].
    unfold utf8_char. replace (_ <=? 127) with false by lia. replace (_ <=? 0x7FF) with false by lia.
    replace (_ <=? 0xFFFF) with true by lia.
    cbn [app]. repeat f_equal; lia. }
  destruct l2 as [|b3 l3]; [discriminate|].
  match goal with |- context [if ?b then _ else _] => destruct b eqn:E3 end; [|discriminate].
  { unfold inr in *. apply G; [cbn; lia| unfold is_scalar; lia |].
    unfold utf8_char. replace (_ <=? 127) with false by lia. replace (_ <=? 0x7FF) with false by lia.
    replace (_ <=? 0xFFFF) with false by lia.
    cbn [app]. repeat f_equal; lia. }
Qed.

Lemma utf8_decode_spec l cs : utf8_decode l = Some cs <-> Forall is_scalar cs /\ l = utf8 cs.
Proof.
  split; [apply utf8_decode_sound|]. intros [F ->]. apply utf8_decode_utf8; auto.
Qed.

Lemma from_utf8_ok_spec l : from_utf8_ok l = true <-> valid_utf8 l.
Proof.
  unfold from_utf8_ok, valid_utf8. destruct (utf8_decode l) as [cs|] eqn:E.
  - apply utf8_decode_spec in E. split; eauto.
  - split; [discriminate|]. intros (cs & H). apply utf8_decode_spec in H. congruence.
Qed.

Lemma char_from_str_spec l c : char_from_str l = Some c <-> is_scalar c /\ l = utf8_char c.
Proof.
  unfold char_from_str. split.
  - destruct (utf8_decode l) as [[|c' [|]]|] eqn:E; try discriminate. intros [= ->].
    apply utf8_decode_spec in E. destruct E as [F ->]. inversion F; subst.
    split; auto. unfold utf8. cbn. rewrite app_nil_r. auto.
  - intros [H ->]. pose proof (utf8_decode_utf8 [c] (Forall_cons _ H (Forall_nil _))) as E.
    unfold utf8 in E. cbn in E. rewrite app_nil_r in E. rewrite E. auto.
Qed.

(** Bit-level facts by sweeping small ranges. *)
Lemma zrange_forall (P : Z -> bool) n :
  forallb P (map Z.of_nat (seq 0 n)) = true -> forall z, 0 <= z < Z.of_nat n -> P z = true.
Proof.
  intros H z Hz. rewrite forallb_forall in H. apply H. rewrite in_map_iff.
  exists (Z.to_nat z). split; [lia|]. apply in_seq. lia.
Qed.

Ltac sweep P n z :=
  let H := fresh in
  assert (H : P z = true); [apply (zrange_forall P n); [vm_compute; reflexivity | lia] | ].

Lemma lor_add_small k n m : 0 <= n < 2 ^ k -> 0 <= k -> m mod 2 ^ k = 0 -> 0 <= m -> Z.lor n m = n + m.
Proof.
  intros Hn Hk Hm H0. apply Z.div_exact in Hm; [|lia]. rewrite Hm.
  rewrite (Z.mul_comm (2 ^ k)), <- Z.shiftl_mul_pow2 by lia.
  symmetry.
  assert (D : Z.land n (Z.shiftl (m / 2 ^ k) k) = 0).
  { apply Z.bits_inj'. intros i Hi. rewrite Z.land_spec, Z.bits_0.
    destruct (Z.lt_ge_cases i k).
    + rewrite Z.shiftl_spec_low by lia. apply andb_false_r.
    + replace (Z.testbit n i) with false; [reflexivity|]. symmetry.
      destruct (Z.eq_dec n 0) as [->|]; [apply Z.bits_0|].
      assert (Z.log2 n < k) by (apply Z.log2_lt_pow2; lia).
      apply Z.bits_above_log2; lia. }
  rewrite <- Z.lxor_lor by exact D. apply Z.add_nocarry_lxor. exact D.
Qed.

Lemma land_ones_mod c k m : 0 <= k -> m = Z.ones k -> Z.land c m = c mod 2 ^ k.
Proof. intros Hk ->. apply Z.land_ones. auto. Qed.

Lemma encode_utf8_spec c : is_scalar c -> encode_utf8 c = utf8_char c.
Proof.
  unfold is_scalar, encode_utf8, utf8_char. intros H.
  assert (L : forall x, Z.land x 0x3F = x mod 64) by (intros; apply (land_ones_mod _ 6); [lia|reflexivity]).
  assert (S6 : Z.shiftr c 6 = c / 64) by (rewrite Z.shiftr_div_pow2 by lia; reflexivity).
  assert (S12 : Z.shiftr c 12 = c / 4096) by (rewrite Z.shiftr_div_pow2 by lia; reflexivity).
  assert (S18 : Z.shiftr c 18 = c / 262144) by (rewrite Z.shiftr_div_pow2 by lia; reflexivity).
  rewrite !L, S6, S12, S18.
  assert (M : forall x, Z.lor (x mod 64) 0x80 = 0x80 + x mod 64).
  { intros. rewrite (lor_add_small 6); [lia| change (2^6) with 64; lia | lia | reflexivity | lia]. }
  rewrite !M.
  destruct (c <=? 0x7F) eqn:E1.
  { replace (c <? 0x80) with true by lia. auto. }
  replace (c <? 0x80) with false by lia.
  destruct (c <=? 0x7FF) eqn:E2.
  { replace (c <? 0x800) with true by lia. f_equal.
    rewrite (lor_add_small 5); [lia| change (2^5) with 32; lia | lia | reflexivity | lia]. }
  replace (c <? 0x800) with false by lia.
  destruct (c <=? 0xFFFF) eqn:E3.
  { replace (c <? 0x10000) with true by lia. f_equal.
    rewrite (lor_add_small 4); [lia| change (2^4) with 16; lia | lia | reflexivity | lia]. }
  replace (c <? 0x10000) with false by lia. f_equal.
  rewrite (lor_add_small 3); [lia| change (2^3) with 8; lia | lia | reflexivity | lia].
Qed.

Lemma utf8_char_bytes c : is_scalar c -> all_bytes (utf8_char c).
Proof.
  unfold is_scalar, utf8_char. intros H.
  destruct (c <=? 0x7F) eqn:E1; [|destruct (c <=? 0x7FF) eqn:E2; [|destruct (c <=? 0xFFFF) eqn:E3]];
    repeat constructor; unfold is_byte; lia.
Qed.

Lemma utf8_bytes cs : Forall is_scalar cs -> all_bytes (utf8 cs).
Proof.
  induction 1; cbn; [constructor|]. apply Forall_app. split; auto. apply utf8_char_bytes; auto.
Qed.

Lemma valid_utf8_bytes l : valid_utf8 l -> all_bytes l.
Proof. intros (cs & F & ->). apply utf8_bytes; auto. Qed.

Lemma valid_utf8_app a b : valid_utf8 a -> valid_utf8 b -> valid_utf8 (a ++ b).
Proof.
  intros (x & Fx & ->) (y & Fy & ->). exists (x ++ y). split.
  - apply Forall_app; auto.
  - unfold utf8. rewrite flat_map_app. auto.
Qed.

Lemma valid_utf8_nil : valid_utf8 [].
Proof. exists []. split; [constructor|reflexivity]. Qed.

Lemma valid_utf8_ascii l : Forall (fun b => 0 <= b <= 127) l -> valid_utf8 l.
Proof.
  intros H. exists l. split.
  - eapply Forall_impl; [|exact H]. intros a Ha; cbn beta in Ha; unfold is_scalar; lia.
  - induction H as [|x l Hx Hl IH]; [reflexivity|]. cbn beta in Hx. unfold utf8 in *. cbn [flat_map]. rewrite <- IH.
    unfold utf8_char. replace (x <=? 127) with true by lia. auto.
Qed.

Lemma valid_utf8_char c : is_scalar c -> valid_utf8 (utf8_char c).
Proof.
  intros. exists [c]. split; [constructor; [exact H|constructor]|]. unfold utf8. cbn. rewrite app_nil_r. auto.
Qed.

Lemma utf8_char_nonnil c : utf8_char c <> [].
Proof. unfold utf8_char. repeat destruct (_ <=? _); discriminate. Qed.

Lemma utf8_inj a b : Forall is_scalar a -> Forall is_scalar b -> utf8 a = utf8 b -> a = b.
Proof.
  intros Ha Hb E. apply utf8_decode_utf8 in Ha, Hb. congruence.
Qed.

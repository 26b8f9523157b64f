(** What is known about 64-bit targets carries over to 32-bit ones. *)
From Verif Require Import Prelude PreludeFacts SerdeSer SerdeDe MpSpec MpDe MpDeView MpDeTop FloatOps Types TypeSize MpTypeSpec
  MpWidthSpec MpWidth MpWidthTypes MpTypedTop MpAnySound MpFuel.
Ltac Zify.zify_post_hook ::= Z.div_mod_to_equations.
Definition sixtyfour : arch := {| usize_max := 2 ^ 64 - 1; overflow_checks := false |}.
Section Top.
Context (ar : arch) (fo : float_ops) (A : usize_max ar = 2 ^ 32 - 1).
Lemma narrow_slice input : slice_of ar input -> slice64 input.
Proof. intros [H1 H2]. rewrite A in H2. split; auto. change ((2 ^ 32 - 1) / 2) with (2 ^ 31 - 1) in H2. lia. Qed.
Lemma narrow_as {U} fuel (p : deser U mp_de_error) input : slice_of ar input -> never_skips p \/ no_huge_lengths input ->
  mp_from_slice ar fo fuel p input = mp_from_slice sixtyfour fo fuel p input.
Proof.
  intros S H. apply (width_targets ar sixtyfour fo U fuel p input); auto.
  - unfold arch32up. lia.
  - apply arch64_up. reflexivity.
  - apply slice64_of; [reflexivity|]. apply narrow_slice, S.
Qed.
Lemma narrow_decides t input fuel : wf t -> slice_of ar input -> no_struct t \/ no_huge_lengths input ->
  (10 * type_size t + 3 * length input <= fuel)%nat ->
  (exists s v bs tail, mp_from_slice ar fo fuel (denote DeserializeError t) input = Done s (Ok (v, zlen bs)) /\ input = bs ++ tail /\ adm fo t v bs) \/
  (exists s e, mp_from_slice ar fo fuel (denote DeserializeError t) input = Done s (Err e) /\ forall v bs tail, input = bs ++ tail -> ~ adm fo t v bs).
Proof.
  intros Wf S H F. rewrite narrow_as; auto.
  - apply typed_decides; auto; [reflexivity|]. apply narrow_slice, S.
  - destruct H as [H|H]; auto. left. apply denote_ok, H.
Qed.
Lemma narrow_any input fuel : slice_of ar input -> (6 + 3 * length input <= fuel)%nat ->
  exists s r, mp_from_slice ar fo fuel (any DeserializeError) input = Done s r.
Proof.
  intros S F. rewrite narrow_as; auto; [apply any_ends; auto; [reflexivity|]; apply narrow_slice, S|]. left. apply any_ok.
Qed.
End Top.

Lemma any_decides ar fo input fuel : arch32up ar -> slice_of ar input -> slice64 input -> (6 + 3 * length input <= fuel)%nat ->
  (exists s v m bs tail, mp_from_slice ar fo fuel (any DeserializeError) input = Done s (Ok (v, zlen bs)) /\
     input = bs ++ tail /\ mp_fmt m bs /\ denotes m (inl v)) \/
  (exists s e, mp_from_slice ar fo fuel (any DeserializeError) input = Done s (Err e) /\
     forall m v bs tail, input = bs ++ tail -> mp_fmt m bs -> ~ denotes m (inl v)).
Proof.
  intros A S S64 F.
  assert (T : mp_from_slice ar fo fuel (any DeserializeError) input = mp_from_slice sixtyfour fo fuel (any DeserializeError) input).
  { apply (width_targets ar sixtyfour fo val fuel); auto; [apply arch64_up; reflexivity|apply slice64_of; [reflexivity|auto]|]. left. apply any_ok. }
  destruct (any_ends sixtyfour fo eq_refl input fuel S64 F) as (s & r & E). rewrite <- T in E. destruct r as [[v n]|e].
  - left. destruct (any_sound_top ar fo fuel input s v n A S E) as (m & bs & tail & -> & <- & H1 & H2). exists s, v, m, bs, tail. auto.
  - right. exists s, e. split; auto. intros m v bs tail -> H1 H2.
    destruct (any_total ar fo A m bs tail H1 S) as [H _]. destruct (H v H2) as [N HN]. destruct (HN (N + fuel)%nat) as [s' E']; [lia|].
    destruct (budget_irrelevant ar fo _ _ _ _ _ _ _ _ E E') as [_ D]. discriminate D.
Qed.

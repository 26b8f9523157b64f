(** The outcome of a typed decode, by the specification alone (C57). *)
From Verif Require Import Prelude PreludeFacts SerdeSer SerdeDe MpMagick MpSpec MpDe MpDeView MpDeReads MpDeEat
  MpDeTop FloatOps Types TypesFacts TypeSize MpTypeSpec MpTyped MpAny MpTypedTop MpSound MpFaultSpec MpFault MpBlame.
From Verif Require MpFuel.

Section Top.
Context (ar : arch) (fo : float_ops).
Local Notation run := (@mp_run ar fo val).
Local Notation prog t := (denote DeserializeError t).

Lemma fault_named (A32 : arch32up ar) t bs e tail : wf t -> mp_fault fo t bs e -> slice_of ar (bs ++ tail) ->
  exists N, forall fuel, (N <= fuel)%nat -> exists s, mp_from_slice ar fo fuel (prog t) (bs ++ tail) = Done s (Err e).
Proof.
  intros W H Hs. destruct (fault_fails ar fo t bs e H W) as [N HN]. exists N. intros fuel Hf. eapply from_slice_fails; eauto.
Qed.

Context (A64 : arch64 ar).
Lemma error_explained fuel t input s e : wf t -> slice64 input -> mp_from_slice ar fo fuel (prog t) input = Done s (Err e) ->
  e = UnexpectedEof \/ exists bs tail, input = bs ++ tail /\ mp_fault fo t bs e.
Proof.
  intros W Hs E. unfold mp_from_slice, dbind in E.
  assert (Hr : ready ar (de_from_slice input)).
  { apply ready64; auto. cbn. pose proof (zlen_nonneg input). lia. }
  assert (Hb : all_bytes (rest (de_from_slice input))) by apply Hs.
  destruct (r_de (run fuel) (prog t) (de_from_slice input)) as [s1 [a|e1]| |] eqn:E1; try discriminate.
  - exfalso. destruct (denote_sound ar fo (arch64_wide ar A64) t W fuel _ _ _ Hr Hb E1) as (bs & A1 & P1).
    pose proof (ate_ready _ _ _ _ A1) as R1. unfold de_end in E. pose proof (rest_length _ _ R1) as L1.
    destruct (d_index s1 <=? zlen (sl_data (d_input s1))) eqn:E2; [|pose proof (zlen_nonneg (rest s1)); lia].
    match type of E with (if ?b then _ else _) _ = _ => destruct b end; discriminate.
  - injection E as _ <-. destruct (denote_blame ar fo (arch64_wide ar A64) t W fuel _ _ _ Hr Hb E1) as [?|(bs & tl & H1 & H2)]; auto.
    right. exists bs, tl. auto.
Qed.

Theorem outcome_decided t input fuel : wf t -> slice64 input -> (10 * type_size t + 3 * length input <= fuel)%nat ->
  exists s r, mp_from_slice ar fo fuel (prog t) input = Done s r /\
  match r with
  | Ok (v, n) => exists bs tail, input = bs ++ tail /\ zlen bs = n /\ adm fo t v bs
  | Err UnexpectedEof => forall bs tail, input = bs ++ tail -> (forall v, ~ adm fo t v bs) /\ (forall e, ~ mp_fault fo t bs e)
  | Err e => exists bs tail, input = bs ++ tail /\ mp_fault fo t bs e
  end.
Proof.
  intros W Hs Hf. destruct (MpFuel.typed_ends ar fo A64 t input fuel W Hs Hf) as (s & r & E). exists s, r. split; auto.
  destruct r as [[v n]|e]; [eapply typed_sound; eauto|].
  assert (H : e = UnexpectedEof -> forall bs tail, input = bs ++ tail -> (forall v, ~ adm fo t v bs) /\ (forall e, ~ mp_fault fo t bs e)).
  { intros -> bs tail ->. pose proof (slice64_of ar _ A64 Hs) as Hs'. split.
    - intros v Ha. destruct (typed_accepts ar fo (arch64_up ar A64) t v bs tail W Ha Hs') as [N HN].
      destruct (HN N (le_n _)) as [s' E']. destruct (MpFuel.budget_irrelevant ar fo _ _ _ _ _ _ _ _ E E'). discriminate.
    - intros e Ha. destruct (fault_named (arch64_up ar A64) t bs e tail W Ha Hs') as [N HN].
      destruct (HN N (le_n _)) as [s' E']. destruct (MpFuel.budget_irrelevant ar fo _ _ _ _ _ _ _ _ E E') as [_ D].
      injection D as <-. exact (fault_err fo _ _ _ Ha eq_refl). }
  destruct (error_explained fuel t input s e W Hs E) as [->|X]; [exact (H eq_refl)|].
  destruct e; try exact X. exact (H eq_refl).
Qed.

Theorem skip_decided input fuel : slice64 input -> (6 + 3 * length input <= fuel)%nat ->
  exists s r, mp_from_slice ar fo fuel ignored input = Done s r /\
  match r with
  | Ok (_, n) => exists m bs tail, input = bs ++ tail /\ zlen bs = n /\ mp_fmt m bs
  | Err e => e = ReservedCode /\ (exists bs tail, input = bs ++ tail /\ skip_fault bs) \/
      e = UnexpectedEof /\ forall bs tail, input = bs ++ tail -> ~ skip_fault bs /\ forall m, ~ mp_fmt m bs
  end.
Proof.
  intros Hs Hf. destruct (MpFuel.ignored_ends ar fo A64 input fuel Hs Hf) as (s & r & E). exists s, r. split; auto.
  assert (Hr : ready ar (de_from_slice input)).
  { apply ready64; auto. cbn. pose proof (zlen_nonneg input). lia. }
  assert (Hb : all_bytes (rest (de_from_slice input))) by apply Hs.
  pose proof (arch64_wide ar A64) as Wd.
  assert (EF : forall e, r = Err e -> e = UnexpectedEof -> forall bs tail, input = bs ++ tail -> ~ skip_fault bs /\ forall m, ~ mp_fmt m bs).
  { intros e -> -> bs tail ->. pose proof (slice64_of ar _ A64 Hs) as Hs'. split.
    - intros Ha. destruct (fde_skip ar fo bs Ha) as [N HN].
      destruct (from_slice_fails ar fo (arch64_up ar A64) ignored bs ReservedCode tail N Hs' (HN N (le_n _))) as [s' E'].
      destruct (MpFuel.budget_irrelevant ar fo _ _ _ _ _ _ _ _ E E') as [_ D]. discriminate.
    - intros m Hm. destruct (rde_ignored ar fo m bs Hm) as [N HN].
      destruct (from_slice_reads ar fo (arch64_up ar A64) ignored bs UUnit tail N Hs' (HN N (le_n _))) as [s' E'].
      destruct (MpFuel.budget_irrelevant ar fo _ _ _ _ _ _ _ _ E E') as [_ D]. discriminate. }
  clear Hf. unfold mp_from_slice, dbind in E.
  destruct (r_de (run fuel) ignored (de_from_slice input)) as [s1 [a|e1]| |] eqn:E1; try discriminate.
  - destruct (sde_ignored ar fo Wd fuel _ _ _ Hr Hb E1) as (bs & A1 & m & P1).
    pose proof (ate_ready _ _ _ _ A1) as R1. unfold de_end in E. pose proof (rest_length _ _ R1) as L1.
    destruct (d_index s1 <=? zlen (sl_data (d_input s1))) eqn:E2; [|pose proof (zlen_nonneg (rest s1)); lia].
    destruct A1 as [_ A1]. change (rest (de_from_slice input)) with input in A1.
    assert (L : zlen input = zlen bs + zlen (rest s1)) by (rewrite A1 at 1; apply zlen_app).
    match type of E with (if ?b then _ else _) _ = _ => destruct b end; [|discriminate].
    injection E as _ <-. exists m, bs, (rest s1). split; auto. split; auto. lia.
  - injection E as _ <-. destruct (bde_ignored ar fo Wd fuel _ _ _ Hr Hb E1) as [->|(bs & tl & H1 & -> & H2)].
    + right. split; auto. eapply EF; eauto.
    + left. split; auto. exists bs, tl. auto.
Qed.
End Top.

(** At most one verdict: the faults of an input agree, and exclude an encoding. *)
Theorem verdict_unique fo t input bs e tail : wf t -> slice64 input -> input = bs ++ tail -> mp_fault fo t bs e ->
  (forall bs' e' tail', input = bs' ++ tail' -> mp_fault fo t bs' e' -> e' = e) /\
  (forall bs' v tail', input = bs' ++ tail' -> ~ adm fo t v bs').
Proof.
  intros W Hs Hi Hf. set (ar := {| usize_max := 2 ^ 64 - 1; overflow_checks := true |}). assert (A64 : arch64 ar) by reflexivity.
  pose proof (slice64_of ar _ A64 Hs) as Hs'. rewrite Hi in Hs'. destruct (fault_named ar fo (arch64_up ar A64) t bs e tail W Hf Hs') as [N HN].
  destruct (HN N (le_n _)) as [s E]. rewrite <- Hi in *. pose proof (slice64_of ar _ A64 Hs) as Hs2. split.
  - intros bs' e' tail' Hi' Hf'. rewrite Hi' in Hs2. destruct (fault_named ar fo (arch64_up ar A64) t bs' e' tail' W Hf' Hs2) as [N' HN'].
    destruct (HN' N' (le_n _)) as [s' E']. rewrite <- Hi' in *. destruct (MpFuel.budget_irrelevant ar fo _ _ _ _ _ _ _ _ E E') as [_ D]. congruence.
  - intros bs' v tail' Hi' Ha. rewrite Hi' in Hs2. destruct (typed_accepts ar fo (arch64_up ar A64) t v bs' tail' W Ha Hs2) as [N' HN'].
    destruct (HN' N' (le_n _)) as [s' E']. rewrite <- Hi' in *. destruct (MpFuel.budget_irrelevant ar fo _ _ _ _ _ _ _ _ E E') as [_ D]. discriminate.
Qed.

(** The table of families is that of the grammar. *)
Theorem family_right m bs : mp_fmt m bs -> exists c l, bs = c :: l /\ family_of c = family_of_value m.
Proof.
  assert (I : forall z b, int_fmt z b -> exists c l, b = c :: l /\ family_of c = FInt).
  { intros z b H. inversion H; subst; eexists; eexists; (split; [reflexivity|]); unfold family_of;
      repeat match goal with |- context [if ?b then _ else _] => destruct b eqn:? end; try reflexivity; lia. }
  intros H. inversion H as [| | |? ? Hi| | |? h Hv Hh|? h Hv Hh|? h ? Hh|? h ? Hh|? ? h Ht Hd Hh]; subst; cbn [family_of_value]; eauto.
  - inversion Hh; subst; eexists; eexists; (split; [reflexivity|]); try reflexivity. unfold family_of;
      repeat match goal with |- context [if ?b then _ else _] => destruct b eqn:? end; try reflexivity; lia.
  - inversion Hh; subst; eexists; eexists; (split; reflexivity).
  - inversion Hh; subst; eexists; eexists; (split; [reflexivity|]); try reflexivity. unfold family_of;
      repeat match goal with |- context [if ?b then _ else _] => destruct b eqn:? end; try reflexivity; lia.
  - inversion Hh; subst; eexists; eexists; (split; [reflexivity|]); try reflexivity. unfold family_of;
      repeat match goal with |- context [if ?b then _ else _] => destruct b eqn:? end; try reflexivity; lia.
  - inversion Hh; subst; eexists; eexists; (split; reflexivity).
Qed.

Theorem i128_refused U ar fo fuel (v : visitor U mp_de_error) input :
  mp_from_slice ar fo (S fuel) (DReq DI128 v (fun r => r)) input = Done (de_from_slice input) (Err DeserializeError).
Proof. reflexivity. Qed.

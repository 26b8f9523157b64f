(** What the programs of adjacently tagged enums and of structs with flattened fields go
    through: for the proofs that they end (C71, C72). *)
From Verif Require Import Prelude PreludeFacts SerdeSer SerdeDe FloatOps Types TypesFacts TypeSize Content Adjacent Flatten.

Section S.
Context (fo : float_ops) {E : Type} (custom : E).
Local Notation deser := (deser val E).
Local Notation mprog := (mprog val E).

Section L.
Context (names : list bytes) (G : deser -> Prop) (G_ignored : G ignored).
Definition over (p : mprog) : Prop := exists r, p = MRet r.
(** A program that asks for the next relevant key, at most [d] times. *)
Fixpoint level (d : nat) (p : mprog) : Prop :=
  match d with
  | O => False
  | S d => exists k, p = next_relevant custom names k /\ over (k None) /\ forall i, over (k (Some i)) \/
      exists vseed k2, k (Some i) = MVal vseed k2 /\ G vseed /\ (forall e, over (k2 (Err e))) /\ forall u, over (k2 (Ok u)) \/ level d (k2 (Ok u))
  end.
Lemma level_step p : (exists d, level d p) -> exists k, p = MKey (ident custom false names) k /\ (forall e, over (k (Err e))) /\ over (k (Ok None)) /\
  forall u, over (k (Ok (Some u))) \/
    exists vseed k2, k (Ok (Some u)) = MVal vseed k2 /\ G vseed /\ (forall e, over (k2 (Err e))) /\ forall u, over (k2 (Ok u)) \/ exists d, level d (k2 (Ok u)).
Proof.
  intros (d & H). destruct d as [|d]; [destruct H|]. destruct H as (k & -> & Hn & Hs). eexists. split; [rewrite (mfrob_eq (next_relevant _ _ _)); reflexivity|].
  split; [intros e; eexists; reflexivity|]. split; [exact Hn|]. intros u.
  assert (Hi : exists vseed k2, MVal ignored (fun r : result val E => match r with Ok _ => next_relevant custom names k | Err e => MRet (Err e) end) = MVal vseed k2 /\ G vseed /\
      (forall e, over (k2 (Err e))) /\ forall u, over (k2 (Ok u)) \/ exists d, level d (k2 (Ok u))).
  { exists ignored. eexists. split; [reflexivity|]. split; [exact G_ignored|]. split; [intros e; eexists; reflexivity|]. intros w. right. exists (S d). exists k. auto. }
  destruct u; try (right; exact Hi). destruct o as [i|]; [|right; exact Hi].
  destruct (Hs i) as [H|(vseed & k2 & H1 & H2 & H3 & H4)]; [left; exact H|right]. exists vseed, k2. split; [exact H1|]. split; [exact H2|]. split; [exact H3|].
  intros w. destruct (H4 w) as [H|H]; [left; exact H|right; eauto].
Qed.
End L.

Lemma no_more_level names G v : level names G 1 (no_more custom names v).
Proof. eexists. split; [reflexivity|]. split; [eexists; reflexivity|]. intros i. left. eexists. reflexivity. Qed.
Lemma adjacent_level tag content vs (G : deser -> Prop) : G (any custom) -> G (denote custom (tag_ty vs)) ->
  (forall n k t, In (n, k, t) vs -> G (content_seed custom k t)) -> level [tag; content] G 3 (adjacent_map fo custom tag content vs).
Proof.
  intros Ga Gt Gc. set (names := [tag; content]).
  eexists. split; [reflexivity|]. split; [eexists; reflexivity|]. intros [|i]; right.
  - eexists. eexists. split; [reflexivity|]. split; [exact Gt|]. split; [intros e; eexists; reflexivity|]. intros u.
    destruct u as [| | | | | | | | | | | |j w|]; try (left; eexists; reflexivity). cbv beta iota. destruct (nth_error vs j) as [[[n k] t]|] eqn:En; [|left; eexists; reflexivity]. right.
    eexists. split; [reflexivity|]. split; [eexists; reflexivity|]. intros [|i]; [left; eexists; reflexivity|right].
    eexists. eexists. split; [reflexivity|]. split; [eapply Gc, nth_error_In, En|]. split; [intros e; eexists; reflexivity|]. intros v. right. apply no_more_level.
  - eexists. eexists. split; [reflexivity|]. split; [exact Ga|]. split; [intros e; eexists; reflexivity|]. intros c. right.
    eexists. split; [reflexivity|]. split; [eexists; reflexivity|]. intros [|i']; [right|left; eexists; reflexivity].
    eexists. eexists. split; [reflexivity|]. split; [exact Gt|]. split; [intros e; eexists; reflexivity|]. intros u.
    destruct u as [| | | | | | | | | | | |j w|]; try (left; eexists; reflexivity). cbv beta iota. destruct (nth_error vs j) as [[[n k] t]|] eqn:En; [|left; eexists; reflexivity].
    destruct (untagged_variant fo (k, t) c); [right; apply no_more_level|left; eexists; reflexivity].
Qed.

Lemma flat_step names seeds absent g got rest (G : deser -> Prop) : G (any custom) -> (forall seed, In seed seeds -> G seed) ->
  exists k, flat_loop fo custom names seeds absent g got rest = MKey (request DIdentifier (v_flat_ident custom names)) k /\
  (forall e, over (k (Err e))) /\ over (k (Ok None)) /\ forall u, over (k (Ok (Some u))) \/
    exists vseed k2, k (Ok (Some u)) = MVal vseed k2 /\ G vseed /\ (forall e, over (k2 (Err e))) /\ forall u, exists got rest, k2 (Ok u) = flat_loop fo custom names seeds absent g got rest.
Proof.
  intros Ga Gs. eexists. split; [rewrite (mfrob_eq (flat_loop _ _ _ _ _ _ _ _)); reflexivity|].
  split; [intros e; eexists; reflexivity|]. split; [eexists; reflexivity|]. intros u.
  assert (Hi : forall key, exists vseed k2, MVal (any custom) (fun r : result val E => match r with Ok c => flat_loop fo custom names seeds absent g got (rest ++ [(key, c)]) | Err e => MRet (Err e) end) = MVal vseed k2 /\ G vseed /\
      (forall e, over (k2 (Err e))) /\ forall u, exists got rest, k2 (Ok u) = flat_loop fo custom names seeds absent g got rest).
  { intros key. eexists. eexists. split; [reflexivity|]. split; [exact Ga|]. split; [intros e; eexists; reflexivity|]. eauto. }
  destruct u; try (right; apply Hi). destruct o as [i|]; [|right; apply Hi]. cbv beta iota.
  destruct (nth_error seeds i) as [seed|] eqn:Es; [|left; eexists; reflexivity]. destruct (nth_error got i) as [[w|]|]; [left; eexists; reflexivity| |left; eexists; reflexivity].
  right. eexists. eexists. split; [reflexivity|]. split; [eapply Gs, nth_error_In, Es|]. split; [intros e; eexists; reflexivity|]. eauto.
Qed.

(** Sizes *)
Lemma one_of_sum {A} (g : A -> nat) l x : In x l -> (g x <= list_sum (map g l))%nat.
Proof. induction l as [|y l IH]; cbn; [tauto|]. intros [->|H]; [lia|]. specialize (IH H). unfold list_sum in IH. lia. Qed.
Lemma tag_size vs : (type_size (tag_ty vs) <= type_size (TEnum vs))%nat.
Proof.
  unfold tag_ty. cbn [type_size]. apply le_n_S. rewrite map_map. cbn [snd type_size]. induction vs as [|f vs IH]; [auto|]. cbn. unfold list_sum in IH. assert (1 <= type_size (snd f))%nat by (destruct (snd f); cbn; lia). lia.
Qed.
End S.

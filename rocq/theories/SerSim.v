(** Simulation between a serializer run on an arbitrary lawful writer and the
    same run on the list writer. *)
From Verif Require Import Prelude PreludeFacts Writer WriterContract SerMonad SerdeSer.

Section Sim.
Context {W E X : Type} (SW : SerWrite W E) (inv : W -> Prop) (content : W -> bytes).
Hypothesis law : lawful SW inv content.
Variable werr : X -> Prop.

Definition sim {A} (m : SM W X A) (r : SM bytes X A) : Prop :=
  forall w out0, inv w -> exists out,
    fst (r out0) = out0 ++ out /\ inv (fst (m w)) /\
    ((snd (m w) = snd (r out0) /\ content (fst (m w)) = content w ++ out /\
      forall cap, bounded SW inv content cap ->
        cap (fst (m w)) = cap w /\
        ((length (content w) <= cap w)%nat -> (length (content w) + length out <= cap w)%nat))
     \/
     ((exists e, snd (m w) = Err e /\ werr e) /\
      exists p, prefix p out /\ content (fst (m w)) = content w ++ p /\
      forall cap, bounded SW inv content cap ->
        (cap w < length (content w) + length out)%nat)).

Lemma sim_ret {A} (a : A) : sim (sret a) (sret a).
Proof.
  intros w out0 I. exists []. cbn. rewrite !app_nil_r. repeat split; auto.
  left. rewrite Nat.add_0_r. auto.
Qed.

Lemma sim_fail {A} e : sim (@sfail W X A e) (sfail e).
Proof.
  intros w out0 I. exists []. cbn. rewrite !app_nil_r. repeat split; auto.
  left. rewrite Nat.add_0_r. auto.
Qed.

Lemma sim_bind {A B} (m : SM W X A) r (f : A -> SM W X B) g :
  sim m r -> (forall a, sim (f a) (g a)) -> sim (sbind m f) (sbind r g).
Proof.
  intros Hm Hf w out0 I. destruct (Hm w out0 I) as (o1 & E1 & I1 & H).
  unfold sbind. destruct (m w) as [w1 r1], (r out0) as [b1 rr1]. cbn [fst snd] in *. subst b1.
  destruct H as [(-> & C1 & K1) | ((e & -> & We) & p & Pp & C1 & K1)].
  - destruct rr1 as [a|e].
    + destruct (Hf a w1 (out0 ++ o1) I1) as (o2 & E2 & I2 & H2).
      destruct (f a w1) as [w2 r2], (g a (out0 ++ o1)) as [b2 rr2]. cbn [fst snd] in *.
      exists (o1 ++ o2). rewrite app_assoc. split; [auto|]. split; [auto|].
      destruct H2 as [(-> & C2 & K2) | (He & p & Pp & C2 & K2)].
      * left. rewrite C2, C1, app_assoc. split; [auto|]. split; [auto|].
        intros cap Hb. destruct (K1 cap Hb) as [c1 l1], (K2 cap Hb) as [c2 l2].
        rewrite C1, app_length in l2. rewrite app_length. split; [congruence|]. lia.
      * right. split; auto. exists (o1 ++ p). rewrite C2, C1, app_assoc.
        split; [apply prefix_app; auto|]. split; [auto|].
        intros cap Hb. destruct (K1 cap Hb) as [c1 l1]. specialize (K2 cap Hb).
        rewrite C1, app_length in K2. rewrite app_length. lia.
    + exists o1. cbn [fst snd]. split; [auto|]. split; [auto|]. left. auto.
  - destruct rr1 as [a|e'].
    + assert (I1' := I1). destruct (Hf a w1 (out0 ++ o1) I1') as (o2 & E2 & _).
      destruct (g a (out0 ++ o1)) as [b2 rr2]. cbn [fst snd] in *.
      exists (o1 ++ o2). rewrite app_assoc. split; [auto|]. split; [auto|]. right.
      split; [eauto|]. exists p. split; [apply prefix_app_l; auto|]. split; [auto|].
      intros cap Hb. specialize (K1 cap Hb). rewrite app_length. lia.
    + exists o1. cbn [fst snd]. split; [auto|]. split; [auto|]. right. split; [eauto|].
      exists p. auto.
Qed.

Lemma sim_op (inj : E -> X) (f : W -> W * result unit E) bs :
  (forall e, werr (inj e)) ->
  appends inv content f bs ->
  (forall cap, bounded SW inv content cap -> fits inv content cap f (length bs)) ->
  sim (slift inj f) (slift inj (fun out : bytes => (out ++ bs, Ok tt))).
Proof.
  intros Hi Ha Hb w out0 I. exists bs. unfold slift.
  specialize (Ha w). destruct (f w) as [w' r] eqn:F. cbn [fst snd].
  destruct (Ha w' r I eq_refl) as [I' H].
  split; [auto|]. split; [auto|]. destruct r as [[]|e].
  - left. split; [auto|]. split; [auto|].
    intros cap B. destruct (Hb cap B w w' _ I F) as [c k]. split; auto.
    intros _. apply k. auto.
  - right. destruct H as (p & Pp & C). split; [eauto|]. exists p. split; [auto|]. split; [auto|].
    intros cap B. destruct (Hb cap B w w' _ I F) as [c k].
    destruct (Nat.le_gt_cases (length (content w) + length bs) (cap w)) as [G|G]; auto.
    apply k in G. discriminate.
Qed.

Lemma sim_write inj bs : (forall e, werr (inj e)) ->
  sim (slift inj (fun w => sw_write SW w bs)) (slift inj (fun w => sw_write VecWriter w bs)).
Proof.
  intros. apply sim_op; auto. apply law. intros cap B. apply (bounded_write _ _ _ _ B).
Qed.
Lemma sim_write_byte inj b : (forall e, werr (inj e)) ->
  sim (slift inj (fun w => sw_write_byte SW w b)) (slift inj (fun w => sw_write_byte VecWriter w b)).
Proof.
  intros. apply (sim_op inj _ [b]); auto. apply law. intros cap B. apply (bounded_byte _ _ _ _ B).
Qed.
Lemma sim_write_str inj bs : (forall e, werr (inj e)) ->
  sim (slift inj (fun w => sw_write_str SW w bs)) (slift inj (fun w => sw_write_str VecWriter w bs)).
Proof.
  intros. apply sim_op; auto. apply law. intros cap B. apply (bounded_str _ _ _ _ B).
Qed.

Lemma sim_if {A} (b : bool) (m1 m2 : SM W X A) r1 r2 :
  sim m1 r1 -> sim m2 r2 -> sim (if b then m1 else m2) (if b then r1 else r2).
Proof. destruct b; auto. Qed.

Lemma sim_opt {A B} (o : option B) (m1 : B -> SM W X A) m2 r1 r2 :
  (forall b, sim (m1 b) (r1 b)) -> sim m2 r2 ->
  sim (match o with Some b => m1 b | None => m2 end) (match o with Some b => r1 b | None => r2 end).
Proof. destruct o; auto. Qed.

(** Consequences. *)
Lemma sim_ok m r w w' : sim m r -> inv w -> m w = (w', Ok tt) ->
  exists out, r [] = (out, Ok tt) /\ content w' = content w ++ out.
Proof.
  intros H I Em. destruct (H w [] I) as (out & E1 & _ & H1). rewrite Em in H1. cbn [fst snd] in *.
  destruct (r []) as [b rr]. cbn [fst snd] in *. subst b. exists out.
  destruct H1 as [(<- & C & _) | ((e & [=] & _) & _)]. auto.
Qed.

Lemma sim_err m r w w' e : sim m r -> inv w -> m w = (w', @Err unit X e) -> ~ werr e ->
  exists out, r [] = (out, Err e) /\ content w' = content w ++ out.
Proof.
  intros H I Em Hn. destruct (H w [] I) as (out & E1 & _ & H1). rewrite Em in H1. cbn [fst snd] in *.
  destruct (r []) as [b rr]. cbn [fst snd] in *. subst b. exists out.
  destruct H1 as [(<- & C & _) | ((e' & [= <-] & We) & _)]; [auto|tauto].
Qed.

Lemma sim_any m (r : SM bytes X unit) w : sim m r -> inv w ->
  exists out, fst (r []) = out /\
  exists p, prefix p out /\ content (fst (m w)) = content w ++ p /\
    (snd (m w) = snd (r []) /\ p = out \/ exists e, snd (m w) = Err e /\ werr e).
Proof.
  intros H I. destruct (H w [] I) as (out & E1 & _ & H1). exists out. split; [exact E1|].
  destruct H1 as [(R & C & _) | (He & p & Pp & C & _)].
  - exists out. split; [apply prefix_refl|]. auto.
  - exists p. auto.
Qed.

Lemma sim_capacity m (r : SM bytes X unit) w cap out :
  sim m r -> inv w -> bounded SW inv content cap -> (length (content w) <= cap w)%nat ->
  r [] = (out, Ok tt) ->
  (snd (m w) = Ok tt <-> (length (content w) + length out <= cap w)%nat).
Proof.
  intros H I B L R. destruct (H w [] I) as (out' & E1 & _ & H1). rewrite R in *. cbn [fst snd app] in *.
  subst out'. destruct H1 as [(-> & C & K) | ((e & -> & _) & p & _ & _ & K)].
  - destruct (K cap B) as [_ K']. split; auto.
  - specialize (K cap B). split; [discriminate|lia].
Qed.
End Sim.

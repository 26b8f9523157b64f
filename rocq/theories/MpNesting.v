(** MessagePack decoding on a bounded stack (C60): where the bounded and the unbounded
    deserializer agree. *)
From Verif Require Import Prelude PreludeFacts SerdeSer SerdeDe FloatOps MpDe MpDeView MpDeReads MpDeEat MpDeSafe
  Types TypesFacts TypeDepth MpDepth Nesting MpTyped MpAny.
Ltac Zify.zify_post_hook ::= Z.div_mod_to_equations.

Section MpNesting.
Context (ar : arch) (fo : float_ops).
Local Notation M := (DM mpde mp_de_error).
Local Notation deep := (@mp_deep ar fo val).
Local Notation run := (@mp_run ar fo val).

Lemma bind_eq {A B} (m : M A) (k k' : A -> M B) s : (forall a s', m s = Done s' (Ok a) -> k a s' = k' a s') -> dbind m k s = dbind m k' s.
Proof. intros H. unfold dbind. destruct (m s) as [s' [a|e]| |]; auto. Qed.
Lemma try_eq {A B} (m : M A) (k k' : result A mp_de_error -> M B) s : (forall r s', m s = Done s' r -> k r s' = k' r s') -> dtry m k s = dtry m k' s.
Proof. intros H. unfold dtry. destruct (m s) as [s' r| |]; auto. Qed.
Lemma bind_eql {A B} (m m' : M A) (k : A -> M B) s : m s = m' s -> dbind m k s = dbind m' k s.
Proof. unfold dbind. intros ->. reflexivity. Qed.
Lemma try_eql {A B} (m m' : M A) (k k' : result A mp_de_error -> M B) s : m s = m' s -> (forall r s', m' s = Done s' r -> k r s' = k' r s') -> dtry m k s = dtry m' k' s.
Proof. unfold dtry. intros -> H. destruct (m' s) as [s' r| |]; auto. Qed.

Definition moves {A} (P : mpde -> Prop) (m : M A) (Q : mpde -> Prop) : Prop := forall s s' r, P s -> m s = Done s' r -> Q s'.
Lemma moves_bind {A B} P Q (m : M A) (k : A -> M B) : moves P m Q -> (forall a, moves Q (k a) Q) -> moves P (dbind m k) Q.
Proof.
  intros H1 H2 s s' r Hs E. unfold dbind in E. destruct (m s) as [s1 [a|e]| |] eqn:Em; try discriminate.
  - exact (H2 a s1 s' r (H1 _ _ _ Hs Em) E).
  - injection E as <- <-. exact (H1 _ _ _ Hs Em).
Qed.
Lemma moves_ret {A} P (r : result A mp_de_error) : moves P (dlift r) P.
Proof. intros s s' r' Hs E. injection E as <- _. exact Hs. Qed.

Section Methods.
Context (R R' : @runner val) (v : visitor val mp_de_error) (P Q : mpde -> Prop).
Context (Kf : forall s s' c, P s -> fetch ar s = Done s' (Ok c) -> Q s')
  (Ke : forall s c s' r, P s -> peek s = Done s (Ok c) -> eat_some ar 1 s = Done s' r -> P s')
  (K2 : moves Q (fetch_u16 ar) Q) (K4 : moves Q (fetch_u32 ar) Q).
Context (Hs : forall n s, Q s -> r_seq R (visit_seq v) n s = r_seq R' (visit_seq v) n s)
  (Hm : forall n s, Q s -> r_map R (visit_map v) n s = r_map R' (visit_map v) n s).

Lemma moves_usize : moves Q (n <-- fetch_u32 ar ;; try_usize ar n) Q.
Proof. apply moves_bind; [exact K4|]. intros a. unfold try_usize. destruct (_ <=? _); apply moves_ret. Qed.
Lemma eq_seq s : P s -> deserialize_seq ar R v s = deserialize_seq ar R' v s.
Proof.
  intros H. unfold deserialize_seq. apply bind_eq. intros c s1 E. apply (Kf _ _ _ H) in E. apply bind_eq. intros n s2 E2. apply bind_eql, Hs.
  revert E2. repeat match goal with |- (if ?b then _ else _) _ = _ -> _ => destruct b end; intros E2.
  - injection E2 as <- _. exact E.
  - exact (K2 _ _ _ E E2).
  - exact (moves_usize _ _ _ E E2).
  - discriminate.
Qed.
Lemma eq_map s : P s -> deserialize_map ar R v s = deserialize_map ar R' v s.
Proof.
  intros H. unfold deserialize_map. apply bind_eq. intros c s1 E. apply (Kf _ _ _ H) in E. apply bind_eq. intros n s2 E2. apply bind_eql, Hm.
  revert E2. repeat match goal with |- (if ?b then _ else _) _ = _ -> _ => destruct b end; intros E2.
  - injection E2 as <- _. exact E.
  - exact (K2 _ _ _ E E2).
  - exact (moves_usize _ _ _ E E2).
  - discriminate.
Qed.
Lemma eq_struct s : P s -> deserialize_struct ar R v s = deserialize_struct ar R' v s.
Proof.
  intros H. unfold deserialize_struct. apply bind_eq. intros c s1 E. apply (Kf _ _ _ H) in E. apply bind_eq. intros n s2 E2. apply bind_eql.
  assert (Q s2). 2: { destruct (fst n); auto. }
  assert (M2 : forall b : bool, moves Q (n <-- fetch_u16 ar ;; dret (b, n)) Q).
  { intros b. apply moves_bind; [exact K2|]. intros a. apply moves_ret. }
  assert (M4 : forall b : bool, moves Q (n <-- fetch_u32 ar ;; n <-- try_usize ar n ;; dret (b, n)) Q).
  { intros b. apply moves_bind; [exact K4|]. intros a. apply moves_bind; [unfold try_usize; destruct (_ <=? _); apply moves_ret|]. intros; apply moves_ret. }
  revert E2. repeat match goal with |- (if ?b then _ else _) _ = _ -> _ => destruct b end; intros E2;
  lazymatch type of E2 with
  | dret _ _ = _ => injection E2 as <- _; exact E
  | dfail _ _ = _ => discriminate
  | dbind (fetch_u16 _) _ _ = _ => exact (M2 _ _ _ _ E E2)
  | dbind (fetch_u32 _) _ _ = _ => exact (M4 _ _ _ _ E E2)
  end.
Qed.
Lemma eq_enum s : (forall u s, P s -> r_enum R u (visit_enum v) s = r_enum R' u (visit_enum v) s) -> P s -> deserialize_enum ar R v s = deserialize_enum ar R' v s.
Proof.
  intros He H. unfold deserialize_enum. apply bind_eq. intros c s1 E. assert (P1 : s1 = s).
  { unfold peek in E. destruct (nth_error _ _); inversion E; subst; auto. }
  subst s1.
  destruct (_ =? _); [|auto]. apply bind_eq. intros u s2 E2. apply He. exact (Ke _ _ _ _ H E E2).
Qed.
Lemma eq_option s : (forall s, P s -> r_de R (visit_some v) s = r_de R' (visit_some v) s) -> P s -> deserialize_option ar R v s = deserialize_option ar R' v s.
Proof.
  intros He H. unfold deserialize_option. apply bind_eq. intros c s1 E. assert (P1 : P s1).
  { unfold peek in E. destruct (nth_error _ _); inversion E; subst; auto. }
  destruct (_ =? _); auto.
Qed.
Lemma eq_any s : P s -> deserialize_any ar fo R v s = deserialize_any ar fo R' v s.
Proof.
  intros H. unfold deserialize_any. apply bind_eq. intros c s1 E. assert (P1 : P s1).
  { unfold peek in E. destruct (nth_error _ _); inversion E; subst; auto. }
  repeat (match goal with |- (if ?b then _ else _) _ = _ => destruct b end; [lazymatch goal with |- deserialize_seq _ _ _ _ = _ => apply eq_seq; exact P1 | |- deserialize_map _ _ _ _ = _ => apply eq_map; exact P1 | |- _ => reflexivity end|]); reflexivity.
Qed.
Lemma eq_method m s : P s ->
  (m = DIgnoredAny -> r_eat R s = r_eat R' s) ->
  (m = DEnum -> forall u s, P s -> r_enum R u (visit_enum v) s = r_enum R' u (visit_enum v) s) ->
  (m = DOption -> forall s, P s -> r_de R (visit_some v) s = r_de R' (visit_some v) s) ->
  (m = DNewtypeStruct -> r_de R (visit_newtype v) s = r_de R' (visit_newtype v) s) ->
  mp_method ar fo R m v s = mp_method ar fo R' m v s.
Proof.
  intros H Hi He Ho Hn. destruct m; cbn [mp_method];
  lazymatch goal with
  | |- deserialize_seq _ _ _ _ = _ => apply eq_seq; exact H
  | |- deserialize_map _ _ _ _ = _ => apply eq_map; exact H
  | |- deserialize_struct _ _ _ _ = _ => apply eq_struct; exact H
  | |- deserialize_any _ _ _ _ _ = _ => apply eq_any; exact H
  | |- deserialize_enum _ _ _ _ = _ => apply eq_enum; [apply He; reflexivity|exact H]
  | |- deserialize_option _ _ _ _ = _ => apply eq_option; [apply Ho; reflexivity|exact H]
  | |- deserialize_newtype_struct _ _ _ = _ => apply Hn; reflexivity
  | |- deserialize_ignored_any _ _ _ = _ => idtac
  | |- _ => reflexivity
  end.
  unfold deserialize_ignored_any. apply bind_eql. auto.
Qed.
End Methods.

(** ** Types *)
Section Typed.
Context (G : deser val mp_de_error -> Prop) (K : nat) (P : mpde -> Prop).
Context (Kf : forall s s' c, P s -> fetch ar s = Done s' (Ok c) -> P s')
  (Ke : forall s c s' r, P s -> peek s = Done s (Ok c) -> eat_some ar 1 s = Done s' r -> P s')
  (K2 : moves P (fetch_u16 ar) P) (K4 : moves P (fetch_u32 ar) P)
  (Kr : forall f p, moves P (r_de (run f) p) P).
Context (HG : forall f d p s, G p -> (K <= d)%nat -> P s -> r_de (deep f d) p s = r_de (run f) p s).

Lemma typed_eq f : forall d,
  (forall p s, P s -> dd G K f d p -> r_de (deep f d) p s = r_de (run f) p s) /\
  (forall p n s, P s -> sd G K f d p -> r_seq (deep f d) p n s = r_seq (run f) p n s) /\
  (forall p n s, P s -> md G K f d p -> r_map (deep f d) p n s = r_map (run f) p n s) /\
  (forall p u s, P s -> ed G K f d p -> r_enum (deep f d) u p s = r_enum (run f) u p s).
Proof.
  induction f as [|f IH]; intros d; [repeat split; reflexivity|].
  set (R := frame (deep f d) (match d with O => None | S d => Some (deep f d) end)).
  assert (Hn : forall p s, P s -> nest G K f d p -> r_de R p s = r_de (run f) p s).
  { intros p s Hs [(d' & -> & H)|[H1 H2]].
    - apply (proj1 (IH d') p s Hs H).
    - destruct d as [|d]; [lia|]. apply (HG f d p s H2); [lia|exact Hs]. }
  destruct (IH d) as (I1 & I2 & I3 & I4). split; [|split; [|split]].
  - intros p s Hs H. destruct p as [r|k|m v post]; [reflexivity|apply I1; [exact Hs|apply H]|].
    change (dpost post (mp_method ar fo R m v) s = dpost post (mp_method ar fo (run f) m v) s).
    destruct H as (H0 & H1 & H2 & H3 & H4 & H5). apply try_eql; [|reflexivity].
    apply (eq_method R (run f) v P P); auto.
    + intros n s1 Hs1. apply I2; [exact Hs1|exact H1].
    + intros n s1 Hs1. apply I3; [exact Hs1|exact H2].
    + intros E; contradiction.
    + intros E u s1 Hs1. apply I4; [exact Hs1|exact (H3 E)].
    + intros E s1 Hs1. apply Hn; auto. exact (H4 E).
    + intros E. apply Hn; auto. exact (H5 E).
  - intros p n s Hs H. change (step_seq R p n s = step_seq (run f) p n s). destruct p as [r|seed k|k]; cbn [step_seq]; [reflexivity| |apply I2; [exact Hs|apply H]].
    destruct H as [H1 H2]. destruct (n =? 0); [apply I2; [exact Hs|apply H2]|]. apply try_eql; [apply Hn; [exact Hs|exact H1]|]. intros r s1 E. apply I2; [|apply H2]. exact (Kr _ _ _ _ _ Hs E).
  - intros p n s Hs H. change (step_map R p n s = step_map (run f) p n s). destruct p as [r|seed k|seed k|k]; cbn [step_map]; [reflexivity| | |apply I3; [exact Hs|apply H]].
    + destruct H as [H1 H2]. destruct (n =? 0); [apply I3; [exact Hs|apply H2]|]. apply try_eql; [apply Hn; [exact Hs|exact H1]|]. intros r s1 E. apply I3; [|apply H2]. exact (Kr _ _ _ _ _ Hs E).
    + destruct H as [H1 H2]. apply try_eql; [apply Hn; [exact Hs|exact H1]|]. intros r s1 E. apply I3; [|apply H2]. exact (Kr _ _ _ _ _ Hs E).
  - intros p u s Hs H. change (step_enum ar R u p s = step_enum ar (run f) u p s). destruct p as [r|seed kerr kok]; cbn [step_enum]; [reflexivity|].
    destruct H as [H1 H2]. apply try_eql; [apply Hn; [exact Hs|exact H1]|]. intros r s1 E. pose proof (Kr _ _ _ _ _ Hs E) as Hs1. destruct r as [a|e]; [|reflexivity].
    specialize (H2 a). destruct (kok a) as [r|k|seed' post|v post|v post]; cbn [run_variant]; try reflexivity; (apply try_eql; [|reflexivity]); destruct u; try reflexivity.
    + apply Hn; [exact Hs1|exact H2].
    + apply (eq_seq R (run f) v P P Kf K2 K4); [|exact Hs1]. intros n s2 Hs2. apply I2; [exact Hs2|exact H2].
    + apply (eq_struct R (run f) v P P Kf K2 K4); [| |exact Hs1]; intros n s2 Hs2; [apply I2|apply I3]; try exact Hs2; apply H2.
Qed.
End Typed.
End MpNesting.

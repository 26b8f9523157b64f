(** JSON decoding on a bounded stack (C60): where the bounded and the unbounded
    deserializer agree. *)
From Verif Require Import Prelude PreludeFacts SerdeSer SerdeDe JsonDe Types TypesFacts TypeDepth JsonDepth Nesting.
Ltac Zify.zify_post_hook ::= Z.div_mod_to_equations.

Section JsonNesting.
Context (ar : arch) (fl : float_parser) (any_f32 : bool) (dec : byte_decoder).
Local Notation M := (DM jde js_de_error).
Local Notation deep := (@js_deep ar fl any_f32 dec val).
Local Notation run := (@js_run ar fl any_f32 dec val).

Lemma bind_eq {A B} (m : M A) (k k' : A -> M B) s : (forall a s', m s = Done s' (Ok a) -> k a s' = k' a s') -> dbind m k s = dbind m k' s.
Proof. intros H. unfold dbind. destruct (m s) as [s' [a|e]| |]; auto. Qed.
Lemma try_eq {A B} (m : M A) (k k' : result A js_de_error -> M B) s : (forall r s', m s = Done s' r -> k r s' = k' r s') -> dtry m k s = dtry m k' s.
Proof. intros H. unfold dtry. destruct (m s) as [s' r| |]; auto. Qed.
Lemma bind_eql {A B} (m m' : M A) (k : A -> M B) s : m s = m' s -> dbind m k s = dbind m' k s.
Proof. unfold dbind. intros ->. reflexivity. Qed.
Lemma try_eql {A B} (m m' : M A) (k k' : result A js_de_error -> M B) s : m s = m' s -> (forall r s', m' s = Done s' r -> k r s' = k' r s') -> dtry m k s = dtry m' k' s.
Proof. unfold dtry. intros -> H. destruct (m' s) as [s' r| |]; auto. Qed.

Definition jmoves {A} (P : jde -> Prop) (m : M A) (Q : jde -> Prop) : Prop := forall s s' r, P s -> m s = Done s' r -> Q s'.
Lemma jmoves_bind {A B} P Q (m : M A) (k : A -> M B) : jmoves P m Q -> (forall a, jmoves Q (k a) Q) -> jmoves P (dbind m k) Q.
Proof.
  intros H1 H2 s s' r Hs E. unfold dbind in E. destruct (m s) as [s1 [a|e]| |] eqn:Em; try discriminate.
  - exact (H2 a s1 s' r (H1 _ _ _ Hs Em) E).
  - injection E as <- <-. exact (H1 _ _ _ Hs Em).
Qed.

Section Methods.
Context (R R' : @jrunner val) (v : visitor val js_de_error) (P Q : jde -> Prop).
Context (KQ : forall s, Q s -> P s) (Kw : jmoves P eat_whitespace P)
  (Ke : forall s s1 s2 c r, P s -> eat_whitespace s = Done s1 (Ok c) -> j_eat_some 1 s1 = Done s2 r -> Q s2).
Context (Hs : forall n s, Q s -> jr_seq R (visit_seq v) n s = jr_seq R' (visit_seq v) n s)
  (Hm : forall n s, Q s -> jr_map R (visit_map v) n s = jr_map R' (visit_map v) n s).

Lemma eq_seq s : P s -> j_deserialize_seq R v s = j_deserialize_seq R' v s.
Proof.
  intros H. unfold j_deserialize_seq. apply bind_eq. intros c s1 E. destruct (c =? 91); [|reflexivity].
  apply bind_eq. intros u s2 E2. apply bind_eql, Hs. exact (Ke _ _ _ _ _ H E E2).
Qed.
Lemma eq_map s : P s -> j_deserialize_map R v s = j_deserialize_map R' v s.
Proof.
  intros H. unfold j_deserialize_map. apply bind_eq. intros c s1 E. destruct (c =? 123); [|reflexivity].
  apply bind_eq. intros u s2 E2. apply bind_eql, Hm. exact (Ke _ _ _ _ _ H E E2).
Qed.
Lemma eq_struct s : P s -> j_deserialize_struct R v s = j_deserialize_struct R' v s.
Proof.
  intros H. unfold j_deserialize_struct. apply bind_eq. intros c s1 E. pose proof (Kw _ _ _ H E) as H1.
  destruct (c =? 123); [apply eq_map, H1|]. destruct (c =? 91); [apply eq_seq, H1|reflexivity].
Qed.
Lemma eq_enum s : (forall u s, P s -> jr_enum R u (visit_enum v) s = jr_enum R' u (visit_enum v) s) -> P s -> j_deserialize_enum R v s = j_deserialize_enum R' v s.
Proof.
  intros He H. unfold j_deserialize_enum. apply bind_eq. intros c s1 E. pose proof (Kw _ _ _ H E) as H1.
  destruct (c =? 34); [apply He, H1|]. destruct (c =? 123); [|reflexivity]. apply bind_eq. intros u s2 E2. apply bind_eql, He, KQ. exact (Ke _ _ _ _ _ H E E2).
Qed.
Lemma eq_option s : (forall s, P s -> jr_de R false (visit_some v) s = jr_de R' false (visit_some v) s) -> P s -> j_deserialize_option R v s = j_deserialize_option R' v s.
Proof.
  intros He H. unfold j_deserialize_option. apply bind_eq. intros c s1 E. pose proof (Kw _ _ _ H E) as H1. destruct (c =? 110); [reflexivity|apply He, H1].
Qed.
Lemma eq_any s : P s -> j_deserialize_any fl any_f32 R v s = j_deserialize_any fl any_f32 R' v s.
Proof.
  intros H. unfold j_deserialize_any. apply bind_eq. intros c s1 E. pose proof (Kw _ _ _ H E) as H1.
  repeat (match goal with |- (if ?b then _ else _) _ = _ => destruct b end;
    [lazymatch goal with |- j_deserialize_seq _ _ _ = _ => apply eq_seq; exact H1 | |- j_deserialize_map _ _ _ = _ => apply eq_map; exact H1 | |- _ => reflexivity end|]).
  reflexivity.
Qed.
Lemma eq_ignored s : P s -> j_deserialize_ignored_any R v s = j_deserialize_ignored_any R' v s.
Proof.
  intros H. unfold j_deserialize_ignored_any. apply bind_eq. intros c s1 E. pose proof (Kw _ _ _ H E) as H1.
  repeat (match goal with |- (if ?b then _ else _) _ = _ => destruct b end;
    [lazymatch goal with |- j_deserialize_seq _ _ _ = _ => apply eq_seq; exact H1 | |- j_deserialize_map _ _ _ = _ => apply eq_map; exact H1 | |- _ => reflexivity end|]).
  reflexivity.
Qed.
Lemma eq_method m s : P s ->
  (m = DEnum -> forall u s, P s -> jr_enum R u (visit_enum v) s = jr_enum R' u (visit_enum v) s) ->
  (m = DOption -> forall s, P s -> jr_de R false (visit_some v) s = jr_de R' false (visit_some v) s) ->
  (m = DNewtypeStruct -> jr_de R false (visit_newtype v) s = jr_de R' false (visit_newtype v) s) ->
  js_method ar fl any_f32 dec R m v s = js_method ar fl any_f32 dec R' m v s.
Proof.
  intros H He Ho Hn. destruct m; cbn [js_method];
  lazymatch goal with
  | |- j_deserialize_seq _ _ _ = _ => apply eq_seq; exact H
  | |- j_deserialize_map _ _ _ = _ => apply eq_map; exact H
  | |- j_deserialize_struct _ _ _ = _ => apply eq_struct; exact H
  | |- j_deserialize_any _ _ _ _ _ = _ => apply eq_any; exact H
  | |- j_deserialize_ignored_any _ _ _ = _ => apply eq_ignored; exact H
  | |- j_deserialize_enum _ _ _ = _ => apply eq_enum; [apply He; reflexivity|exact H]
  | |- j_deserialize_option _ _ _ = _ => apply eq_option; [apply Ho; reflexivity|exact H]
  | |- j_deserialize_newtype_struct _ _ _ = _ => apply Hn; reflexivity
  | |- _ => reflexivity
  end.
Qed.
Lemma eq_key m s : P s ->
  (m = DEnum -> forall u s, P s -> jr_enum R u (visit_enum v) s = jr_enum R' u (visit_enum v) s) ->
  key_method R m v s = key_method R' m v s.
Proof.
  intros H He. destruct m; cbn [key_method];
  lazymatch goal with
  | |- jr_enum _ _ _ _ = _ => apply He; [reflexivity|exact H]
  | |- _ => reflexivity
  end.
Qed.
End Methods.

(** ** Types *)
Section Typed.
Context (G : deser val js_de_error -> Prop) (K : nat) (P At : jde -> Prop).
Context (Kw : jmoves P eat_whitespace P)
  (Ke : forall s s1 s2 c r, P s -> eat_whitespace s = Done s1 (Ok c) -> j_eat_some 1 s1 = Done s2 r -> P s2)
  (Kn : forall close e1 e2 e3 first, jmoves P (next_item close e1 e2 e3 first) P)
  (Kt : forall close e1 e2 e3 first s s' f, P s -> next_item close e1 e2 e3 first s = Done s' (Ok (Some (34, f))) -> At s')
  (Kc : jmoves P parse_key_colon P)
  (Kr : forall f p, jmoves P (jr_de (run f) false p) P)
  (Kk : forall f p, jmoves (fun s => P s /\ At s) (jr_de (run f) true p) P).
Context (HG : forall f d key p s, G p -> (K <= d)%nat -> P s -> jr_de (deep f d) key p s = jr_de (run f) key p s).

Lemma typed_eq f : forall d,
  (forall key p s, P s -> dd G K f d p -> jr_de (deep f d) key p s = jr_de (run f) key p s) /\
  (forall p n s, P s -> sd G K f d p -> jr_seq (deep f d) p n s = jr_seq (run f) p n s) /\
  (forall p n s, P s -> md G K f d p -> jr_map (deep f d) p n s = jr_map (run f) p n s) /\
  (forall p u s, P s -> ed G K f d p -> jr_enum (deep f d) u p s = jr_enum (run f) u p s).
Proof.
  induction f as [|f IH]; intros d; [repeat split; reflexivity|].
  set (R := jframe (deep f d) (match d with O => None | S d => Some (deep f d) end)).
  assert (Hn : forall key p s, P s -> nest G K f d p -> jr_de R key p s = jr_de (run f) key p s).
  { intros key p s Hs [(d' & -> & H)|[H1 H2]].
    - apply (proj1 (IH d') key p s Hs H).
    - destruct d as [|d]; [lia|]. apply (HG f d key p s H2); [lia|exact Hs]. }
  destruct (IH d) as (I1 & I2 & I3 & I4). split; [|split; [|split]].
  - intros key p s Hs H. destruct p as [r|k|m v post]; [reflexivity|apply I1; [exact Hs|apply H]|].
    change (dpost post (if key then key_method R m v else js_method ar fl any_f32 dec R m v) s = dpost post (if key then key_method (run f) m v else js_method ar fl any_f32 dec (run f) m v) s).
    destruct H as (H0 & H1 & H2 & H3 & H4 & H5). apply try_eql; [|reflexivity]. destruct key.
    + apply (eq_key R (run f) v P); [exact Hs|]. intros E u s1 Hs1. apply I4; [exact Hs1|exact (H3 E)].
    + apply (eq_method R (run f) v P P); auto.
      * intros n s1 Hs1. apply I2; [exact Hs1|exact H1].
      * intros n s1 Hs1. apply I3; [exact Hs1|exact H2].
      * intros E u s1 Hs1. apply I4; [exact Hs1|exact (H3 E)].
      * intros E s1 Hs1. apply Hn; [exact Hs1|exact (H4 E)].
      * intros E. apply Hn; [exact Hs|exact (H5 E)].
  - intros p n s Hs H. change (j_step_seq R p n s = j_step_seq (run f) p n s). destruct p as [r|seed k|k]; cbn [j_step_seq]; [reflexivity| |apply I2; [exact Hs|apply H]].
    destruct H as [H1 H2]. apply try_eq. intros r s1 E. pose proof (Kn _ _ _ _ _ _ _ _ Hs E) as Hs1. destruct r as [[[c n']|]|e]; [|apply I2; [exact Hs1|apply H2]|apply I2; [exact Hs1|apply H2]].
    apply try_eql; [apply Hn; [exact Hs1|exact H1]|]. intros r s2 E2. apply I2; [exact (Kr _ _ _ _ _ Hs1 E2)|apply H2].
  - intros p n s Hs H. change (j_step_map R p n s = j_step_map (run f) p n s). destruct p as [r|seed k|seed k|k]; cbn [j_step_map]; [reflexivity| | |apply I3; [exact Hs|apply H]].
    + destruct H as [H1 H2]. apply try_eq. intros r s1 E. pose proof (Kn _ _ _ _ _ _ _ _ Hs E) as Hs1. destruct r as [[[c n']|]|e]; [|apply I3; [exact Hs1|apply H2]|apply I3; [exact Hs1|apply H2]].
      destruct (c =? 34) eqn:Ec; [|apply I3; [exact Hs1|apply H2]].
      apply try_eql; [apply Hn; [exact Hs1|exact H1]|]. intros r s2 E2. apply I3; [|apply H2].
      apply Z.eqb_eq in Ec. subst c. exact (Kk _ _ _ _ _ (conj Hs1 (Kt _ _ _ _ _ _ _ _ Hs E)) E2).
    + destruct H as [H1 H2]. apply try_eql.
      * apply bind_eq. intros u s1 E. apply Hn; [exact (Kc _ _ _ Hs E)|exact H1].
      * intros r s2 E2. apply I3; [|apply H2]. exact (jmoves_bind P P _ _ Kc (fun _ => Kr f seed) _ _ _ Hs E2).
  - intros p u s Hs H. change (j_step_enum R u p s = j_step_enum (run f) u p s). destruct p as [r|seed kerr kok]; cbn [j_step_enum]; [reflexivity|].
    destruct H as [H1 H2]. apply try_eql; [apply bind_eql, Hn; [exact Hs|exact H1]|]. intros r s1 E.
    assert (Hs1 : P s1).
    { refine (jmoves_bind P P _ _ (Kr f seed) _ _ _ _ Hs E). intros a. apply jmoves_bind; [|intros _ s2 s3 r2 Hp E3; injection E3 as <- _; exact Hp].
      destruct u; [|exact Kc]. intros s2 s3 r2 Hp E3; injection E3 as <- _; exact Hp. }
    destruct r as [a|e]; [|reflexivity].
    specialize (H2 a). destruct (kok a) as [r|k|seed' post|v post|v post]; cbn [j_run_variant]; try reflexivity; (apply try_eql; [|reflexivity]); destruct u; try reflexivity.
    + apply Hn; [exact Hs1|exact H2].
    + apply (eq_seq R (run f) v P P Ke); [|exact Hs1]. intros n s2 Hs2. apply I2; [exact Hs2|exact H2].
    + apply (eq_struct R (run f) v P P Kw Ke); [| |exact Hs1]; intros n s2 Hs2; [apply I2|apply I3]; try exact Hs2; apply H2.
Qed.
End Typed.
End JsonNesting.

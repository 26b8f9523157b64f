(** Consequences of [mp_ser_good], [mp_ser_sim] and [mp_ser_stops], in the form
    used by the property theorems. *)
From Verif Require Import Prelude PreludeFacts Utf8Spec Utf8 Utf8Facts Writer WriterContract WriterObs WriterProofs
  SerMonad SerdeSer SerSpec SerSim MpSpec MpSer MpErrMap MpSerSim MpSerRel MpSerProofs.
Ltac Zify.zify_post_hook ::= Z.div_mod_to_equations.
Ltac inv H := inversion H; subst; clear H.

Lemma sval_ok_propagates v : sval_ok v -> displays_propagate v.
Proof.
  induction v using sval_ind'; cbn [sval_ok displays_propagate]; auto; try tauto;
    rewrite ?all_list_Forall; intros Hv.
  1-3: (destruct Hv as [_ Hv]; rewrite ?all_list_Forall in Hv; eapply Forall_impl2; [|exact H|exact Hv]; auto).
  - destruct Hv as (_ & _ & _ & Hv). rewrite ?all_list_Forall in Hv. eapply Forall_impl2; [|exact H|exact Hv]; auto.
  - destruct Hv as (_ & _ & Hv). rewrite ?all_list_Forall in Hv. eapply Forall_impl2; [|exact H|exact Hv]; auto.
  - destruct Hv as (_ & _ & Hv). rewrite ?all_list_Forall in Hv. eapply Forall_impl2; [|exact H|exact Hv].
    intros [k [x|]] Hx [_ Hs]; cbn in *; auto.
  - destruct Hv as (_ & _ & _ & _ & Hv). rewrite ?all_list_Forall in Hv. eapply Forall_impl2; [|exact H|exact Hv].
    intros [k [x|]] Hx [_ Hs]; cbn in *; auto.
  - destruct Hv; tauto.
Qed.

(** ** to_vec *)
Lemma to_vec_emits cfg fl v out r : emits (mp_ser VecWriter cfg fl v) out r ->
  mp_to_vec cfg fl v = match r with Ok _ => Ok out | Err e => Err e end.
Proof. intros H. unfold mp_to_vec, mp_to_writer. rewrite H. cbn. destruct r; auto. Qed.

Lemma to_vec_documented cfg fl v : sval_ok v -> 2 ^ 32 - 1 <= cfg_usize_max cfg ->
  match mp_doc (style_of fl) v with
  | Some m => exists out, mp_to_vec cfg fl v = Ok out /\ mp_fmt m out /\
                forall b, mp_fmt m b -> (length out <= length b)%nat
  | None => exists e, mp_to_vec cfg fl v = Err e
  end.
Proof.
  intros Hv Hc. pose proof (@mp_ser_good ser_error cfg fl v Hv Hc) as G. unfold good in G.
  destruct (mp_doc _ v) as [m|].
  - destruct G as (out & H & B). exists out. split; [apply (to_vec_emits _ _ _ _ _ H)|exact B].
  - destruct G as (out & e & H). exists e. apply (to_vec_emits _ _ _ _ _ H).
Qed.

Lemma to_vec_ok_documented cfg fl v out : sval_ok v -> 2 ^ 32 - 1 <= cfg_usize_max cfg ->
  mp_to_vec cfg fl v = Ok out ->
  exists m, mp_doc (style_of fl) v = Some m /\ mp_fmt m out.
Proof.
  intros Hv Hc H. pose proof (to_vec_documented cfg fl v Hv Hc) as D.
  destruct (mp_doc _ v) as [m|]; [|destruct D; congruence].
  destruct D as (o & E & F & _). exists m. split; [auto|]. congruence.
Qed.

Lemma to_vec_shortest cfg fl v out : sval_ok v -> 2 ^ 32 - 1 <= cfg_usize_max cfg ->
  mp_to_vec cfg fl v = Ok out ->
  exists m, mp_fmt m out /\ forall b, mp_fmt m b -> (length out <= length b)%nat.
Proof.
  intros Hv Hc H. pose proof (to_vec_documented cfg fl v Hv Hc) as D.
  destruct (mp_doc _ v) as [m|]; [|destruct D; congruence].
  destruct D as (o & E & F & M). exists m. replace out with o by congruence. auto.
Qed.

(** ** Other writers *)
Section W.
Context {W E : Type} (SW : SerWrite W E) (inv : W -> Prop) (content : W -> bytes).
Hypothesis law : lawful SW inv content.

Definition to_ser_error (_ : E) : ser_error := BufferFull.

Lemma to_vec_of_list cfg fl v : displays_propagate v ->
  mp_to_vec cfg fl v =
    match mp_ser (@VecWriter E) cfg fl v [] with
    | (out, Ok _) => Ok out
    | (_, Err e) => Err (err_map to_ser_error e)
    end.
Proof.
  intros Hd. unfold mp_to_vec, mp_to_writer.
  rewrite (mp_ser_err_type to_ser_error cfg fl v [] Hd).
  destruct (mp_ser VecWriter cfg fl v []) as [o [[]|e]]; auto.
Qed.

Lemma to_writer_ok_bytes cfg fl v w w' : displays_propagate v -> inv w ->
  mp_to_writer SW cfg fl w v = (w', Ok tt) ->
  exists out, mp_to_vec cfg fl v = Ok out /\ content w' = content w ++ out.
Proof.
  intros Hd I H. destruct (sim_ok _ _ _ _ _ _ _ _ (mp_ser_sim SW inv content law cfg fl v Hd) I H) as (out & R & C).
  exists out. split; [|auto]. rewrite to_vec_of_list, R by auto. auto.
Qed.

Lemma to_writer_own_error cfg fl v w w' e : displays_propagate v -> inv w ->
  mp_to_writer SW cfg fl w v = (w', Err e) -> (forall x, e <> MWriter x) -> e <> MFormatError ->
  mp_to_vec cfg fl v = Err (err_map to_ser_error e).
Proof.
  intros Hd I H N1 N2.
  destruct (sim_err _ _ _ _ _ _ _ _ _ (mp_ser_sim SW inv content law cfg fl v Hd) I H) as (out & R & C).
  { intros [[x ->]| ->]; [apply (N1 x)|apply N2]; auto. }
  rewrite to_vec_of_list, R by auto. auto.
Qed.

Lemma to_vec_error_everywhere cfg fl v w e : displays_propagate v -> inv w ->
  mp_to_vec cfg fl v = Err e ->
  exists e', snd (mp_to_writer SW cfg fl w v) = Err e' /\
    (err_map to_ser_error e' = e \/ (exists x, e' = MWriter x) \/ e' = MFormatError).
Proof.
  intros Hd I H. rewrite to_vec_of_list in H by auto.
  destruct (sim_any _ _ _ _ _ _ w (mp_ser_sim SW inv content law cfg fl v Hd) I) as (out & _ & p & _ & _ & H1).
  unfold mp_to_writer. destruct (mp_ser VecWriter cfg fl v []) as [o [[]|e1]]; [discriminate|].
  cbn [snd] in H1. injection H as <-. destruct H1 as [[-> _]|(e' & -> & We)].
  - eauto.
  - exists e'. split; [auto|]. right. exact We.
Qed.

Lemma to_writer_prefix cfg fl v w : displays_propagate v -> inv w ->
  exists p, content (fst (mp_to_writer SW cfg fl w v)) = content w ++ p /\
    prefix p (fst (mp_to_writer (@VecWriter E) cfg fl [] v)) /\
    ((snd (mp_to_writer SW cfg fl w v) = snd (mp_to_writer (@VecWriter E) cfg fl [] v) /\
      p = fst (mp_to_writer (@VecWriter E) cfg fl [] v)) \/
     (exists x, snd (mp_to_writer SW cfg fl w v) = Err (MWriter x)) \/
     snd (mp_to_writer SW cfg fl w v) = Err MFormatError).
Proof.
  intros Hd I. unfold mp_to_writer.
  destruct (sim_any _ _ _ _ _ _ w (mp_ser_sim SW inv content law cfg fl v Hd) I) as (out & E1 & p & Pp & C & H1).
  rewrite E1. exists p. split; [auto|]. split; [auto|].
  destruct H1 as [[R P]|(e & R & [[x ->]| ->])]; eauto.
Qed.

Lemma to_writer_capacity cfg fl v w cap out : displays_propagate v -> inv w ->
  bounded SW inv content cap -> (length (content w) <= cap w)%nat ->
  mp_to_vec cfg fl v = Ok out ->
  (snd (mp_to_writer SW cfg fl w v) = Ok tt <-> (length out <= cap w - length (content w))%nat).
Proof.
  intros Hd I B L H. rewrite to_vec_of_list in H by auto.
  destruct (mp_ser VecWriter cfg fl v []) as [o [[]|e1]] eqn:R; [|discriminate]. injection H as <-.
  unfold mp_to_writer.
  rewrite (sim_capacity _ _ _ _ _ _ _ cap o (mp_ser_sim SW inv content law cfg fl v Hd) I B L R). lia.
Qed.
End W.

Lemma to_writer_reports {W E} (SW : SerWrite W E) cfg fl v w w' lg r : displays_propagate v ->
  mp_to_writer (Logged SW) cfg fl (w, []) v = ((w', lg), r) ->
  (all_ok lg /\ forall e, r <> Err (MWriter e)) \/
  (exists pre e, lg = pre ++ [Err e] /\ all_ok pre /\ (r = Err (MWriter e) \/ r = Err MFormatError)).
Proof.
  intros Hd H. destruct (mp_ser_stops SW cfg fl v Hd w []) as (w1 & n & r1 & E1 & H1).
  unfold mp_to_writer in H. rewrite E1 in H. cbn in H. injection H as <- <- <-. auto.
Qed.

Lemma slice_writer_fits cfg fl v buf out : displays_propagate v ->
  mp_to_vec cfg fl v = Ok out ->
  match mp_to_writer SliceWriter cfg fl (sl_new buf) v with
  | (w, Ok _) => (length out <= length buf)%nat /\ sl_as_ref w = Some out
  | (w, Err _) => (length buf < length out)%nat
  end.
Proof.
  intros Hd H.
  assert (I : sl_inv (sl_new buf)) by (unfold sl_inv; cbn; lia).
  assert (C0 : sl_content (sl_new buf) = []) by reflexivity.
  pose proof (to_writer_capacity SliceWriter sl_inv sl_content SliceWriter_lawful cfg fl v (sl_new buf) sl_capacity out
    Hd I SliceWriter_bounded) as K. rewrite C0 in K. cbn [length] in K. specialize (K ltac:(lia) H).
  change (sl_capacity (sl_new buf)) with (length buf) in K. rewrite Nat.sub_0_r in K.
  pose proof (to_writer_ok_bytes SliceWriter sl_inv sl_content SliceWriter_lawful cfg fl v (sl_new buf)) as B.
  destruct (mp_to_writer SliceWriter cfg fl (sl_new buf) v) as [w [[]|e]] eqn:R; cbn [snd] in K.
  - split; [apply K; auto|]. destruct (B w Hd I eq_refl) as (o & H' & C). rewrite H in H'. injection H' as <-.
    rewrite C0 in C. cbn in C.
    assert (Iw : sl_inv w).
    { destruct (mp_ser_sim SliceWriter sl_inv sl_content SliceWriter_lawful cfg fl v Hd (sl_new buf) [] I) as (? & _ & Iw & _).
      unfold mp_to_writer in R. rewrite R in Iw. auto. }
    rewrite <- C. unfold sl_as_ref, sl_content. unfold sl_inv in Iw.
    destruct (_ <=? _)%nat eqn:L; [auto|]. lia.
  - destruct (Nat.le_gt_cases (length out) (length buf)) as [G|G]; [|auto].
    apply K in G. discriminate.
Qed.

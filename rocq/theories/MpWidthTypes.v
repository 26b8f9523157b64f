(** Which programs do not skip. *)
From Verif Require Import Prelude PreludeFacts SerdeSer SerdeDe Types TypesFacts MpWidthSpec.

(** ** Programs that do not skip *)
Section Types.
Context {E : Type} (custom : E).
Local Notation deser := (deser val E).
Local Notation d_ok := (@d_ok False val E).
Local Notation s_ok := (@s_ok False val E).
Local Notation m_ok := (@m_ok False val E).
Local Notation e_ok := (@e_ok False val E).
Lemma req_ok m v : m <> DIgnoredAny -> d_ok (on_some v) -> d_ok (on_newtype v) -> s_ok (on_seq v) -> m_ok (on_map v) -> e_ok (on_enum v) ->
  d_ok (request m v).
Proof. intros. apply OK_req; [congruence|]. apply OK_visitor; assumption. Qed.
Lemma seq_loop_ok seed : d_ok seed -> forall acc, s_ok (seq_loop seed acc).
Proof.
  intros H. cofix IH. intros acc. rewrite (sfrob_eq (seq_loop seed acc)). apply OK_snext; [exact H|].
  intros [[v|]|e]; [apply IH|apply OK_sret|apply OK_sret].
Qed.
Lemma map_loop_ok k v : d_ok k -> d_ok v -> forall acc, m_ok (map_loop k v acc).
Proof.
  intros Hk Hv. cofix IH. intros acc. rewrite (mfrob_eq (map_loop k v acc)). apply OK_mkey; [exact Hk|].
  intros [[x|]|e]; [|apply OK_mret|apply OK_mret]. apply OK_mval; [exact Hv|]. intros [y|e]; [apply IH|apply OK_mret].
Qed.
Lemma tuple_ok l : Forall (fun sd => d_ok (fst sd)) l -> forall acc, s_ok (tuple_prog custom l acc).
Proof.
  induction 1 as [|[seed d] l H _ IH]; intros acc; cbn [tuple_prog]; [apply OK_sret|]. apply OK_snext; [exact H|].
  intros [[v|]|e]; [apply IH|destruct d; [apply IH|apply OK_sret]|apply OK_sret].
Qed.
Lemma then_ok (d : deser) f : d_ok d -> d_ok (then_ d f).
Proof. intros H. inversion H; subst; cbn; constructor; auto. Qed.
Lemma ident_ok b ns : d_ok (ident custom b ns).
Proof. apply req_ok; [discriminate|..]; constructor. Qed.
Lemma enum_ok names cs : Forall (fun c => d_ok (snd c)) cs -> e_ok (enum_prog custom names cs).
Proof.
  intros H. apply OK_evariant; [apply ident_ok|]. intros u. destruct u; try apply OK_vret. destruct o as [i|]; [|apply OK_vret].
  destruct (nth_error cs i) as [[k d]|] eqn:En; [|apply OK_vret]. apply nth_error_In in En. rewrite Forall_forall in H. specialize (H _ En). cbn in H.
  destruct k; [apply OK_vunit|apply OK_vnewtype, H| |]; (inversion H; subst; [apply OK_vret|apply OK_vret|constructor; assumption]).
Qed.
Lemma denote_ok t : no_struct t -> d_ok (denote custom t).
Proof.
  induction t using ty_ind'; intros N; cbn [denote]; try (apply req_ok; solve [discriminate|constructor]).
  - apply req_ok; [discriminate| |constructor..]. apply then_ok, IHt, N.
  - apply req_ok; [discriminate|constructor| |constructor..]. apply IHt, N.
  - apply req_ok; [discriminate|constructor|constructor| |constructor..]. apply OK_shint. intros _. apply seq_loop_ok, IHt, N.
  - apply req_ok; [discriminate|constructor|constructor| |constructor..]. apply tuple_ok. cbn [no_struct] in N.
    apply Forall_map. cbn [fst]. induction H as [|t l Ht Hl IH]; constructor; destruct N; auto.
  - apply req_ok; [discriminate|constructor|constructor| |constructor..]. apply tuple_ok. cbn [no_struct] in N.
    apply Forall_map. cbn [fst]. induction H as [|t l Ht Hl IH]; constructor; destruct N; auto.
  - apply req_ok; [discriminate|constructor|constructor|constructor| |constructor]. apply OK_mhint. intros _. destruct N. apply map_loop_ok; auto.
  - destruct N.
  - apply req_ok; [discriminate|constructor|constructor|constructor|constructor|]. apply enum_ok. cbn [no_struct] in N.
    apply Forall_map. cbn [snd]. induction H as [|f l Hf Hl IH]; constructor; destruct N; auto.
Qed.
CoFixpoint any_ok : d_ok (any custom)
with any_seq_ok acc : s_ok (any_seq custom acc)
with any_map_ok acc : m_ok (any_map custom acc).
Proof.
  - rewrite (dfrob_eq (any custom)). cbn [dfrob any]. apply OK_req; [discriminate|]. apply OK_visitor; cbn [visit_some visit_newtype visit_seq visit_map visit_enum];
    [apply any_ok|apply any_ok|apply any_seq_ok|apply any_map_ok|apply OK_eret].
  - rewrite (sfrob_eq (any_seq custom acc)). apply OK_snext; [apply any_ok|]. intros [[v|]|e]; [apply any_seq_ok|apply OK_sret|apply OK_sret].
  - rewrite (mfrob_eq (any_map custom acc)). apply OK_mkey; [apply any_ok|].
    intros [[x|]|e]; [|apply OK_mret|apply OK_mret]. apply OK_mval; [apply any_ok|]. intros [y|e]; [apply any_map_ok|apply OK_mret].
Qed.
End Types.

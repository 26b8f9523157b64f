(** Typed round trips, interoperability, streams and truncation at the entry points. *)
From Verif Require Import Prelude PreludeFacts Utf8Spec Writer SerMonad Utf8 Utf8Facts SerdeSer SerdeDe MpMagick MpSpec MpDe MpDeView MpDeReads MpDeEat
  MpDeSafe MpDeTop MpDeTrail MpSer MpErrMap MpSerSim MpSerFacts FloatOps Types MpTypeSpec MpTyped MpTypedSer MpAny.
Ltac Zify.zify_post_hook ::= Z.div_mod_to_equations.

Local Notation prog t := (denote DeserializeError t).

Lemma nullish_nullable t : forall v, nullish t v = true -> nullable t.
Proof. induction t using ty_ind'; intros v H0; cbn in *; auto; try (destruct v; discriminate). eauto. Qed.

Lemma collapse_strict t : forall v, strict t -> hastype t v -> collapse nullish t v = v.
Proof.
  induction t as [| | | | | | | | |t IH|t IH|t IH|ts IH|ts IH|k v IHk IHv|fs IH|vs IH] using ty_ind'; intros u S T; try (destruct u; reflexivity).
  - destruct u; cbn in *; try tauto; auto. destruct (nullish t u) eqn:E; [apply nullish_nullable in E; tauto|]. f_equal. apply IH; tauto.
  - cbn in *. auto.
  - destruct u; cbn in *; try tauto. f_equal. destruct T as [T _]. rewrite <- (map_id l) at 2. apply map_ext_in.
    intros a Ha. rewrite Forall_forall in T. auto.
  - destruct u; cbn in *; try tauto. f_equal. revert l T S. induction IH as [|t ts H _ IH2]; intros [|v l] T S; cbn in *; try tauto; auto.
    f_equal; [apply H|apply IH2]; tauto.
  - destruct u; cbn in *; try tauto. f_equal. revert l T S. induction IH as [|t ts H _ IH2]; intros [|v l] T S; cbn in *; try tauto; auto.
    f_equal; [apply H|apply IH2]; tauto.
  - destruct u; cbn in *; try tauto. f_equal. destruct T as [T _]. rewrite <- (map_id l) at 2. apply map_ext_in.
    intros [a b] Ha. rewrite Forall_forall in T. specialize (T _ Ha). cbn in *. rewrite IHk, IHv; tauto.
  - destruct u; cbn in *; try tauto. f_equal. revert l T S. induction IH as [|f fs H _ IH2]; intros [|v l] T S; cbn in *; try tauto; auto.
    f_equal; [|apply IH2; tauto]. destruct (skipped (attr_of f) v); auto. apply H; tauto.
  - destruct u; cbn in *; try tauto. rewrite nth_error_map in *. destruct (nth_error vs i) as [f|] eqn:E; cbn in *; [|tauto].
    f_equal. apply nth_error_In in E. rewrite Forall_forall in IH. apply IH; auto. apply all_list_Forall in S. rewrite Forall_forall in S. auto.
Qed.

Section Top.
Context (ar : arch) (fo : float_ops) (A32 : arch32up ar).

Lemma typed_accepts t v bs tail : wf t -> adm fo t v bs -> slice_of ar (bs ++ tail) ->
  exists N, forall fuel, (N <= fuel)%nat -> exists s, mp_from_slice ar fo fuel (prog t) (bs ++ tail) = Done s (Ok (v, zlen bs)).
Proof.
  intros Hw Ha Hs. destruct (denote_reads ar fo t Hw v bs Ha) as [N HN]. exists N. intros fuel Hf.
  eapply from_slice_reads; eauto.
Qed.
Lemma typed_truncated t v bs c q : wf t -> adm fo t v (bs ++ c :: q) -> slice_of ar (bs ++ c :: q) ->
  exists N, forall fuel, (N <= fuel)%nat -> exists s, mp_from_slice ar fo fuel (prog t) bs = Done s (Err UnexpectedEof).
Proof.
  intros Hw Ha Hs. destruct (denote_reads ar fo t Hw v _ Ha) as [N HN]. exists N. intros fuel Hf.
  eapply from_slice_truncated; eauto.
Qed.

(** What the serializers output. *)
Lemma typed_output cfg fl t v : wf t -> hastype t v ->
  (exists out, mp_to_vec cfg fl (trace t v) = Ok out /\ outp fo t v out) \/
  (exists e, mp_to_vec cfg fl (trace t v) = Err e).
Proof.
  intros Hw Hv. destruct (trace_sok (E := ser_error) cfg fl fo True t Hw (or_introl I) v Hv) as [(out & He & Ho)|(Hc & o & e & He)].
  - left. exists out. split; auto. apply to_vec_emits in He. exact He.
  - right. exists e. apply to_vec_emits in He. exact He.
Qed.
Lemma typed_succeeds cfg fl t v : wf t -> hastype t v -> fl <> Compact \/ plain t ->
  exists out, mp_to_vec cfg fl (trace t v) = Ok out.
Proof.
  intros Hw Hv [Hf|Hp].
  - destruct (trace_sok (E := ser_error) cfg fl fo True t Hw (or_introl I) v Hv) as [(out & He & Ho)|((Hc & _) & o & e & He)]; [|tauto].
    exists out. apply to_vec_emits in He. exact He.
  - destruct (trace_sok (E := ser_error) cfg fl fo False t Hw (or_intror Hp) v Hv) as [(out & He & Ho)|((_ & []) & _)].
    exists out. apply to_vec_emits in He. exact He.
Qed.
Lemma typed_round_trip cfg fl t v out tail : wf t -> hastype t v -> mp_to_vec cfg fl (trace t v) = Ok out -> slice_of ar (out ++ tail) ->
  exists N, forall fuel, (N <= fuel)%nat ->
    exists s, mp_from_slice ar fo fuel (prog t) (out ++ tail) = Done s (Ok (collapse nullish t v, zlen out)).
Proof.
  intros Hw Hv Ho Hs. destruct (typed_output cfg fl t v Hw Hv) as [(out' & E & Ha & _)|(e & E)]; [|congruence].
  assert (out' = out) by congruence. subst out'. apply typed_accepts; auto.
Qed.

(** Streams of messages. *)
Fixpoint read_stream (fuel : nat) (ts : list ty) (input : bytes) : option (list val * bytes) :=
  match ts with
  | [] => Some ([], input)
  | t :: ts =>
    match mp_from_slice_split_tail ar fo fuel (prog t) input with
    | Done _ (Ok (v, tail)) =>
      match read_stream fuel ts tail with
      | Some (vs, tail) => Some (v :: vs, tail)
      | None => None
      end
    | _ => None
    end
  end.

Lemma stream_reads (ms : list (ty * val * bytes)) tail :
  Forall (fun m => wf (fst (fst m)) /\ adm fo (fst (fst m)) (snd (fst m)) (snd m)) ms ->
  slice_of ar (concat (map snd ms) ++ tail) ->
  exists N, forall fuel, (N <= fuel)%nat ->
    read_stream fuel (map (fun m => fst (fst m)) ms) (concat (map snd ms) ++ tail) = Some (map (fun m => snd (fst m)) ms, tail).
Proof.
  induction ms as [|[[t v] bs] ms IH]; cbn [map concat fst snd read_stream]; intros H Hs; [exists O; auto|].
  inversion H as [|x l [Hw Ha] H']; subst. cbn [fst snd] in *. rewrite <- app_assoc in *.
  destruct (typed_accepts t v bs _ Hw Ha Hs) as [N1 HN1].
  destruct (IH H' (slice_of_app_r _ _ _ Hs)) as [N2 HN2].
  exists (N1 + N2)%nat. intros fuel Hf. destruct (HN1 fuel ltac:(lia)) as (s & E).
  unfold mp_from_slice_split_tail. rewrite E.
  replace ((0 <=? zlen bs) && (zlen bs <=? zlen (bs ++ concat (map snd ms) ++ tail))) with true
    by (rewrite zlen_app; pose proof (zlen_nonneg bs); pose proof (zlen_nonneg (concat (map snd ms) ++ tail)); lia).
  unfold zlen at 1. rewrite Nat2Z.id, skipn_app, skipn_all, Nat.sub_diag. cbn [app skipn]. rewrite HN2 by lia. reflexivity.
Qed.

(** Failures. *)
Lemma from_slice_fails {U} (p : deser U mp_de_error) bs e t fuel : slice_of ar (bs ++ t) ->
  fails ar (r_de (mp_run ar fo fuel) p) bs e ->
  exists s, mp_from_slice ar fo fuel p (bs ++ t) = Done s (Err e).
Proof.
  intros Hi H. pose proof (init_ready ar _ A32 Hi) as I0. destruct (H _ I0 t eq_refl) as (s & E).
  exists s. unfold mp_from_slice, dbind. rewrite E. auto.
Qed.
Lemma rde_fails p bs e tail : rde ar fo p bs (Err e) -> slice_of ar (bs ++ tail) ->
  exists N, forall fuel, (N <= fuel)%nat -> exists s, mp_from_slice ar fo fuel p (bs ++ tail) = Done s (Err e).
Proof. intros [N HN] Hs. exists N. intros f Hf. apply from_slice_fails; auto. apply fails_reads. auto. Qed.

(** Integers. *)
Lemma typed_integer k z bs tail : int_fmt z bs -> slice_of ar (bs ++ tail) ->
  exists N, forall fuel, (N <= fuel)%nat -> exists s, mp_from_slice ar fo fuel (prog (TInt k)) (bs ++ tail) =
    Done s (if in_ikindb k z then Ok (UInt z, zlen bs) else Err InvalidInteger).
Proof.
  intros H Hs. pose proof (reads_parse_integer ar k z bs H) as P.
  destruct (in_ikindb k z) eqn:E.
  - apply typed_accepts; cbn; auto. split; auto. unfold in_ikindb in E. unfold in_ikind. lia.
  - apply rde_fails; auto. apply rde_request. apply ev_all. intros f. cbn [mp_method]. unfold deserialize_int.
    apply reads_bind_err. exact P.
Qed.

(** Surplus elements. *)
Lemma rsq_tuple_more (ds : list (deser val mp_de_error * option val)) : forall (ps : list (val -> bytes -> Prop)) l n acc bs,
  Forall2 (fun d (p : val -> bytes -> Prop) => forall v b, p v b -> rde ar fo (fst d) b (Ok v)) ds ps ->
  length l = length ds -> zlen ds <= n ->
  seq_enc (zip (fun p v => p v) ps l) bs ->
  rsq ar fo (tuple_prog DeserializeError ds acc) n bs (Ok (USeq (rev acc ++ l), n - zlen ds)).
Proof.
  induction ds as [|[d o] ds IH]; intros ps l n acc bs Hp Hl Hn Hb.
  - destruct l; [|discriminate]. inversion Hp; subst. cbn in Hb. subst. change (zlen (@nil (deser val mp_de_error * option val))) with 0.
    cbn [tuple_prog]. rewrite app_nil_r, Z.sub_0_r. apply rsq_ret.
  - destruct l as [|v l]; [discriminate|]. inversion Hp as [|? p ? ps' H1 H2]; subst. cbn in Hl.
    replace (rev acc ++ v :: l) with (rev (v :: acc) ++ l) by (cbn; rewrite <- app_assoc; auto).
    rewrite zlen_cons in *. pose proof (zlen_nonneg ds).
    cbn [tuple_prog]. cbn in Hb. destruct Hb as (a & b & -> & Ha & Hb).
    eapply rsq_next; [lia|reflexivity|apply H1, Ha|].
    replace (n - (1 + zlen ds)) with (n - 1 - zlen ds) by lia. apply (IH ps'); auto; lia.
Qed.
Lemma fme_surplus m v n h b u k : In m [DSeq; DTuple; DTupleStruct; DStruct] -> arr_hdr n h -> k <> 0 ->
  rsq ar fo (visit_seq v) n b (Ok (u, k)) -> rme ar fo m v (h ++ b) (Err TrailingElements).
Proof.
  intros Hm Hh Hk Hb. eapply ev_imp; [exact Hb|]. intros f Fb.
  assert (C : reads ar (@check_count val (u, k)) [] (Err TrailingElements)).
  { unfold check_count. cbn [snd]. destruct (k =? 0) eqn:E; [lia|]. apply reads_fail. }
  assert (D : reads ar (deserialize_seq ar (mp_run ar fo f) v) (h ++ b) (Err TrailingElements)).
  { unfold deserialize_seq. eapply reads_hdr; [apply (hdr_arr_run ar _ _ Hh)|]. eapply reads_bind_end; [exact Fb|exact C]. }
  destruct Hm as [<-|[<-|[<-|[<-|[]]]]]; auto. cbn [mp_method]. unfold deserialize_struct.
  eapply reads_hdr; [apply (hdr_struct_arr ar _ _ Hh)|]. cbn [fst snd]. eapply reads_bind_end; [exact Fb|exact C].
Qed.

Definition elements (t : ty) : option (list ty) :=
  match t with
  | TTuple ts => Some ts
  | TTupleStruct ts => Some ts
  | TStruct fs => Some (map snd fs)
  | _ => None
  end.
Lemma typed_surplus t ts l n h b tail : wf t -> elements t = Some ts -> length l = length ts ->
  arr_hdr n h -> zlen ts < n -> seq_enc (zip (fun p v => p v) (map (adm fo) ts) l) b -> slice_of ar ((h ++ b) ++ tail) ->
  exists N, forall fuel, (N <= fuel)%nat ->
    exists s, mp_from_slice ar fo fuel (prog t) ((h ++ b) ++ tail) = Done s (Err TrailingElements).
Proof.
  intros Hw He Hl Hh Hn Hb Hs. apply rde_fails; auto.
  assert (F : forall (A : Type) (g : A -> ty) (dflt : A -> option val) l, Forall (fun a => wf (g a)) l ->
     Forall2 (fun d (p : val -> bytes -> Prop) => forall v b, p v b -> rde ar fo (fst d) b (Ok v))
       (map (fun a => (prog (g a), dflt a)) l) (map (adm fo) (map g l))).
  { intros A g dflt l'. induction 1; cbn; constructor; auto. intros v b'. cbn. apply denote_reads. auto. }
  destruct t as [| | | | | | | | | | | |l0|l0| |fs|]; try discriminate; cbn in He; injection He as <-.
  - destruct Hw as [Hw _]. apply all_list_Forall in Hw. cbn [denote]. apply rde_request.
    eapply fme_surplus with (k := n - zlen l0); [right; left; reflexivity|exact Hh|lia|].
    pose proof (rsq_tuple_more _ _ l n [] b (F ty (fun t => t) (fun _ => None) l0 Hw)) as G.
    rewrite map_id in G. rewrite map_length in G. unfold zlen in G, Hn. rewrite map_length in G. apply G; auto. lia.
  - destruct Hw as [Hw _]. apply all_list_Forall in Hw. cbn [denote]. apply rde_request.
    eapply fme_surplus with (k := n - zlen l0); [right; right; left; reflexivity|exact Hh|lia|].
    pose proof (rsq_tuple_more _ _ l n [] b (F ty (fun t => t) (fun _ => None) l0 Hw)) as G.
    rewrite map_id in G. rewrite map_length in G. unfold zlen in G, Hn. rewrite map_length in G. apply G; auto. lia.
  - destruct Hw as [_ Hw]. apply all_list_Forall in Hw. cbn [denote]. apply rde_request.
    assert (El : zlen (map snd fs) = zlen fs) by (unfold zlen; rewrite map_length; auto). rewrite El in Hn. rewrite map_length in Hl.
    eapply fme_surplus with (k := n - zlen fs); [right; right; right; left; reflexivity|exact Hh|lia|].
    pose proof (rsq_tuple_more _ _ l n [] b (F _ (fun f => snd f) (fun f => default_of (attr_of f)) fs
      ltac:(eapply Forall_impl; [|exact Hw]; cbn; tauto))) as G.
    rewrite map_length in G. unfold zlen in G, Hn. rewrite map_length in G. apply G; auto. lia.
Qed.

(** Self-describing. *)
Lemma denotes_total :
  (forall m bs, mp_fmt m bs -> exists r, denotes m r) /\
  (forall l bs, mp_fmt_list l bs -> exists r, denotes_list l r) /\
  (forall l bs, mp_fmt_pairs l bs -> exists r, denotes_pairs l r).
Proof.
  apply mp_fmt_mutind; intros; try (eexists; constructor; fail).
  - destruct (from_utf8_ok s) eqn:E.
    + eexists. apply DN_str. apply from_utf8_ok_spec. auto.
    + eexists. apply DN_str_bad. rewrite <- from_utf8_ok_spec. congruence.
  - destruct H as [[vs|e] H]; eexists; [apply DN_arr|apply DN_arr_bad]; eauto.
  - destruct H as [[vs|e] H]; eexists; [apply DN_map|apply DN_map_bad]; eauto.
  - destruct H as [[w|e] H]; [|eexists; apply DL_here; eauto].
    destruct H0 as [[vs|e] H0]; eexists; [apply DL_cons|eapply DL_later]; eauto.
  - destruct H as [[u|e] H]; [|eexists; apply DP_key; eauto].
    destruct H0 as [[w|e] H0]; [|eexists; eapply DP_val; eauto].
    destruct H1 as [[vs|e] H1]; eexists; [apply DP_cons|eapply DP_later]; eauto.
Qed.

Lemma any_total m bs tail : mp_fmt m bs -> slice_of ar (bs ++ tail) ->
  (forall v, denotes m (inl v) -> exists N, forall fuel, (N <= fuel)%nat ->
    exists s, mp_from_slice ar fo fuel (any DeserializeError) (bs ++ tail) = Done s (Ok (v, zlen bs))) /\
  (forall e, denotes m (Datatypes.inr e) -> exists N, forall fuel, (N <= fuel)%nat ->
    exists s, mp_from_slice ar fo fuel (any DeserializeError) (bs ++ tail) = Done s (Err (fault_err e))).
Proof.
  intros Hm Hs. destruct (proj1 (any_reads ar fo) m bs Hm) as [H1 H2]. split.
  - intros v D. destruct (H1 v D) as [N HN]. exists N. intros f Hf. apply from_slice_reads; auto.
  - intros e D. destruct (H2 e D) as [N HN]. exists N. intros f Hf. apply from_slice_fails; auto.
Qed.
Lemma any_reserved_top tail : slice_of ar (0xc1 :: tail) -> exists N, forall fuel, (N <= fuel)%nat ->
    exists s, mp_from_slice ar fo fuel (any DeserializeError) (0xc1 :: tail) = Done s (Err ReservedCode).
Proof.
  intros Hs. destruct (any_reserved ar fo []) as [N HN]. exists N. intros f Hf.
  apply (from_slice_fails (any DeserializeError) [0xc1] ReservedCode tail f); auto.
Qed.
Lemma typed_strict_round_trip cfg fl t v out tail : wf t -> hastype t v -> strict t ->
  mp_to_vec cfg fl (trace t v) = Ok out -> slice_of ar (out ++ tail) ->
  exists N, forall fuel, (N <= fuel)%nat ->
    exists s, mp_from_slice ar fo fuel (prog t) (out ++ tail) = Done s (Ok (v, zlen out)).
Proof.
  intros Hw Hv Hs Ho Hl. destruct (typed_round_trip cfg fl t v out tail Hw Hv Ho Hl) as [N HN]. exists N. intros f Hf.
  rewrite (collapse_strict t v Hs Hv) in HN. auto.
Qed.

(** Option. *)
Lemma typed_option cfg fl t v out tail : wf t -> hastype t v ->
  mp_to_vec cfg fl (trace t v) = Ok out -> slice_of ar (out ++ tail) ->
  mp_to_vec cfg fl (trace (TOption t) (USome v)) = Ok out /\
  exists w N, (w = UNone <-> out = [0xc0]) /\ (out <> [0xc0] -> w = USome (collapse nullish t v)) /\
    forall fuel, (N <= fuel)%nat ->
      exists s, mp_from_slice ar fo fuel (prog (TOption t)) (out ++ tail) = Done s (Ok (w, zlen out)).
Proof.
  intros Hw Hv Ho Hs. assert (Eo : mp_to_vec cfg fl (trace (TOption t) (USome v)) = Ok out) by exact Ho. split; auto.
  destruct (typed_round_trip cfg fl (TOption t) (USome v) out tail Hw Hv Eo Hs) as [N HN].
  exists (collapse nullish (TOption t) (USome v)), N.
  destruct (typed_output cfg fl t v Hw Hv) as [(out' & E & _ & Hn)|(e & E)]; [|congruence].
  assert (out' = out) by congruence. subst out'. cbn [collapse] in *. destruct (nullish t v).
  - split; [tauto|]. split; [tauto|exact HN].
  - split; [split; [discriminate|tauto]|]. split; [auto|exact HN].
Qed.
End Top.

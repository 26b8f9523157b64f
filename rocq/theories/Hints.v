(** Size hints of MessagePack sequences and maps (C61). *)
From Verif Require Import Prelude PreludeFacts SerdeSer SerdeDe FloatOps MpSpec MpDe MpDeView MpDeReads MpDeEat MpDeTrail MpDeTop Types TypesFacts MpTypeSpec MpTyped HintSpec.

Section Mp.
Context (ar : arch) (fo : float_ops).
Local Notation rde := (rde ar fo).
Local Notation rsq := (rsq ar fo).
Local Notation rmp := (rmp ar fo).

Lemma rsq_watch seed (p : val -> bytes -> Prop) l : (forall v b, In v l -> p v b -> rde seed b (Ok v)) ->
  forall acc bs, seq_enc (map p l) bs -> rsq (watch seed acc) (zlen l) bs (Ok (USeq (rev acc ++ counted l), 0)).
Proof.
  induction l as [|v l IH]; intros Hp acc bs Hb; rewrite (sfrob_eq (watch seed acc)); cbn [sfrob watch]; apply rsq_hint.
  - cbn in Hb. subst. apply rsq_end. apply rsq_ret.
  - cbn in Hb. destruct Hb as (a & b & -> & Ha & Hb). destruct (zlen_cons_pos v l) as [E P].
    eapply rsq_next; [lia|reflexivity|apply Hp; [left; auto|exact Ha]|]. rewrite E. cbn [counted].
    specialize (IH (fun w c Hw => Hp w c (or_intror Hw)) (USeq [hint_val (Some (zlen (v :: l))); v] :: acc) b Hb). cbn [rev] in IH. rewrite <- app_assoc in IH. exact IH.
Qed.
Lemma rmp_watch kseed vseed (p q : val -> bytes -> Prop) l :
  (forall e b, In e l -> p (fst e) b -> rde kseed b (Ok (fst e))) ->
  (forall e b, In e l -> q (snd e) b -> rde vseed b (Ok (snd e))) ->
  forall acc bs, seq_enc (map (fun e b => exists x y, b = x ++ y /\ p (fst e) x /\ q (snd e) y) l) bs ->
  rmp (watch_map kseed vseed acc) (zlen l) bs (Ok (USeq (rev acc ++ counted_map l), 0)).
Proof.
  induction l as [|[k v] l IH]; intros Hp Hq acc bs Hb; rewrite (mfrob_eq (watch_map kseed vseed acc)); cbn [mfrob watch_map]; apply rmp_hint.
  - cbn in Hb. subst. apply rmp_end. apply rmp_ret.
  - cbn in Hb. destruct Hb as (a & b & -> & (x & y & -> & Hx & Hy) & Hb). destruct (zlen_cons_pos (k, v) l) as [E P].
    rewrite <- app_assoc. eapply rmp_key; [lia|reflexivity|apply (Hp (k, v)); [left; auto|exact Hx]|]. rewrite E. apply rmp_hint.
    cbn [fst snd] in *. eapply rmp_val; [reflexivity|apply (Hq (k, v)); [left; auto|exact Hy]|]. cbn [snd counted_map].
    specialize (IH (fun e c He => Hp e c (or_intror He)) (fun e c He => Hq e c (or_intror He)) (USeq [hint_val (Some (zlen ((k, v) :: l))); k; hint_val (Some (zlen l)); v] :: acc) b Hb).
    cbn [rev] in IH. rewrite <- app_assoc in IH. exact IH.
Qed.

Context (A : arch32up ar).
Theorem seq_hints m t l bs tail : In m [DSeq; DTuple; DTupleStruct] -> wf t -> adm fo (TSeq t) (USeq l) bs -> slice_of ar (bs ++ tail) ->
  exists N, forall fuel, (N <= fuel)%nat -> exists s,
    mp_from_slice ar fo fuel (request m (v_seq DeserializeError (watch (denote DeserializeError t) []))) (bs ++ tail) = Done s (Ok (USeq (counted l), zlen bs)).
Proof.
  intros Hm Hw (h & b & -> & Hh & Hb) Hs.
  assert (H : rde (request m (v_seq DeserializeError (watch (denote DeserializeError t) []))) (h ++ b) (Ok (USeq (counted l)))).
  { apply rde_request. eapply rme_seq; [exact Hm|exact Hh|]. apply (rsq_watch _ (adm fo t) l); [|exact Hb]. intros v c _. apply denote_reads. exact Hw. }
  destruct H as [N HN]. exists N. intros fuel Hf. apply (from_slice_reads ar fo A); [exact Hs|]. apply HN, Hf.
Qed.
Theorem map_hints kt vt l bs tail : wf kt -> wf vt -> adm fo (TMap kt vt) (UMap l) bs -> slice_of ar (bs ++ tail) ->
  exists N, forall fuel, (N <= fuel)%nat -> exists s,
    mp_from_slice ar fo fuel (request DMap (v_map DeserializeError (watch_map (denote DeserializeError kt) (denote DeserializeError vt) []))) (bs ++ tail) = Done s (Ok (USeq (counted_map l), zlen bs)).
Proof.
  intros Hk Hv (h & b & -> & Hh & Hb) Hs.
  assert (H : rde (request DMap (v_map DeserializeError (watch_map (denote DeserializeError kt) (denote DeserializeError vt) []))) (h ++ b) (Ok (USeq (counted_map l)))).
  { apply rde_request. eapply rme_map; [exact Hh|]. apply (rmp_watch _ _ (adm fo kt) (adm fo vt) l); [| |exact Hb]; intros e c _; apply denote_reads; assumption. }
  destruct H as [N HN]. exists N. intros fuel Hf. apply (from_slice_reads ar fo A); [exact Hs|]. apply HN, Hf.
Qed.

(** The first hint is the number in the header, whatever follows. *)
Lemma after_hdr {X} (g : Z -> DM mpde mp_de_error Z) (K : Z -> DM mpde mp_de_error X) s s' n :
  dbind (fetch ar) g s = Done s' (Ok n) -> dbind (fetch ar) (fun c => dbind (g c) K) s = K n s'.
Proof. intros E. rewrite <- dbind_assoc. unfold dbind at 1. rewrite E. reflexivity. Qed.
Lemma hint_eq n h tail k f : arr_hdr n h -> slice_of ar (h ++ tail) ->
  mp_from_slice ar fo (S (S f)) (request DSeq (v_seq DeserializeError (SHint k))) (h ++ tail) =
  mp_from_slice ar fo (S f) (request DSeq (v_seq DeserializeError (k (Some n)))) (h ++ tail).
Proof.
  intros Hh Hs. unfold mp_from_slice, dbind at 1 3.
  assert (E : r_de (mp_run ar fo (S (S f))) (request DSeq (v_seq DeserializeError (SHint k))) (de_from_slice (h ++ tail)) =
    r_de (mp_run ar fo (S f)) (request DSeq (v_seq DeserializeError (k (Some n)))) (de_from_slice (h ++ tail))); [|rewrite E; reflexivity].
  pose proof (init_ready ar _ A Hs) as R0.
  destruct (hdr_arr_run ar _ _ Hh _ R0 (ready_fits_app ar _ h tail R0 eq_refl)) as [H _]. destruct (H tail eq_refl) as (s' & E & _).
  change (dpost (fun r => r) (deserialize_seq ar (mp_run ar fo (S f)) (mk_visitor (v_seq DeserializeError (SHint k)))) (de_from_slice (h ++ tail)) =
    dpost (fun r => r) (deserialize_seq ar (mp_run ar fo f) (mk_visitor (v_seq DeserializeError (k (Some n))))) (de_from_slice (h ++ tail))).
  unfold deserialize_seq, dpost, dtry. rewrite !(after_hdr _ _ _ _ _ E). reflexivity.
Qed.
Lemma map_hint_eq n h tail k f : map_hdr n h -> slice_of ar (h ++ tail) ->
  mp_from_slice ar fo (S (S f)) (request DMap (v_map DeserializeError (MHint k))) (h ++ tail) =
  mp_from_slice ar fo (S f) (request DMap (v_map DeserializeError (k (Some n)))) (h ++ tail).
Proof.
  intros Hh Hs. unfold mp_from_slice, dbind at 1 3.
  assert (E : r_de (mp_run ar fo (S (S f))) (request DMap (v_map DeserializeError (MHint k))) (de_from_slice (h ++ tail)) =
    r_de (mp_run ar fo (S f)) (request DMap (v_map DeserializeError (k (Some n)))) (de_from_slice (h ++ tail))); [|rewrite E; reflexivity].
  pose proof (init_ready ar _ A Hs) as R0.
  destruct (hdr_map_run ar _ _ Hh _ R0 (ready_fits_app ar _ h tail R0 eq_refl)) as [H _]. destruct (H tail eq_refl) as (s' & E & _).
  change (dpost (fun r => r) (deserialize_map ar (mp_run ar fo (S f)) (mk_visitor (v_map DeserializeError (MHint k)))) (de_from_slice (h ++ tail)) =
    dpost (fun r => r) (deserialize_map ar (mp_run ar fo f) (mk_visitor (v_map DeserializeError (k (Some n))))) (de_from_slice (h ++ tail))).
  unfold deserialize_map, dpost, dtry. rewrite !(after_hdr _ _ _ _ _ E). reflexivity.
Qed.
End Mp.

Lemma hint_exceeds ar fo n : arch32up ar -> 0 <= n < 2 ^ 32 ->
  exists input, slice_of ar input /\ zlen input = 5 /\ forall fuel room,
    let visitor := SHint (fun h => match h with
      | Some n => if room <? n then SRet (Err DeserializeError) else SRet (Ok UUnit)
      | None => SRet (Ok UUnit)
      end) in
    room < n -> exists s, mp_from_slice ar fo (S (S (S fuel))) (request DSeq (v_seq DeserializeError visitor)) input = Done s (Err DeserializeError).
Proof.
  intros A Hn. assert (Hb : uint_be 4 n (be_bytes 4 n)) by (split; [apply be_bytes_length|split; [apply be_bytes_all|rewrite be_val_be_bytes; apply Z.mod_small; exact Hn]]). set (b := be_bytes 4 n) in *.
  exists (0xdd :: b). assert (Lb : length b = 4%nat) by apply Hb. assert (Bb : all_bytes b) by apply Hb.
  assert (Hs : slice_of ar (0xdd :: b)).
  { split; [constructor; [unfold is_byte; lia|exact Bb]|]. unfold zlen. cbn [length]. rewrite Lb. unfold arch32up in A. assert (10 / 2 <= usize_max ar / 2) by (apply Z.div_le_mono; lia). change (10 / 2) with 5 in *. lia. }
  split; [exact Hs|]. split; [unfold zlen; cbn [length]; rewrite Lb; reflexivity|]. intros fuel room visitor Hr. unfold visitor.
  assert (Hh : arr_hdr n (0xdd :: b)) by (apply AH_32; exact Hb).
  pose proof (hint_eq ar fo A n (0xdd :: b) [] (fun h => match h with Some n => if room <? n then SRet (Err DeserializeError) else SRet (Ok UUnit) | None => SRet (Ok UUnit) end) (S fuel) Hh) as E.
  rewrite app_nil_r in E. rewrite (E Hs). rewrite (proj2 (Z.ltb_lt _ _) Hr).
  pose proof (init_ready ar _ A Hs) as R0.
  destruct (hdr_arr_run ar _ _ Hh _ R0 (ready_fits_app ar _ (0xdd :: b) [] R0 (eq_sym (app_nil_r _)))) as [H _]. destruct (H [] (eq_sym (app_nil_r _))) as (s' & E' & _).
  exists s'. unfold mp_from_slice, dbind at 1.
  assert (E2 : r_de (mp_run ar fo (S (S fuel))) (request DSeq (v_seq DeserializeError (SRet (Err DeserializeError)))) (de_from_slice (0xdd :: b)) = Done s' (Err DeserializeError)); [|rewrite E2; reflexivity].
  change (dpost (fun r => r) (deserialize_seq ar (mp_run ar fo (S fuel)) (mk_visitor (v_seq DeserializeError (SRet (Err DeserializeError))))) (de_from_slice (0xdd :: b)) = Done s' (Err DeserializeError)).
  unfold deserialize_seq, dpost, dtry. rewrite (after_hdr _ _ _ _ _ _ E'). reflexivity.
Qed.

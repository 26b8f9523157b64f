(** Several messages one after another (C64). *)
From Verif Require Import Prelude PreludeFacts Utf8Spec Writer WriterContract SerMonad SerdeSer SerSim SerdeDe MpSpec MpSer MpErrMap MpSerSim MpSerProofs MpSerFacts
  MpDe MpDeView MpDeEat MpDeSafe MpDeTop Types TypesFacts MpTypeSpec MpTypedSer MpTypedTop Stream.
Ltac Zify.zify_post_hook ::= Z.div_mod_to_equations.

Local Notation mprog t := (denote DeserializeError t).

(** ** Derived code does not use [collect_str]. *)
Lemma zip_Forall {A B} (P : B -> Prop) (fs : list (A -> B)) : Forall (fun f => forall a, P (f a)) fs -> forall l, Forall P (zip (fun f a => f a) fs l).
Proof. induction 1 as [|f fs Hf _ IH]; intros [|a l]; cbn; auto. Qed.
Lemma trace_propagates t : forall v, displays_propagate (trace t v).
Proof.
  induction t as [ |k| | | | | | | |t IH|t IH|t IH|ts IH|ts IH|kt vt IHk IHv|fs IH|vs IH] using ty_ind'; intros v; cbn [trace]; try (destruct v; exact I); try exact I.
  - destruct v; cbn; auto.
  - apply IH.
  - destruct v; try exact I. cbn. rewrite all_list_Forall, Forall_map. apply Forall_forall. auto.
  - destruct v; try exact I. cbn. rewrite all_list_Forall. apply zip_Forall. rewrite Forall_map. exact IH.
  - destruct v; try exact I. cbn. rewrite all_list_Forall. apply zip_Forall. rewrite Forall_map. exact IH.
  - destruct v; try exact I. cbn. rewrite all_list_Forall. induction l as [|e l IHl]; cbn [flat_map app]; [constructor|]. constructor; [apply IHk|]. constructor; [apply IHv|exact IHl].
  - destruct v; try exact I. unfold struct_call. cbn. rewrite all_list_Forall.
    apply (zip_Forall (fun f => match snd f with Some v => displays_propagate v | None => True end)). rewrite Forall_map.
    eapply Forall_impl; [|exact IH]. intros f Hf a. cbn. destruct (skipped _ _); cbn; auto.
  - destruct v; try exact I. destruct (nth_error _ _) as [h|] eqn:E; [|exact I].
    apply nth_error_In in E. rewrite in_map_iff in E. destruct E as (f & <- & Hf). rewrite Forall_forall in IH. specialize (IH f Hf v).
    unfold variant_call. destruct (attr_of f); try exact I; auto; destruct (trace (snd f) v); exact I || exact IH.
Qed.

(** ** Writing *)
Section W.
Context {W E : Type} (SW : SerWrite W E) (inv : W -> Prop) (content : W -> bytes) (law : lawful SW inv content) (cfg : mp_cfg) (fl : flavour).
Lemma write_one v w out : displays_propagate v -> inv w -> mp_to_vec cfg fl v = Ok out ->
  let '(w', r) := mp_to_writer SW cfg fl w v in
  inv w' /\ exists p, prefix p out /\ content w' = content w ++ p /\ (r = Ok tt -> p = out).
Proof.
  intros D I H. rewrite (@to_vec_of_list E) in H by auto. destruct (mp_ser_sim SW inv content law cfg fl v D w [] I) as (o & E1 & I' & H1).
  unfold mp_to_writer in *. destruct (mp_ser SW cfg fl v w) as [w' r]. destruct (mp_ser VecWriter cfg fl v []) as [o' [[]|e]]; [|discriminate].
  cbn [fst snd app] in *. injection H as <-. subst o'. split; auto.
  destruct H1 as [(-> & C & _)|((e & -> & _) & p & P & C & _)].
  - exists o. split; [apply prefix_refl|auto].
  - exists p. split; auto. split; auto. discriminate.
Qed.
Lemma write_each vs outs w : Forall displays_propagate vs -> Forall2 (fun v out => mp_to_vec cfg fl v = Ok out) vs outs -> inv w ->
  let '(w', r) := mp_write_each SW cfg fl w vs in
  inv w' /\ exists p, prefix p (concat outs) /\ content w' = content w ++ p /\ (r = Ok tt -> p = concat outs).
Proof.
  intros D F. revert w D. induction F as [|v out vs outs Hv F IH]; intros w D I; cbn [mp_write_each concat].
  - split; auto. exists []. split; [apply prefix_refl|]. rewrite app_nil_r. auto.
  - inversion D; subst. pose proof (write_one v w out ltac:(assumption) I Hv) as H. destruct (mp_to_writer SW cfg fl w v) as [w' [[]|e]].
    + destruct H as (I' & p & P & C & Hp). specialize (Hp eq_refl). subst p. specialize (IH w' ltac:(assumption) I').
      destruct (mp_write_each SW cfg fl w' vs) as [w2 r2]. destruct IH as (I2 & p & P2 & C2 & Hp). split; auto.
      exists (out ++ p). split; [apply prefix_app, P2|]. rewrite C2, C, app_assoc. split; auto. intros Hr. rewrite (Hp Hr). reflexivity.
    + destruct H as (I' & p & P & C & _). split; auto. exists p. split; [apply prefix_app_l, P|]. split; auto. discriminate.
Qed.
End W.

(** ** Reading *)
Lemma split_at {A} (a b p q : list A) : a ++ b = p ++ q -> (exists p', p = a ++ p' /\ b = p' ++ q) \/ exists c r, a = p ++ c :: r.
Proof.
  revert p. induction a as [|x a IH]; intros p E; [left; exists p; auto|]. destruct p as [|y p]; [right; exists x, a; reflexivity|].
  cbn in E. injection E as <- E. destruct (IH p E) as [(p' & -> & ->)|(c & r & ->)]; [left; exists p'; auto|right; exists c, r; reflexivity].
Qed.
Section R.
Context (ar : arch) (fo : float_ops) (A32 : arch32up ar).
Local Notation msg := (ty * val * bytes)%type.
Definition fine (m : msg) : Prop := wf (fst (fst m)) /\ adm fo (fst (fst m)) (snd (fst m)) (snd m).
Definition tys (ms : list msg) := map (fun m => fst (fst m)) ms.
Definition vals (ms : list msg) := map (fun m => snd (fst m)) ms.

Lemma read_one t v bs tail : wf t -> adm fo t v bs -> slice_of ar (bs ++ tail) ->
  exists N, forall fuel, (N <= fuel)%nat -> exists s, mp_from_slice_split_tail ar fo fuel (mprog t) (bs ++ tail) = Done s (Ok (v, tail)).
Proof.
  intros Hw Ha Hs. destruct (typed_accepts ar fo A32 t v bs tail Hw Ha Hs) as [N HN]. exists N. intros fuel Hf.
  destruct (HN fuel Hf) as (s & E). exists s. unfold mp_from_slice_split_tail. rewrite E.
  replace ((0 <=? zlen bs) && (zlen bs <=? zlen (bs ++ tail))) with true by (rewrite zlen_app; pose proof (zlen_nonneg bs); pose proof (zlen_nonneg tail); lia).
  unfold zlen at 1. rewrite Nat2Z.id, skipn_app, skipn_all, Nat.sub_diag. reflexivity.
Qed.
Lemma read_each (ms : list msg) tail : Forall fine ms -> slice_of ar (concat (map snd ms) ++ tail) ->
  exists N, forall fuel, (N <= fuel)%nat -> mp_read_each ar fo fuel (tys ms) (concat (map snd ms) ++ tail) = (vals ms, Finished tail).
Proof.
  induction ms as [|[[t v] bs] ms IH]; cbn [map concat fst snd mp_read_each tys vals]; intros H Hs; [exists O; auto|].
  inversion H as [|x l [Hw Ha] H']; subst. cbn [fst snd] in *. rewrite <- app_assoc in *.
  destruct (read_one t v bs _ Hw Ha Hs) as [N1 HN1]. destruct (IH H' (slice_of_app_r _ _ _ Hs)) as [N2 HN2].
  exists (N1 + N2)%nat. intros fuel Hf. destruct (HN1 fuel ltac:(lia)) as (s & ->). unfold tys, vals in HN2. rewrite HN2 by lia. reflexivity.
Qed.
(** The stream is cut: what is complete is read, then the end is reported. *)
Lemma read_cut (ms : list msg) p q : Forall fine ms -> slice_of ar (concat (map snd ms)) -> concat (map snd ms) = p ++ q -> q <> [] ->
  exists N k, (k < length ms)%nat /\ (length (concat (map snd (firstn k ms))) <= length p < length (concat (map snd (firstn (S k) ms))))%nat /\
  forall fuel, (N <= fuel)%nat -> mp_read_each ar fo fuel (tys ms) p = (vals (firstn k ms), Failed UnexpectedEof).
Proof.
  revert p. induction ms as [|[[t v] bs] ms IH]; intros p H Hs Ep Hq; cbn [map concat fst snd] in *.
  { destruct p; destruct q; discriminate || congruence. }
  inversion H as [|x l [Hw Ha] H']; subst. cbn [fst snd] in *.
  destruct (split_at bs _ p q Ep) as [(p' & -> & Ep')|(c & r & ->)].
  - destruct (IH p' H' (slice_of_app_r _ _ _ Hs) Ep' Hq) as (N2 & k & K1 & K2 & HN2).
    assert (Hs' : slice_of ar (bs ++ p')) by (rewrite Ep', app_assoc in Hs; eapply slice_of_app_l; exact Hs).
    destruct (read_one t v bs p' Hw Ha Hs') as [N1 HN1].
    exists (N1 + N2)%nat, (S k). split; [cbn [length]; lia|]. split; [rewrite (firstn_cons (S k)), (firstn_cons k); cbn [map concat snd]; rewrite !app_length; lia|].
    intros fuel Hf. cbn [tys map fst mp_read_each]. destruct (HN1 fuel ltac:(lia)) as (s & ->). unfold tys in HN2. rewrite HN2 by lia. reflexivity.
  - destruct (typed_truncated ar fo A32 t v p c r Hw Ha (slice_of_app_l _ _ _ Hs)) as [N HN].
    exists N, O. split; [cbn [length]; lia|]. split; [cbn [firstn map concat snd]; rewrite !app_length; cbn [length]; lia|].
    intros fuel Hf. cbn [tys map fst mp_read_each]. unfold mp_from_slice_split_tail. destruct (HN fuel Hf) as (s & ->). reflexivity.
Qed.

(** ** Splitting without decoding *)
Lemma remaining_rest s : ready ar s -> remaining_len s = zlen (rest s).
Proof. intros ((? & ?) & _). unfold remaining_len, rest, zlen in *. rewrite skipn_length. lia. Qed.
Lemma split_each (bss : list bytes) p fin : Forall (fun bs => exists m, mp_fmt m bs) bss ->
  (p = [] /\ fin = Finished [] \/ p <> [] /\ wide ar /\ all_bytes p /\ (exists m c q, mp_fmt m (p ++ c :: q)) /\ fin = Failed UnexpectedEof) ->
  forall s fuel n, ready ar s -> rest s = concat bss ++ p ->
  (2 * length (concat bss ++ p) + 1 <= fuel)%nat -> (length bss < n)%nat ->
  mp_split_each ar fuel n s = (map zlen bss, fin).
Proof.
  intros F Hp. induction F as [|bs bss (m & Hm) _ IH]; intros s fuel n Hs Hr Hf Hn; (destruct n as [|n]; [cbn in Hn; lia|]); cbn [mp_split_each map concat app length] in *;
    rewrite (remaining_rest s Hs), Hr.
  - destruct Hp as [(-> & ->)|(Np & W & B & (m & c & q & Hm) & ->)]; [reflexivity|].
    destruct p as [|x p]; [congruence|]. replace (zlen (x :: p) =? 0) with false by (unfold zlen; cbn [length]; lia).
    rewrite <- Hr in *. destruct (eat_truncated_wide ar s m _ c q fuel Hs W B Hm eq_refl Hf) as (s' & ->). reflexivity.
  - pose proof (mp_fmt_nonempty _ _ Hm) as Ne. rewrite <- app_assoc in *. rewrite !app_length in Hf.
    replace (zlen (bs ++ concat bss ++ p) =? 0) with false by (unfold zlen; rewrite app_length; destruct bs; [congruence|cbn [length]; lia]).
    destruct (eat_complete_budget ar) as [C _].
    destruct (C _ _ Hm fuel ltac:(lia) s Hs (ready_fits_app ar s bs _ Hs Hr)) as [HN _]. destruct (HN _ Hr) as (s' & E & A).
    assert (R' : rest s' = concat bss ++ p) by (eapply adv_rest; eauto). assert (Hs' : ready ar s') by (eapply adv_ready; eauto). rewrite E.
    rewrite (IH s' fuel n Hs' R' ltac:(rewrite app_length; lia) ltac:(lia)). rewrite (remaining_rest s' Hs'), R'. f_equal. f_equal.
    unfold zlen. rewrite !app_length. lia.
Qed.
Theorem split_complete bss input fuel n : Forall (fun bs => exists m, mp_fmt m bs) bss -> input = concat bss -> slice_of ar input ->
  (2 * length input + 1 <= fuel)%nat -> (length bss < n)%nat ->
  mp_split_each ar fuel n (de_from_slice input) = (map zlen bss, Finished []).
Proof.
  intros F -> Hs Hf Hn. apply (split_each bss [] (Finished []) F); auto; [apply init_ready; auto| |]; rewrite app_nil_r; auto.
Qed.
Theorem split_cut bss p m c q input fuel n : wide ar -> Forall (fun bs => exists m, mp_fmt m bs) bss -> p <> [] -> mp_fmt m (p ++ c :: q) ->
  input = concat bss ++ p -> slice_of ar input -> (2 * length input + 1 <= fuel)%nat -> (length bss < n)%nat ->
  mp_split_each ar fuel n (de_from_slice input) = (map zlen bss, Failed UnexpectedEof).
Proof.
  intros Hw F Np Hm -> Hs Hf Hn. apply (split_each bss p (Failed UnexpectedEof) F); auto; [|apply init_ready; auto].
  right. split; auto. split; auto. split; [|eauto]. apply slice_of_app_r in Hs. apply Hs.
Qed.
End R.

(** ** Written, perhaps not all of it, and read *)
Theorem stream_trip {W E} (SW : SerWrite W E) inv content : lawful SW inv content ->
  forall ar fo cfg fl (ms : list (ty * val * bytes)) w w' r, arch32up ar -> inv w ->
  Forall (fun m => wf (fst (fst m)) /\ hastype (fst (fst m)) (snd (fst m)) /\ strict (fst (fst m)) /\
                   mp_to_vec cfg fl (trace (fst (fst m)) (snd (fst m))) = Ok (snd m)) ms ->
  slice_of ar (concat (map snd ms)) ->
  mp_write_each SW cfg fl w (map (fun m => trace (fst (fst m)) (snd (fst m))) ms) = (w', r) ->
  exists p k N, content w' = content w ++ p /\ prefix p (concat (map snd ms)) /\ (r = Ok tt -> k = length ms) /\ (k <= length ms)%nat /\
    (k = length ms -> p = concat (map snd ms)) /\
    forall fuel, (N <= fuel)%nat ->
      mp_read_each ar fo fuel (map (fun m => fst (fst m)) ms) p =
        (map (fun m => snd (fst m)) (firstn k ms), if (k =? length ms)%nat then Finished [] else Failed UnexpectedEof).
Proof.
  intros L ar fo cfg fl ms w w' r A I F Hs Ew.
  pose proof (write_each SW inv content L cfg fl (map (fun m => trace (fst (fst m)) (snd (fst m))) ms) (map snd ms) w) as H.
  rewrite Ew in H. destruct H as (_ & p & P & C & Hr); auto.
  { rewrite Forall_map. apply Forall_forall. intros. apply trace_propagates. }
  { clear - F. induction F as [|m ms (? & ? & ? & ?) _ IH]; cbn; constructor; auto. }
  assert (G : Forall (fine fo) ms).
  { eapply Forall_impl; [|exact F]. intros [[t v] bs] (Hw & Hv & St & Ho). cbn [fst snd] in *. split; cbn [fst snd]; auto.
    destruct (typed_output fo cfg fl t v Hw Hv) as [(out' & E' & Ha & _)|(e & E')]; [|congruence].
    assert (out' = bs) by congruence. subst. rewrite (collapse_strict t v St Hv) in Ha. exact Ha. }
  destruct P as [q Eq]. destruct q as [|x q].
  - rewrite app_nil_r in Eq. subst p. destruct (read_each ar fo A ms [] G) as [N HN]; [rewrite app_nil_r; auto|].
    exists (concat (map snd ms)), (length ms), N. split; auto. split; [apply prefix_refl|]. repeat split; auto. intros fuel Hf.
    rewrite firstn_all, Nat.eqb_refl. specialize (HN fuel Hf). rewrite app_nil_r in HN. exact HN.
  - destruct (read_cut ar fo A ms p (x :: q) G Hs Eq) as (N & k & K1 & K2 & HN); [discriminate|].
    exists p, k, N. split; auto. split; [exists (x :: q); auto|]. split.
    { intros Hok. specialize (Hr Hok). subst p. rewrite <- (app_nil_r (concat _)) in Eq at 1. apply app_inv_head in Eq. discriminate. }
    split; [lia|]. split; [lia|]. intros fuel Hf. replace (k =? length ms)%nat with false by (symmetry; apply Nat.eqb_neq; lia). apply HN. exact Hf.
Qed.

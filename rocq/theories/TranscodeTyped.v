(** A shortest encoding of the document a typed value is written as by name is read
    as that value, whoever wrote it (C73). *)
From Verif Require Import Prelude PreludeFacts Utf8 Utf8Spec Utf8Facts SerdeSer SerdeDe FloatOps MpSpec MpSerProofs Types MpTypeSpec MpTypedSer TypesFacts.

(** ** Parts of a shortest encoding are shortest *)
Lemma best_arr l b : best (VArr l) b -> exists h c, b = h ++ c /\ arr_hdr (zlen l) h /\ best_list l c.
Proof.
  intros [F M]. inversion F as [| | | | | | | |? h c Hh Hc| |]; subst. exists h, c. split; [reflexivity|]. split; [exact Hh|].
  split; [exact Hc|]. intros c' Hc'. specialize (M (h ++ c') (MF_arr l h c' Hh Hc')). rewrite !app_length in M. lia.
Qed.
Lemma best_cons v l b : best_list (v :: l) b -> exists x y, b = x ++ y /\ best v x /\ best_list l y.
Proof.
  intros [F M]. inversion F as [|? ? x y Hx Hy]; subst. exists x, y. split; [reflexivity|]. split; split; auto.
  - intros x' Hx'. specialize (M (x' ++ y) (ML_cons _ _ _ _ Hx' Hy)). rewrite !app_length in M. lia.
  - intros y' Hy'. specialize (M (x ++ y') (ML_cons _ _ _ _ Hx Hy')). rewrite !app_length in M. lia.
Qed.
Lemma best_map l b : best (VMap l) b -> exists h c, b = h ++ c /\ map_hdr (zlen l) h /\ best_pairs l c.
Proof.
  intros [F M]. inversion F as [| | | | | | | | |? h c Hh Hc|]; subst. exists h, c. split; [reflexivity|]. split; [exact Hh|].
  split; [exact Hc|]. intros c' Hc'. specialize (M (h ++ c') (MF_map l h c' Hh Hc')). rewrite !app_length in M. lia.
Qed.
Lemma best_entry k v l b : best_pairs ((k, v) :: l) b -> exists x y z, b = x ++ y ++ z /\ best k x /\ best v y /\ best_pairs l z.
Proof.
  intros [F M]. inversion F as [|? ? ? x y z Hx Hy Hz]; subst. exists x, y, z. split; [reflexivity|]. repeat split; auto.
  - intros x' Hx'. specialize (M (x' ++ y ++ z) (MP_cons _ _ _ _ _ _ Hx' Hy Hz)). rewrite !app_length in M. lia.
  - intros y' Hy'. specialize (M (x ++ y' ++ z) (MP_cons _ _ _ _ _ _ Hx Hy' Hz)). rewrite !app_length in M. lia.
  - intros z' Hz'. specialize (M (x ++ y ++ z') (MP_cons _ _ _ _ _ _ Hx Hy Hz')). rewrite !app_length in M. lia.
Qed.
Lemma best_one k v b : best (VMap [(k, v)]) b -> exists x y, b = 0x81 :: x ++ y /\ best k x /\ best v y.
Proof.
  intros B. pose proof B as [_ M]. destruct (best_map _ _ B) as (h & c & -> & Hh & Hc).
  destruct (best_entry _ _ _ _ Hc) as (x & y & z & -> & Hx & Hy & Hz).
  assert (z = []) as -> by (destruct Hz as [Hz _]; inversion Hz; reflexivity). rewrite app_nil_r in *.
  exists x, y. split; [|auto]. assert (H1 : map_hdr 1 [0x80 + 1]) by (apply (MH_fix 1); lia).
  assert (W : mp_fmt_pairs [(k, v)] (x ++ y)) by apply Hc.
  specialize (M _ (MF_map [(k, v)] [0x80 + 1] (x ++ y) H1 W)). rewrite !app_length in M. cbn [length] in M.
  change (zlen [(k, v)]) with 1 in Hh. inversion Hh as [? Hn|? u Hu|? u Hu]; subst; [reflexivity| |];
    destruct Hu as [Hu _]; cbn [length] in M; lia.
Qed.
Lemma best_str s m b : doc_str s = Some m -> best m b -> str_enc s b.
Proof.
  unfold doc_str. destruct (lt32 (zlen s)); intros E [F _]; inversion E; subst. inversion F as [| | | | | |? h Hs Hh| | | |]; subst. exists h. auto.
Qed.
Lemma best_nil b : best VNil b -> b = [0xc0].
Proof. intros [F _]. inversion F. reflexivity. Qed.

(** ** Typed values *)
Local Notation mdoc := (mp_doc SNameMap).
Local Notation coll := (collapse nullish).
Section T.
Context (fo : float_ops).
Definition read_as (t : ty) (v : val) (b : bytes) : Prop := adm fo t (coll t v) b /\ (if nullish t v then b = [0xc0] else b <> [0xc0]).
Definition reads (t : ty) : Prop := wf t -> forall v, hastype t v -> forall m b, mdoc (trace t v) = Some m -> best m b -> read_as t v b.

Lemma array_len len (ms : option (list mpv)) m : doc_array len ms = Some m -> exists l, ms = Some l /\ m = VArr l /\ zlen l = len.
Proof.
  unfold doc_array. destruct ms as [l|]; [|discriminate]. destruct ((len =? zlen l) && lt32 len) eqn:E; [|discriminate].
  intros Q. inversion Q. exists l. apply andb_prop in E. destruct E as [E _]. split; auto. split; auto. lia.
Qed.
Lemma map_len len (ms : option (list (mpv * mpv))) m : doc_map len ms = Some m -> exists l, ms = Some l /\ m = VMap l /\ zlen l = len.
Proof.
  unfold doc_map. destruct ms as [l|]; [|discriminate]. destruct ((len =? zlen l) && lt32 len) eqn:E; [|discriminate].
  intros Q. inversion Q. exists l. apply andb_prop in E. destruct E as [E _]. split; auto. split; auto. lia.
Qed.
Lemma omap_cons {A B} (f : A -> option B) x l ys : omap f (x :: l) = Some ys -> exists y r, f x = Some y /\ omap f l = Some r /\ ys = y :: r.
Proof. cbn [omap]. destruct (f x) as [y|]; [|discriminate]. fold (omap f l). destruct (omap f l) as [r|]; [|discriminate]. intros Q. inversion Q. eauto. Qed.

Lemma seq_reads t : reads t -> wf t -> forall l, Forall (hastype t) l -> forall ms b, omap mdoc (map (trace t) l) = Some ms -> best_list ms b ->
  seq_enc (map (adm fo t) (map (coll t) l)) b.
Proof.
  intros R W l H. induction H as [|v l Hv H IH]; intros ms b E B; cbn [map] in *.
  - inversion E; subst. destruct B as [B _]. inversion B. reflexivity.
  - destruct (omap_cons _ _ _ _ E) as (y & r & E1 & E2 & ->). destruct (best_cons _ _ _ B) as (x & z & -> & B1 & B2).
    cbn [seq_enc]. exists x, z. split; [reflexivity|]. split; [|eapply IH; eauto]. exact (proj1 (R W v Hv y x E1 B1)).
Qed.
Lemma tuple_reads ts : Forall reads ts -> all_list wf ts -> forall l, all2 (fun h v => h v) (map hastype ts) l ->
  length l = length ts /\ forall ms b, omap mdoc (zip (fun f v => f v) (map trace ts) l) = Some ms -> best_list ms b ->
    seq_enc (zip (fun p v => p v) (map (adm fo) ts) (zip (fun f v => f v) (map (collapse nullish) ts) l)) b.
Proof.
  intros R. induction R as [|t ts Rt R IH]; intros W [|v l] H; cbn [map all2 all_list zip length] in *; try tauto.
  - split; auto. intros ms b E B. inversion E; subst. destruct B as [B _]. inversion B. reflexivity.
  - destruct W as [W1 W2], H as [H1 H2]. destruct (IH W2 l H2) as [L IH']. split; [lia|]. intros ms b E B.
    destruct (omap_cons _ _ _ _ E) as (y & r & E1 & E2 & ->). destruct (best_cons _ _ _ B) as (x & z & -> & B1 & B2).
    cbn [seq_enc]. exists x, z. split; [reflexivity|]. split; [|eapply IH'; eauto]. exact (proj1 (Rt W1 v H1 y x E1 B1)).
Qed.
Lemma pairs_read k t : reads k -> reads t -> wf k -> wf t -> forall l, Forall (fun e => hastype k (fst e) /\ hastype t (snd e)) l -> forall os ps b,
  omap (fun o => option_map (pair (fst o)) (mdoc (snd o))) (flat_map (fun e => [(true, trace k (fst e)); (false, trace t (snd e))]) l) = Some os ->
  pair_up os = Some ps -> best_pairs ps b ->
  zlen ps = zlen l /\ seq_enc (map (fun e b => exists x y, b = x ++ y /\ adm fo k (fst e) x /\ adm fo t (snd e) y) (map (fun e => (coll k (fst e), coll t (snd e))) l)) b.
Proof.
  intros Rk Rt Wk Wt l H. induction H as [|[a c] l [H1 H2] H IH]; intros os ps b E P B; cbn [flat_map map app fst snd] in *.
  - inversion E; subst. inversion P; subst. destruct B as [B _]. inversion B. split; reflexivity.
  - destruct (omap_cons _ _ _ _ E) as (y & r & E1 & E2 & ->). destruct (omap_cons _ _ _ _ E2) as (y' & r' & E3 & E4 & ->). cbn [fst snd] in *.
    destruct (mdoc (trace k a)) as [mk|] eqn:Ek; [|discriminate]. destruct (mdoc (trace t c)) as [mt|] eqn:Et; [|discriminate].
    inversion E1; subst. inversion E3; subst. cbn [pair_up] in P. destruct (pair_up r') as [ps'|] eqn:Ep; [|discriminate]. inversion P; subst.
    destruct (best_entry _ _ _ _ B) as (x & z & w & -> & B1 & B2 & B3). destruct (IH _ _ _ E4 Ep B3) as [L S'].
    split; [unfold zlen in *; cbn [length]; lia|]. cbn [seq_enc]. exists (x ++ z), w. rewrite app_assoc. split; [reflexivity|]. split; [|exact S'].
    exists x, z. split; [reflexivity|]. split; [exact (proj1 (Rk Wk a H1 _ _ Ek B1))|exact (proj1 (Rt Wt c H2 _ _ Et B2))].
Qed.

Local Notation fdoc := (fun f : bytes * option sval => match snd f with None => Some (fst f, None) | Some x => option_map (fun m => (fst f, Some m)) (mdoc x) end).
Lemma fields_read fs : names_ok (map name_of fs) -> Forall (fun f => reads (snd f)) fs ->
  all_list (fun f => wf (snd f) /\ match attr_of f with FDefault d => hastype (snd f) d | FPlain => True end) fs ->
  forall fs2 fs1 l g1, fs = fs1 ++ fs2 -> length g1 = length fs1 -> all2 (fun h v => h v) (map (fun f => hastype (snd f)) fs2) l ->
  forall ds ps b, omap fdoc (zip item fs2 l) = Some ds -> doc_fields_name ds = Some ps -> best_pairs ps b ->
    length fs2 = length l /\ 
    entries (map name_of fs) (map (fun f => adm fo (snd f)) fs) (g1 ++ map (fun _ => None) fs2) (zlen ps) b (g1 ++ zip gval fs2 l).
Proof.
  intros Hn R W. induction fs2 as [|f fs2 IH]; intros fs1 [|v l] g1 Hfs Hg H ds ps b E P B; cbn [map all2 zip length] in *; try tauto.
  - inversion E; subst. inversion P; subst. destruct B as [B _]. inversion B. split; [reflexivity|]. constructor.
  - destruct H as [H1 H2]. destruct (omap_cons _ _ _ _ E) as (y & r & E1 & E2 & ->). unfold item in E1. cbn [fst snd] in E1.
    assert (Hin : In f fs) by (rewrite Hfs; apply in_or_app; right; left; reflexivity).
    assert (Hfs' : fs = (fs1 ++ [f]) ++ fs2) by (rewrite <- app_assoc; exact Hfs).
    unfold gval at 1. destruct (skipped (attr_of f) v) eqn:Es.
    + inversion E1; subst y. cbn [doc_fields_name] in P.
      destruct (IH (fs1 ++ [f]) l (g1 ++ [None]) Hfs' ltac:(rewrite !app_length; cbn; lia) H2 r ps b E2 P B) as [L I].
      split; [lia|]. rewrite <- !app_assoc in I. exact I.
    + destruct (mdoc (trace (snd f) v)) as [mv|] eqn:Em; [|discriminate]. inversion E1; subst y. cbn [doc_fields_name] in P.
      destruct (doc_str (name_of f)) as [kd|] eqn:Ek; [|discriminate]. destruct (doc_fields_name r) as [ps'|] eqn:Ep; [|discriminate]. inversion P; subst ps.
      destruct (best_entry _ _ _ _ B) as (x & z & w & -> & B1 & B2 & B3).
      destruct (IH (fs1 ++ [f]) l (g1 ++ [Some (coll (snd f) v)]) Hfs' ltac:(rewrite !app_length; cbn; lia) H2 r ps' w E2 Ep B3) as [L I].
      split; [lia|]. rewrite Forall_forall in R. destruct (all_list_In' _ _ W _ Hin) as [Wf _].
      replace (zlen ((kd, mv) :: ps')) with (1 + zlen ps') by (unfold zlen; cbn [length]; lia).
      apply (EN_field _ _ _ _ (length fs1) (adm fo (snd f)) (coll (snd f) v)).
      * rewrite <- Hg. apply nth_error_mid.
      * rewrite nth_error_map, Hfs, nth_error_mid. reflexivity.
      * left. exists (name_of f). split; [rewrite nth_error_map, Hfs, nth_error_mid; reflexivity|]. eapply best_str; eauto.
      * exact (proj1 (R f Hin Wf v H1 _ _ Em B2)).
      * rewrite <- Hg, set_nth_app, <- app_assoc. rewrite <- !app_assoc in I. exact I.
Qed.
Lemma struct_reads fs l m b : Forall (fun f => reads (snd f)) fs -> wf (TStruct fs) -> hastype (TStruct fs) (USeq l) ->
  mdoc (trace (TStruct fs) (USeq l)) = Some m -> best m b -> read_as (TStruct fs) (USeq l) b.
Proof.
  intros R [Hn W] H E B. cbn [trace] in E. unfold struct_call in E. rewrite zip_map in E. fold item in E. cbn [mp_doc] in E.
  unfold doc_struct in E. destruct (omap fdoc (zip item fs l)) as [ds|] eqn:Ed; [|discriminate].
  destruct (map_len _ _ _ E) as (ps & Ep & -> & L). destruct (best_map _ _ B) as (h & c & -> & Hh & Hc). cbn [hastype] in H.
  destruct (fields_read fs Hn R W fs [] l [] eq_refl eq_refl H ds ps c Ed Ep Hc) as [Hl I]. cbn [app] in I.
  unfold read_as. cbn [collapse adm nullish]. rewrite zip_map. split; [|eapply map_not_nil; eauto].
  right. exists (zlen ps), h, c, (zip gval fs l). split; [reflexivity|]. split; [exact Hh|]. split; [exact I|]. apply all_fields_gval. exact Hl.
Qed.

Lemma all_read t : reads t.
Proof.
  induction t as [ |k| | | | | | | |t IH|t IH|t IH|l IH|l IH|k v IHk IHv|fs IH|vs IH] using ty_ind'; intros W v0 H m b E B.
  - destruct v0; cbn [hastype] in H; try tauto. inversion E; subst. destruct B as [F _]. unfold read_as. cbn.
    destruct b0; inversion F; subst; split; auto; discriminate.
  - destruct v0; cbn [hastype] in H; try tauto. inversion E; subst. destruct B as [F _]. inversion F as [| | |? ? Fi| | | | | | |]; subst.
    unfold read_as. cbn [collapse adm nullish]. split; [split; auto|]. eapply int_not_nil; eauto.
  - destruct v0; cbn [hastype] in H; try tauto. inversion E; subst. destruct B as [F _]. inversion F; subst.
    unfold read_as. cbn [collapse adm nullish]. split; [left; eauto|discriminate].
  - destruct v0; cbn [hastype] in H; try tauto. inversion E; subst. destruct B as [F _]. inversion F; subst.
    unfold read_as. cbn [collapse adm nullish]. split; [left; eauto|discriminate].
  - destruct v0; cbn [hastype] in H; try tauto. inversion E; subst. destruct B as [F _]. inversion F as [| | | | | |? h Hs Hh| | | |]; subst.
    unfold read_as. cbn [collapse adm nullish]. split; [split; auto; exists h; auto|]. eapply str_not_nil; eauto.
  - destruct v0; cbn [hastype] in H; try tauto. cbn [trace mp_doc] in E. pose proof (best_str _ _ _ E B) as Q.
    unfold read_as. cbn [collapse adm nullish]. split; [split; [apply H|exact Q]|]. destruct Q as (h & Hh & ->). eapply str_not_nil; eauto.
  - destruct v0; cbn [hastype] in H; try tauto. cbn [trace mp_doc] in E. destruct (lt32 _); inversion E; subst. destruct B as [F _].
    inversion F as [| | | | | | |? h Hs Hh| | |]; subst. unfold read_as. cbn [collapse adm nullish]. split; [split; [apply H|eauto]|].
    intros Q. inversion Hh; subst; discriminate.
  - destruct v0; cbn [hastype] in H; try tauto. inversion E; subst. apply best_nil in B. subst. split; reflexivity.
  - destruct v0; cbn [hastype] in H; try tauto. inversion E; subst. apply best_nil in B. subst. split; reflexivity.
  - destruct v0; cbn [hastype] in H; try tauto; cbn [trace mp_doc] in E.
    + inversion E; subst. apply best_nil in B. subst. split; reflexivity.
    + pose proof (IH W v0 H m b E B) as [A N]. unfold read_as. cbn [collapse nullish]. destruct (nullish t v0); cbn [adm]; auto.
  - cbn [trace mp_doc hastype] in *. exact (IH W v0 H m b E B).
  - destruct v0; cbn [hastype] in H; try tauto. cbn [trace mp_doc] in E. destruct (array_len _ _ _ E) as (ms & Es & -> & L).
    destruct (best_arr _ _ B) as (h & c & -> & Hh & Hc). destruct H as [H _]. unfold read_as. cbn [collapse adm nullish]. split; [|eapply arr_not_nil; eauto].
    exists h, c. rewrite L in Hh. unfold zlen in *. rewrite map_length. split; [reflexivity|]. split; [exact Hh|]. eapply seq_reads; eauto.
  - destruct v0; cbn [hastype] in H; try tauto. destruct W as [W _]. cbn [trace mp_doc] in E. destruct (array_len _ _ _ E) as (ms & Es & -> & L).
    destruct (best_arr _ _ B) as (h & c & -> & Hh & Hc). destruct (tuple_reads l IH W l0 H) as [Q R]. unfold read_as. cbn [collapse adm nullish]. split; [|eapply arr_not_nil; eauto].
    exists h, c. rewrite L in Hh. split; [reflexivity|]. split; [exact Hh|]. split; [rewrite zip_len; rewrite map_length; auto|]. eapply R; eauto.
  - destruct v0; cbn [hastype] in H; try tauto. destruct W as [W _]. cbn [trace mp_doc] in E. destruct (array_len _ _ _ E) as (ms & Es & -> & L).
    destruct (best_arr _ _ B) as (h & c & -> & Hh & Hc). destruct (tuple_reads l IH W l0 H) as [Q R]. unfold read_as. cbn [collapse adm nullish]. split; [|eapply arr_not_nil; eauto].
    exists h, c. rewrite L in Hh. split; [reflexivity|]. split; [exact Hh|]. split; [rewrite zip_len; rewrite map_length; auto|]. eapply R; eauto.
  - destruct v0; cbn [hastype] in H; try tauto. destruct H as [H _], W as [W1 W2]. cbn [trace mp_doc] in E.
    destruct (omap _ _) as [os|] eqn:Eo in E; [|discriminate]. destruct (map_len _ _ _ E) as (ps & Ep & -> & L).
    destruct (best_map _ _ B) as (h & c & -> & Hh & Hc). destruct (pairs_read k v IHk IHv W1 W2 l H os ps c Eo Ep Hc) as [_ Q].
    unfold read_as. cbn [collapse adm nullish]. split; [|eapply map_not_nil; eauto]. exists h, c. rewrite L in Hh. unfold zlen in *. rewrite map_length. auto.
  - destruct v0; cbn [hastype] in H; try tauto. eapply struct_reads; eauto.
  - destruct v0; cbn [hastype] in H; try tauto. destruct W as [Hn W]. rewrite Forall_forall in IH. rewrite nth_error_map in H. cbn [trace] in E. rewrite nth_error_map in E.
    unfold read_as. cbn [collapse adm nullish]. rewrite !nth_error_map in *.
    destruct (nth_error vs i) as [[[nm kd] t]|] eqn:Ei; [|cbn in H; tauto].
    cbn [option_map attr_of name_of snd fst] in *. rewrite ?nth_error_map, ?Ei. cbn [option_map attr_of name_of snd fst] in *.
    pose proof (nth_error_In _ _ Ei) as Hi. destruct (all_list_In' _ _ W _ Hi) as [Wt Hk]. cbn [attr_of snd fst] in *.
    specialize (IH _ Hi Wt v0 H). cbn [snd] in IH.
    assert (Hnm : nth_error (map name_of vs) i = Some nm) by (rewrite nth_error_map, Ei; auto).
    assert (D : forall c, variant_map (doc_str nm) c = Some m -> mdoc (trace t v0) = c ->
        (exists k b0, b = 0x81 :: k ++ b0 /\ ident_enc (map name_of vs) i k /\ adm fo t (coll t v0) b0) /\ b <> [0xc0]).
    { intros c Ec Et. unfold variant_map in Ec. destruct (doc_str nm) as [mk|] eqn:Ek; [|discriminate]. destruct c as [mc|]; [|discriminate]. inversion Ec; subst m.
      destruct (best_one _ _ _ B) as (x & y & -> & B1 & B2). split; [|discriminate]. exists x, y. split; [reflexivity|]. split; [|exact (proj1 (IH _ _ Et B2))].
      left. exists nm. split; [exact Hnm|]. eapply best_str; eauto. }
    destruct kd; cbn [variant_call] in E.
    + destruct t; cbn in Hk; try tauto. destruct v0; cbn in H; try tauto. cbn [mp_doc doc_variant] in E. pose proof (best_str _ _ _ E B) as Q.
      assert (I : ident_enc (map name_of vs) i b) by (left; eauto). split; [auto|]. eapply ident_not_nil; eauto.
    + cbn [mp_doc doc_variant] in E. eapply D; eauto.
    + destruct t; cbn in Hk; try tauto. destruct v0; cbn in H; try tauto. cbn [trace mp_doc doc_variant] in E. eapply D; eauto.
    + destruct t; cbn in Hk; try tauto. destruct v0; cbn in H; try tauto. cbn [trace] in E. unfold struct_call in E. cbn [mp_doc doc_variant] in E. eapply D; eauto.
Qed.
End T.

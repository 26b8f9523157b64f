(** Each fault in a MessagePack input gives its error (C57). *)
From Verif Require Import Prelude PreludeFacts Utf8 Utf8Spec Utf8Facts SerdeSer SerdeDe MpMagick MpSpec MpDe MpDeView MpDeReads MpDeEat MpDeTop MpDeTrail
  FloatOps Types TypesFacts MpTypeSpec MpTyped MpAny MpSerSim MpTypedTop MpFaultSpec.
Ltac Zify.zify_post_hook ::= Z.div_mod_to_equations.

Section Fault.
Context (ar : arch) (fo : float_ops).
Local Notation M := (DM mpde mp_de_error).
Local Notation reads := (reads ar).
Local Notation fails := (fails ar).
Local Notation run := (@mp_run ar fo val).
Local Notation rde := (rde ar fo).
Local Notation rsq := (rsq ar fo).
Local Notation rmp := (rmp ar fo).
Local Notation rme := (rme ar fo).
Local Notation fde := (fde ar fo).
Local Notation fsq := (fsq ar fo).
Local Notation fmp := (fmp ar fo).
Local Notation fme := (fme ar fo).
Local Notation prog t := (denote DeserializeError t).
Definition fen u p bs e := ev (fun f => fails (r_enum (run f) u p) bs e).

Lemma fails_cons {A} (k : Z -> M A) c bs e : fails (k c) bs e -> fails (dbind (fetch ar) k) (c :: bs) e.
Proof. intros H. change (c :: bs) with ([c] ++ bs). eapply fails_bind2; [apply reads_fetch|exact H]. Qed.
Lemma fails_bind_nil {A B} (m : M A) (k : A -> M B) x b e : reads m [] (Ok x) -> fails (k x) b e -> fails (dbind m k) b e.
Proof. intros. change b with ([] ++ b). eapply fails_bind2; eauto. Qed.
Lemma fails_bind_end {A B} (m : M A) (k : A -> M B) x a e : reads m a (Ok x) -> fails (k x) [] e -> fails (dbind m k) a e.
Proof. intros. rewrite <- (app_nil_r a). eapply fails_bind2; eauto. Qed.
Lemma fails_ext {A} (m m' : M A) bs e : (forall s, m s = m' s) -> fails m bs e -> fails m' bs e.
Proof. intros E H s Hs t Ht. rewrite <- E. eauto. Qed.
Lemma fails_post {A B} (m : M A) (post : result A mp_de_error -> result B mp_de_error) bs e :
  fails m bs e -> post (Err e) = Err e -> fails (dpost post m) bs e.
Proof. intros H He s Hs t Ht. destruct (H s Hs t Ht) as (s' & E). exists s'. unfold dpost, dtry, dlift. rewrite E, He. auto. Qed.
Lemma fails_lift {A} e bs : fails (dlift (Err e) : M A) bs e.
Proof. intros s _ t _. exists s. reflexivity. Qed.
Lemma fails_peek_eat {A} (k : Z -> M A) K c bs e : k c = dbind (eat_some ar 1) (fun _ => K) -> fails K bs e ->
  fails (dbind peek k) (c :: bs) e.
Proof.
  intros E H s Hs t Ht. destruct (fails_cons (fun _ => K) c bs e H s Hs t Ht) as (s' & F). exists s'. rewrite <- F.
  unfold fetch, dbind. rewrite peek_run by apply Hs. rewrite Ht. cbn [app]. rewrite E. unfold dbind.
  destruct (eat_some ar 1 s) as [? [|]| |]; auto.
Qed.

Lemma fde_req m v post bs e : fme m v bs e -> post (Err e) = Err e -> fde (DReq m v post) bs e.
Proof. intros H He. apply ev_S. eapply ev_imp; [exact H|]. intros f Hf. cbn. apply fails_post; auto. Qed.
Lemma fde_request m v bs e : fme m (mk_visitor v) bs e -> fde (request m v) bs e.
Proof. intros H. apply (fde_req m (mk_visitor v) (fun r => r)); auto. Qed.
Lemma fde_inv m v post bs e : fde (DReq m v post) bs e -> ev (fun f => fails (dpost post (mp_method ar fo (run f) m v)) bs e).
Proof. intros [N H]. exists N. intros f Hf. apply (H (S f)). lia. Qed.
Lemma fde_then p g bs e : fde p bs e -> g (Err e) = Err e -> (exists m v post, p = DReq m v post) -> fde (then_ p g) bs e.
Proof.
  intros H Hg (m & v & post & ->). apply ev_S. destruct H as [N HN]. exists N. intros f Hf.
  specialize (HN (S f) ltac:(lia)). cbn [mp_run r_de step_de then_] in *.
  apply (fails_ext (dpost g (dpost post (mp_method ar fo (run f) m v)))).
  - intros s. unfold dpost, dtry, dlift. destruct (mp_method _ _ _ _ _ _); auto.
  - apply fails_post; auto.
Qed.
Lemma fde_app p a b e : fde p a e -> fde p (a ++ b) e.
Proof. intros H. eapply ev_imp; [exact H|]. intros f. apply fails_app. Qed.

Lemma fsq_ret e n b : fsq (SRet (Err e)) n b e.
Proof. apply ev_S. apply ev_all. intros f s _ t _. exists s. reflexivity. Qed.
Lemma fsq_end seed k b e : fsq (k (Ok None)) 0 b e -> fsq (SNext seed k) 0 b e.
Proof. intros H. apply ev_S. eapply ev_imp; [exact H|]. auto. Qed.
Lemma fsq_hint k n b e : fsq (k (Some n)) n b e -> fsq (SHint k) n b e.
Proof. intros H. apply ev_S. eapply ev_imp; [exact H|]. auto. Qed.
Lemma fmp_ret e n b : fmp (MRet (Err e)) n b e.
Proof. apply ev_S. apply ev_all. intros f s _ t _. exists s. reflexivity. Qed.
Lemma fmp_end seed k b e : fmp (k (Ok None)) 0 b e -> fmp (MKey seed k) 0 b e.
Proof. intros H. apply ev_S. eapply ev_imp; [exact H|]. auto. Qed.
Lemma fmp_hint k n b e : fmp (k (Some n)) n b e -> fmp (MHint k) n b e.
Proof. intros H. apply ev_S. eapply ev_imp; [exact H|]. auto. Qed.
Lemma fsq_now seed k n a e : 0 < n -> (forall e, k (Err e) = SRet (Err e)) -> fde seed a e -> fsq (SNext seed k) n a e.
Proof. intros. rewrite <- (app_nil_r a). apply fsq_here; auto. Qed.
Lemma fmp_now seed k n a e : 0 < n -> (forall e, k (Err e) = MRet (Err e)) -> fde seed a e -> fmp (MKey seed k) n a e.
Proof. intros. rewrite <- (app_nil_r a). apply fmp_here; auto. Qed.
Lemma fmp_val_now seed k n a e : (forall e, k (Err e) = MRet (Err e)) -> fde seed a e -> fmp (MVal seed k) n a e.
Proof. intros. rewrite <- (app_nil_r a). apply fmp_val_here; auto. Qed.

(** ** Containers *)
Lemma fme_arr m v n h b e : In m [DSeq; DTuple; DTupleStruct; DStruct] -> arr_hdr n h -> fsq (visit_seq v) n b e -> fme m v (h ++ b) e.
Proof.
  intros Hm Hh Hb. eapply ev_imp; [exact Hb|]. intros f Fb.
  destruct Hm as [<-|[<-|[<-|[<-|[]]]]]; cbn [mp_method].
  1-3: unfold deserialize_seq; (eapply fails_hdr; [apply (hdr_arr_run ar _ _ Hh)|]); apply fails_bind1; exact Fb.
  unfold deserialize_struct. eapply fails_hdr; [apply (hdr_struct_arr ar _ _ Hh)|]. cbn [fst snd]. apply fails_bind1. exact Fb.
Qed.
Lemma fails_check u n : 0 < n -> fails (@check_count val (u, n)) [] TrailingElements.
Proof. intros H. unfold check_count. cbn [snd]. replace (n =? 0) with false by lia. apply fails_fail. Qed.
Lemma fme_arr_many m v n h b u k : In m [DSeq; DTuple; DTupleStruct; DStruct] -> arr_hdr n h -> 0 < k ->
  rsq (visit_seq v) n b (Ok (u, k)) -> fme m v (h ++ b) TrailingElements.
Proof.
  intros Hm Hh Hk Hb. eapply ev_imp; [exact Hb|]. intros f Fb.
  destruct Hm as [<-|[<-|[<-|[<-|[]]]]]; cbn [mp_method].
  1-3: unfold deserialize_seq; (eapply fails_hdr; [apply (hdr_arr_run ar _ _ Hh)|]); (eapply fails_bind_end; [exact Fb|apply fails_check; auto]).
  unfold deserialize_struct. eapply fails_hdr; [apply (hdr_struct_arr ar _ _ Hh)|]. cbn [fst snd].
  eapply fails_bind_end; [exact Fb|apply fails_check; auto].
Qed.
Lemma fme_map m v n h b e : In m [DMap; DStruct] -> map_hdr n h -> fmp (visit_map v) n b e -> fme m v (h ++ b) e.
Proof.
  intros Hm Hh Hb. eapply ev_imp; [exact Hb|]. intros f Fb. destruct Hm as [<-|[<-|[]]]; cbn [mp_method].
  - unfold deserialize_map. eapply fails_hdr; [apply (hdr_map_run ar _ _ Hh)|]. apply fails_bind1. exact Fb.
  - unfold deserialize_struct. eapply fails_hdr; [apply (hdr_struct_map ar _ _ Hh)|]. cbn [fst snd]. apply fails_bind1. exact Fb.
Qed.

(** Good elements first. *)
Lemma fsq_loop seed (p : val -> bytes -> Prop) b e : fde seed b e ->
  forall l n acc bs, (forall v b, In v l -> p v b -> rde seed b (Ok v)) -> zlen l < n ->
  seq_enc (map p l) bs -> fsq (seq_loop seed acc) n (bs ++ b) e.
Proof.
  intros Hd. induction l as [|v l IH]; intros n acc bs Hp Hn Hb; rewrite (sfrob_eq (seq_loop seed acc)); cbn [sfrob seq_loop].
  - cbn in Hb. subst. apply fsq_now; auto.
  - cbn in Hb. destruct Hb as (a & b' & -> & Ha & Hb). rewrite <- app_assoc. rewrite zlen_cons in Hn. pose proof (zlen_nonneg l).
    eapply fsq_later; [lia|apply Hp; [left; auto|exact Ha]|]. apply IH; auto; [|lia]. intros w c Hw. apply Hp. right. auto.
Qed.
Lemma fsq_tuple (ds2 : list (deser val mp_de_error * option val)) b e : forall ds1 (ps : list (val -> bytes -> Prop)) l n acc bs,
  Forall2 (fun d (p : val -> bytes -> Prop) => forall v b, p v b -> rde (fst d) b (Ok v)) ds1 ps ->
  length l = length ds1 -> zlen ds1 <= n -> seq_enc (zip (fun p v => p v) ps l) bs ->
  (forall acc, fsq (tuple_prog DeserializeError ds2 acc) (n - zlen ds1) b e) ->
  fsq (tuple_prog DeserializeError (ds1 ++ ds2) acc) n (bs ++ b) e.
Proof.
  induction ds1 as [|[d o] ds IH]; intros ps l n acc bs Hp Hl Hn Hb Hd.
  - inversion Hp; subst. destruct l; [|discriminate]. cbn in Hb. subst. cbn [app]. specialize (Hd acc).
    replace (n - zlen (@nil (deser val mp_de_error * option val))) with n in Hd by (unfold zlen; cbn; lia). exact Hd.
  - destruct l as [|v l]; [discriminate|]. inversion Hp as [|? p ? ps' H1 H2]; subst. cbn in Hl, Hb.
    destruct Hb as (a & b' & -> & Ha & Hb). rewrite zlen_cons in *. pose proof (zlen_nonneg ds).
    cbn [app tuple_prog]. rewrite <- app_assoc. eapply fsq_later; [lia|apply H1, Ha|]. cbv beta iota.
    eapply (IH ps' l); eauto; [lia|]. intros acc'. replace (n - 1 - zlen ds) with (n - (1 + zlen ds)) by lia. auto.
Qed.
Lemma rsq_tuple_more : forall (ds : list (deser val mp_de_error * option val)) (ps : list (val -> bytes -> Prop)) l n acc bs,
  Forall2 (fun d (p : val -> bytes -> Prop) => forall v b, p v b -> rde (fst d) b (Ok v)) ds ps ->
  length l = length ds -> zlen ds <= n -> seq_enc (zip (fun p v => p v) ps l) bs ->
  rsq (tuple_prog DeserializeError ds acc) n bs (Ok (USeq (rev acc ++ l), n - zlen ds)).
Proof.
  induction ds as [|[d o] ds IH]; intros ps l n acc bs Hp Hl Hn Hb.
  - inversion Hp; subst. destruct l; [|discriminate]. cbn in Hb. subst. cbn [tuple_prog]. rewrite app_nil_r.
    replace (n - zlen (@nil (deser val mp_de_error * option val))) with n by (unfold zlen; cbn; lia). apply rsq_ret.
  - destruct l as [|v l]; [discriminate|]. inversion Hp as [|? p ? ps' H1 H2]; subst. cbn in Hl, Hb.
    destruct Hb as (a & b' & -> & Ha & Hb). rewrite zlen_cons in *. pose proof (zlen_nonneg ds).
    cbn [tuple_prog]. eapply rsq_next; [lia|reflexivity|apply H1, Ha|]. cbv beta iota.
    replace (rev acc ++ v :: l) with (rev (v :: acc) ++ l) by (cbn; rewrite <- app_assoc; auto).
    replace (n - (1 + zlen ds)) with (n - 1 - zlen ds) by lia. apply (IH ps'); auto; lia.
Qed.
Lemma fmp_loop kseed vseed (p q : val -> bytes -> Prop) b e :
  (forall n acc, 0 < n -> fmp (map_loop kseed vseed acc) n b e) ->
  forall l n acc bs, (forall e b, In e l -> p (fst e) b -> rde kseed b (Ok (fst e))) ->
  (forall e b, In e l -> q (snd e) b -> rde vseed b (Ok (snd e))) -> zlen l < n ->
  seq_enc (map (fun e b => exists x y, b = x ++ y /\ p (fst e) x /\ q (snd e) y) l) bs ->
  fmp (map_loop kseed vseed acc) n (bs ++ b) e.
Proof.
  intros Hd. induction l as [|[k v] l IH]; intros n acc bs Hp Hq Hn Hb.
  - cbn in Hb. subst. apply Hd. unfold zlen in Hn. cbn in Hn. lia.
  - rewrite (mfrob_eq (map_loop kseed vseed acc)); cbn [mfrob map_loop].
    cbn in Hb. destruct Hb as (a & b' & -> & (x & y & -> & Hx & Hy) & Hb). rewrite <- !app_assoc. rewrite zlen_cons in Hn. pose proof (zlen_nonneg l).
    eapply fmp_later; [lia|apply (Hp (k, v)); [left; auto|exact Hx]|]. cbv beta iota.
    eapply fmp_val_later; [apply (Hq (k, v)); [left; auto|exact Hy]|]. cbv beta iota.
    apply IH; auto; [| |lia]; intros w c Hw; [apply Hp|apply Hq]; right; auto.
Qed.
Lemma fmp_struct names ps seeds absent b e : names_ok names ->
  Forall2 (fun d (p : val -> bytes -> Prop) => forall v b, p v b -> rde d b (Ok v)) seeds ps ->
  forall got m bs got', entries names ps got m bs got' -> forall n, m <= n ->
  fmp (struct_loop DeserializeError names seeds absent got') (n - m) b e ->
  fmp (struct_loop DeserializeError names seeds absent got) n (bs ++ b) e.
Proof.
  intros Hn Hp. induction 1 as [got|got m i p v k b0 rest got' H1 H2 H3 H4 H5 IH|got m mv k b0 rest got' H1 H2 H3 IH]; intros n Hm Hf.
  - replace (n - 0) with n in Hf by lia. exact Hf.
  - apply entries_nonneg in H5. rewrite (mfrob_eq (struct_loop _ _ _ _ got)); cbn [mfrob struct_loop]. rewrite <- !app_assoc.
    eapply fmp_later; [lia|apply rde_ident; eauto|]. cbv beta iota.
    assert (Hs : exists d, nth_error seeds i = Some d /\ forall v b, p v b -> rde d b (Ok v)).
    { clear - Hp H2. revert i H2. induction Hp; intros [|i] H2; cbn in *; try discriminate; eauto. injection H2 as <-. eauto. }
    destruct Hs as (d & Hs & Hd). rewrite Hs, H1. eapply fmp_val_later; [apply Hd; eauto|]. cbv beta iota.
    apply IH; [lia|]. replace (n - 1 - m) with (n - (1 + m)) by lia. exact Hf.
  - apply entries_nonneg in H3. rewrite (mfrob_eq (struct_loop _ _ _ _ got)); cbn [mfrob struct_loop]. rewrite <- !app_assoc.
    eapply fmp_later; [lia|apply rde_unknown; eauto|]. cbv beta iota.
    eapply fmp_val_later; [eapply rde_ignored; eauto|]. cbv beta iota.
    apply IH; [lia|]. replace (n - 1 - m) with (n - (1 + m)) by lia. exact Hf.
Qed.

(** ** Keys *)
Ltac cases c := repeat match goal with
  | |- context [if ?b then _ else _] => let E := fresh "Ec" in destruct b eqn:E end.
Ltac fam := unfold family_of in *; repeat match goal with
  | H : context [if ?b then _ else _] |- _ => let E := fresh "Ef" in destruct b eqn:E; try discriminate end.

Lemma fails_ident (v : visitor val mp_de_error) k e : key_fault k e -> fails (deserialize_identifier ar v) k e.
Proof.
  intros H. unfold deserialize_identifier. inversion H as [c Hc Hi|s bs Hs Hu He]; subst.
  - apply fails_peek. unfold ident_start in Hi. unfold is_byte in Hc.
    replace (_ || _ || _ || _) with false; [|consts; fam; lia].
    replace (_ || _ || _ || _) with false; [|consts; fam; lia]. apply fails_fail.
  - destruct He as (h & Hh & ->). pose proof (fails_reads _ _ _ _ (reads_str_bad ar s h Hu Hh)) as R.
    assert (F : fails (deserialize_str ar v) (h ++ s) InvalidUnicodeCodePoint) by (apply fails_bind1; auto).
    inversion Hh; subst; cbn [app] in *; apply fails_peek; consts; ifs; exact F.
Qed.
Lemma fde_key strict ns k e : key_fault k e -> fde (ident DeserializeError strict ns) k e.
Proof. intros H. apply fde_request, ev_all. intros f. apply fails_ident. auto. Qed.
Lemma fde_unknown ns k : unknown_enc ns k -> fde (ident DeserializeError true ns) k DeserializeError.
Proof.
  intros H. assert (R : rde (ident DeserializeError true ns) k (Err DeserializeError)).
  { destruct H as [(s & Hs & Hn & He)|(z & Hz & He)]; apply rde_request.
    - pose proof (rme_str ar fo DIdentifier (mk_visitor (v_ident DeserializeError true ns)) s k) as R. cbn in R.
      rewrite (find_name_none ns s Hn) in R. apply R; auto.
    - pose proof (rme_ident_int ar fo (mk_visitor (v_ident DeserializeError true ns)) z k He) as R. cbn in R.
      replace ((0 <=? z) && (z <? zlen ns)) with false in R by lia. exact R. }
  eapply ev_imp; [exact R|]. intros f. apply fails_reads.
Qed.

(** ** Skipped messages *)
Lemma eat_hdr_arr n h : arr_hdr n h -> reads (eat_header ar) h (Ok (Array n)).
Proof.
  intros H. unfold eat_header. inversion H; subst; apply reads_cons; consts; ifs.
  - rewrite land_15 by (auto; reflexivity). apply reads_ret.
  - eapply reads_bind_end; [apply reads_u16; eassumption|apply reads_ret].
  - eapply reads_bind_end; [apply reads_u32; eassumption|]. apply reads_try_usize; [|apply reads_ret].
    match goal with X : uint_be _ _ _ |- _ => apply uint_be_range in X; cbn in X; lia end.
Qed.
Lemma eat_hdr_map n h : map_hdr n h -> reads (eat_header ar) h (Ok (Map n)).
Proof.
  intros H. unfold eat_header. inversion H; subst; apply reads_cons; consts; ifs.
  - rewrite land_15 by (auto; reflexivity). apply reads_ret.
  - eapply reads_bind_end; [apply reads_u16; eassumption|apply reads_ret].
  - eapply reads_bind_end; [apply reads_u32; eassumption|]. apply reads_try_usize; [|apply reads_ret].
    match goal with X : uint_be _ _ _ |- _ => apply uint_be_range in X; cbn in X; lia end.
Qed.
Definition feat bs := ev (fun f => fails (eat_message ar f) bs ReservedCode).
Definition feats p n bs := ev (fun f => fails (eat_items ar f p n) bs ReservedCode).
Lemma feats_list l : forall n bs b, mp_fmt_list l bs -> zlen l < n -> feat b -> feats false n (bs ++ b).
Proof.
  induction l as [|m l IH]; intros n bs b Hl Hn Hb; inversion Hl as [|? ? a c Hm Hr]; subst.
  - apply ev_S. eapply ev_imp; [exact Hb|]. intros f Hf. rewrite eat_items_S by (unfold zlen in Hn; cbn in Hn; lia).
    apply fails_bind1. exact Hf.
  - rewrite zlen_cons in Hn. pose proof (zlen_nonneg l). rewrite <- app_assoc. apply ev_S.
    eapply ev_and; [exact (proj1 (eat_complete ar) m a Hm)|exact (IH (n - 1) c b Hr ltac:(lia) Hb)|].
    intros f F1 F2. rewrite eat_items_S by lia. eapply fails_bind2; [exact F1|].
    eapply fails_bind_nil; [apply reads_ret|]. exact F2.
Qed.
Lemma feats_pairs l : forall n bs b, mp_fmt_pairs l bs -> zlen l < n -> feat b -> feats true n (bs ++ b).
Proof.
  induction l as [|[k v] l IH]; intros n bs b Hl Hn Hb; inversion Hl as [|? ? ? a c d Hk Hv Hr]; subst.
  - apply ev_S. eapply ev_imp; [exact Hb|]. intros f Hf. rewrite eat_items_S by (unfold zlen in Hn; cbn in Hn; lia).
    apply fails_bind1. exact Hf.
  - rewrite zlen_cons in Hn. pose proof (zlen_nonneg l). rewrite <- !app_assoc. apply ev_S.
    eapply ev_and; [exact (proj1 (eat_complete ar) k a Hk)| |].
    { eapply ev_and; [exact (proj1 (eat_complete ar) v c Hv)|exact (IH (n - 1) d b Hr ltac:(lia) Hb)|]. 
      intros f F1 F2. exact (conj F1 F2). }
    intros f F1 [F2 F3]. rewrite eat_items_S by lia. eapply fails_bind2; [exact F1|]. eapply fails_bind2; [exact F2|]. exact F3.
Qed.
Lemma feats_value l : forall n bs m a b, mp_fmt_pairs l bs -> zlen l < n -> mp_fmt m a -> feat b -> feats true n (bs ++ a ++ b).
Proof.
  induction l as [|[k v] l IH]; intros n bs m a b Hl Hn Ha Hb; inversion Hl as [|? ? ? a' c d Hk Hv Hr]; subst.
  - apply ev_S. eapply ev_and; [exact (proj1 (eat_complete ar) m a Ha)|exact Hb|]. intros f F1 F2. 
    rewrite eat_items_S by (unfold zlen in Hn; cbn in Hn; lia). cbn [app]. eapply fails_bind2; [exact F1|]. apply fails_bind1. exact F2.
  - rewrite zlen_cons in Hn. pose proof (zlen_nonneg l). rewrite <- !app_assoc. apply ev_S.
    eapply ev_and; [exact (proj1 (eat_complete ar) k a' Hk)| |].
    { eapply ev_and; [exact (proj1 (eat_complete ar) v c Hv)|exact (IH (n - 1) d m a b Hr ltac:(lia) Ha Hb)|]. 
      intros f F1 F2. exact (conj F1 F2). }
    intros f F1 [F2 F3]. rewrite eat_items_S by lia. eapply fails_bind2; [exact F1|]. eapply fails_bind2; [exact F2|]. exact F3.
Qed.
Lemma skip_fails b : skip_fault b -> feat b.
Proof.
  induction 1 as [|n h l bs b Hh Hn Hl _ IH|n h l bs b Hh Hn Hl _ IH|n h l bs m a b Hh Hn Hl Ha _ IH].
  - apply ev_S, ev_all. intros f s Hs t Ht. eapply eat_reserved; eauto.
  - apply ev_S. eapply ev_imp; [exact (feats_list l n bs b Hl Hn IH)|]. intros f Hf. rewrite eat_message_S.
    eapply fails_bind2; [apply eat_hdr_arr; eauto|]. exact Hf.
  - apply ev_S. eapply ev_imp; [exact (feats_pairs l n bs b Hl Hn IH)|]. intros f Hf. rewrite eat_message_S.
    eapply fails_bind2; [apply eat_hdr_map; eauto|]. exact Hf.
  - apply ev_S. eapply ev_imp; [exact (feats_value l n bs m a b Hl Hn Ha IH)|]. intros f Hf. rewrite eat_message_S.
    eapply fails_bind2; [apply eat_hdr_map; eauto|]. exact Hf.
Qed.
Lemma fde_skip b : skip_fault b -> fde ignored b ReservedCode.
Proof.
  intros H. destruct (@ignored_req mp_de_error) as (v & -> & Hv & _). apply (fde_req DIgnoredAny v (fun r => r)); [|reflexivity].
  destruct (skip_fails b H) as [N HN]. exists (S N). intros [|f] Hf; [lia|]. cbn [mp_method]. unfold deserialize_ignored_any.
  apply fails_bind1. apply (HN (S f)). lia.
Qed.

(** ** The kind of the message *)
Ltac deny := apply fails_cons; consts; repeat match goal with
  | |- context [if ?b then _ else _] => replace b with false by (fam; lia) end;
  first [apply fails_fail|apply fails_bind1, fails_fail].
Lemma fails_integer k (v : visitor val mp_de_error) c : is_byte c -> family_of c <> FInt -> fails (deserialize_int ar k v) [c] ExpectedInteger.
Proof.
  intros Hc Hf. unfold deserialize_int. apply fails_bind1. unfold parse_integer, is_byte in *.
  assert (128 <= c <= 0xcb \/ 0xd4 <= c <= 0xdf) by (unfold family_of in Hf; repeat match type of Hf with context [if ?b then _ else _] => destruct b eqn:? end; try congruence; lia).
  deny.
Qed.
Lemma fails_str c : is_byte c -> family_of c <> FStr -> fails (parse_str ar) [c] ExpectedString.
Proof.
  intros Hc Hf. unfold parse_str, is_byte in *.
  assert (c < 0xa0 \/ 0xbf < c < 0xd9 \/ 0xdb < c) by (unfold family_of in Hf; repeat match type of Hf with context [if ?b then _ else _] => destruct b eqn:? end; try congruence; lia).
  deny.
Qed.
Lemma kind_fails t c e : is_byte c -> refuses t c = Some e -> fde (prog t) [c] e.
Proof.
  intros Hc. unfold is_byte in Hc.
  induction t as [ |k| | | | | | | |t IH|t IH|t IH|l IH|l IH|k v IHk IHv|fs IH|vs IH] using ty_ind'; intros H; cbn [refuses denote] in *.
  - apply fde_request, ev_all. intros f. cbn [mp_method]. unfold deserialize_bool. destruct (family_of c) eqn:F; injection H as <- || discriminate; deny.
  - apply fde_request, ev_all. intros f. cbn [mp_method]. destruct (family_of c) eqn:F; try discriminate; injection H as <-; apply fails_integer; auto; congruence.
  - apply fde_request, ev_all. intros f. cbn [mp_method]. unfold deserialize_f32, fetch_num.
    assert (128 <= c <= 0xc9 /\ c <> 0xc0 \/ 0xd4 <= c <= 0xdf) by (unfold family_of in H; repeat match type of H with context [if ?b then _ else _] => destruct b eqn:? end; try discriminate; lia).
    destruct (family_of c) eqn:F; try discriminate; injection H as <-; clear F; deny.
  - apply fde_request, ev_all. intros f. cbn [mp_method]. unfold deserialize_f64, fetch_num.
    assert (128 <= c <= 0xc9 /\ c <> 0xc0 \/ 0xd4 <= c <= 0xdf) by (unfold family_of in H; repeat match type of H with context [if ?b then _ else _] => destruct b eqn:? end; try discriminate; lia).
    destruct (family_of c) eqn:F; try discriminate; injection H as <-; clear F; deny.
  - apply fde_request, ev_all. intros f. cbn [mp_method]. unfold deserialize_char. apply fails_bind1.
    destruct (family_of c) eqn:F; try discriminate; injection H as <-; apply fails_str; auto; congruence.
  - apply fde_request, ev_all. intros f. cbn [mp_method]. unfold deserialize_str. apply fails_bind1.
    destruct (family_of c) eqn:F; try discriminate; injection H as <-; apply fails_str; auto; congruence.
  - apply fde_request, ev_all. intros f. cbn [mp_method]. unfold deserialize_bytes. apply fails_bind1. unfold parse_bytes.
    assert (c < 0xc4 \/ 0xc6 < c) by (unfold family_of in H; repeat match type of H with context [if ?b then _ else _] => destruct b eqn:? end; try discriminate; lia).
    destruct (family_of c) eqn:F; try discriminate; injection H as <-; clear F; deny.
  - apply fde_request, ev_all. intros f. cbn [mp_method]. unfold deserialize_unit.
    assert (c <> 0xc0) by (intros ->; discriminate).
    destruct (family_of c) eqn:F; try discriminate; injection H as <-; clear F; deny.
  - apply fde_request, ev_all. intros f. cbn [mp_method]. unfold deserialize_unit.
    assert (c <> 0xc0) by (intros ->; discriminate).
    destruct (family_of c) eqn:F; try discriminate; injection H as <-; clear F; deny.
  - assert (Hn : c <> 0xc0) by (intros ->; discriminate).
    apply fde_request. assert (R : refuses t c = Some e) by (destruct (family_of c); auto; discriminate). apply IH in R.
    assert (R2 : fde (then_ (prog t) (map_ok USome)) [c] e).
    { apply fde_then; auto. destruct (denote_req t) as (m' & v' & ->). unfold request. eauto. }
    eapply ev_imp; [exact R2|]. intros f Hf. cbn [mp_method]. unfold deserialize_option. apply fails_peek. consts.
    replace (c =? 0xc0) with false by lia. exact Hf.
  - apply fde_request. apply IH in H. eapply ev_imp; [exact H|]. auto.
  - apply fde_request, ev_all. intros f. cbn [mp_method]. unfold deserialize_seq.
    assert (c < 0x90 \/ 0x9f < c < 0xdc \/ 0xdd < c) by (unfold family_of in H; repeat match type of H with context [if ?b then _ else _] => destruct b eqn:? end; try discriminate; lia).
    destruct (family_of c) eqn:F; try discriminate; injection H as <-; clear F; deny.
  - apply fde_request, ev_all. intros f. cbn [mp_method]. unfold deserialize_seq.
    assert (c < 0x90 \/ 0x9f < c < 0xdc \/ 0xdd < c) by (unfold family_of in H; repeat match type of H with context [if ?b then _ else _] => destruct b eqn:? end; try discriminate; lia).
    destruct (family_of c) eqn:F; try discriminate; injection H as <-; clear F; deny.
  - apply fde_request, ev_all. intros f. cbn [mp_method]. unfold deserialize_seq.
    assert (c < 0x90 \/ 0x9f < c < 0xdc \/ 0xdd < c) by (unfold family_of in H; repeat match type of H with context [if ?b then _ else _] => destruct b eqn:? end; try discriminate; lia).
    destruct (family_of c) eqn:F; try discriminate; injection H as <-; clear F; deny.
  - apply fde_request, ev_all. intros f. cbn [mp_method]. unfold deserialize_map.
    assert (c < 0x80 \/ 0x8f < c < 0xde \/ 0xdf < c) by (unfold family_of in H; repeat match type of H with context [if ?b then _ else _] => destruct b eqn:? end; try discriminate; lia).
    destruct (family_of c) eqn:F; try discriminate; injection H as <-; clear F; deny.
  - apply fde_request, ev_all. intros f. cbn [mp_method]. unfold deserialize_struct.
    assert (c < 0x80 \/ 0x9f < c < 0xdc \/ 0xdf < c) by (unfold family_of in H; repeat match type of H with context [if ?b then _ else _] => destruct b eqn:? end; try discriminate; lia).
    destruct (family_of c) eqn:F; try discriminate; injection H as <-; clear F; deny.
  - apply fde_request. destruct ((c =? 0x81) || ident_start c) eqn:E; [discriminate|]. injection H as <-.
    apply orb_false_iff in E. destruct E as [E1 E2].
    assert (K : key_fault [c] ExpectedIdentifier) by (apply K_kind; auto).
    destruct (fde_key true (map name_of vs) _ _ K) as [N HN]. exists (S N). intros f Hf. cbn [mp_method]. unfold deserialize_enum.
    apply fails_peek. change (Z.lor FIXMAP 1) with 0x81. rewrite E1. destruct f as [|f]; [lia|].
    cbn [mp_run r_enum visit_enum mk_visitor v_enum on_enum]. unfold enum_prog. cbn [step_enum]. apply fails_try1; [apply HN; lia|]. reflexivity.
Qed.

(** ** Enums *)
Lemma fen_here u seed kerr kok a e : kerr e = Err e -> fde seed a e -> fen u (EVariant seed kerr kok) a e.
Proof.
  intros Hk Ha. apply ev_S. eapply ev_imp; [exact Ha|]. intros f Hf. cbn [mp_run r_enum step_enum]. apply fails_try1; auto.
  intros s. unfold dlift. rewrite Hk. reflexivity.
Qed.
Lemma fen_later u seed kerr kok a b x e : rde seed a (Ok x) -> ev (fun f => fails (run_variant ar (run f) u (kok x)) b e) ->
  fen u (EVariant seed kerr kok) (a ++ b) e.
Proof.
  intros Ha Hb. apply ev_S. eapply ev_and; [exact Ha|exact Hb|]. intros f Fa Fb.
  cbn [mp_run r_enum step_enum]. eapply fails_try2; [exact Fa|exact Fb].
Qed.
Lemma fme_enum_unit v c bs e : c <> 0x81 -> fen true (visit_enum v) (c :: bs) e -> fme DEnum v (c :: bs) e.
Proof.
  intros Hc H. eapply ev_imp; [exact H|]. intros f Hf. cbn [mp_method]. unfold deserialize_enum.
  apply fails_peek. change (Z.lor FIXMAP 1) with 0x81. replace (c =? 0x81) with false by lia. exact Hf.
Qed.
Lemma fme_enum_data v bs e : fen false (visit_enum v) bs e -> fme DEnum v (0x81 :: bs) e.
Proof.
  intros H. eapply ev_imp; [exact H|]. intros f Hf. cbn [mp_method]. unfold deserialize_enum.
  eapply fails_peek_eat; [reflexivity|]. exact Hf.
Qed.
Lemma unknown_head ns bs : unknown_enc ns bs -> exists c l, bs = c :: l /\ c <> 0x81.
Proof.
  intros [(s & _ & _ & (h & Hh & ->))|(z & _ & H)].
  - inversion Hh; subst; cbn [app]; eexists; eexists; split; eauto; lia.
  - inversion H; subst; eexists; eexists; (split; [reflexivity|lia]).
Qed.

Lemma finish_none fs : forall got i f, nth_error fs i = Some f -> nth_error got i = Some None ->
  absent_val f = None -> finish got (map absent_val fs) = None.
Proof.
  induction fs as [|g fs IH]; intros [|o got] [|i] f H1 H2 H3; cbn in *; try discriminate.
  - injection H1 as ->. injection H2 as ->. rewrite H3. auto.
  - destruct o; [rewrite (IH got i f); auto|]. destruct (absent_val g); auto. rewrite (IH got i f); auto.
Qed.

Lemma tuple_faults (fs : list ty) : all_list wf fs -> Forall2 (fun d (p : val -> bytes -> Prop) => forall v b, p v b -> rde (fst d) b (Ok v))
  (map (fun t => (prog t, @None val)) fs) (map (adm fo) fs).
Proof. intros H. apply Forall2_map. intros t Ht v c. cbn [fst]. apply denote_reads. eapply all_list_In; eauto. Qed.
Lemma field_faults (fs : list (bytes * fattr * ty)) : Forall (fun f => wf (snd f)) fs ->
  Forall2 (fun d (p : val -> bytes -> Prop) => forall v b, p v b -> rde (fst d) b (Ok v))
  (map (fun f => (prog (snd f), default_of (attr_of f))) fs) (map (fun f => adm fo (snd f)) fs).
Proof. intros H. rewrite Forall_forall in H. apply Forall2_map. intros t Ht v c. cbn [fst]. apply denote_reads. auto. Qed.
Lemma seed_faults (fs : list (bytes * fattr * ty)) : Forall (fun f => wf (snd f)) fs ->
  Forall2 (fun d (p : val -> bytes -> Prop) => forall v b, p v b -> rde d b (Ok v))
  (map (fun f => prog (snd f)) fs) (map (fun f => adm fo (snd f)) fs).
Proof. intros H. rewrite Forall_forall in H. apply Forall2_map. intros t Ht v c. apply denote_reads. auto. Qed.

Lemma zlen_map {A B} (f : A -> B) l : zlen (map f l) = zlen l.
Proof. unfold zlen. rewrite map_length. auto. Qed.

Theorem fault_fails t bs e : mp_fault fo t bs e -> wf t -> fde (prog t) bs e.
Proof.
  induction 1 as
   [t c e Hc H|k z bs H Hk|t s bs Ht Ha Hu H|s bs Hu Hc H|t c bs e Hc _ IH|t bs e _ IH
   |t n h l bs b e Hh Hn Hs _ IH
   |T ts1 t ts2 n h l bs b e HT Hh Hn Hl Hs _ IH|T ts1 t ts2 h l bs HT Hh Hl Hs|T ts n h l bs HT Hh Hn Hl Hs
   |k v n h l bs b e Hh Hn Hs _ IH|k v n h l bs u a b e Hh Hn Hs Ha _ IH
   |fs1 f fs2 n h l bs b e Hh Hn Hl Hs _ IH|fs1 ds f fs2 h l bs Hh Hl Hs Hds Hf|fs n h l bs Hh Hn Hl Hs
   |fs n h m bs got k e Hh Hm He Hk|fs n h m bs got k b Hh Hm He Hk Hb
   |fs n h m bs got i f k b e Hh Hm He Hi Hg Hk _ IH|fs n h m bs got i v k Hh Hm He Hg Hk
   |fs n h bs got i f Hh He Hi Hg Hp Ho
   |vs c k e Hc Hk|vs k e Hk|vs k Hk|vs k Hk|vs i f k Hi Hf Hk|vs i f k Hi Hf Hk|vs i f k b e Hi Hf Hk _ IH]; intros Hw; cbn [denote] in *.
  - apply kind_fails; auto.
  - apply fde_request, ev_all. intros f. cbn [mp_method]. unfold deserialize_int. apply fails_bind1, fails_reads.
    pose proof (reads_parse_integer ar k z bs H) as P. replace (in_ikindb k z) with false in P; [exact P|].
    destruct (in_ikindb k z) eqn:E; auto. apply in_ikindb_spec in E. tauto.
  - destruct H as (h & Hh & ->). pose proof (fails_reads _ _ _ _ (reads_str_bad ar s h Hu Hh)) as R.
    destruct Ht as [->| ->]; cbn [denote]; apply fde_request, ev_all; intros f; apply fails_bind1; auto.
  - destruct H as (h & Hh & ->). apply fde_request, ev_all. intros f. cbn [mp_method]. unfold deserialize_char.
    apply fails_reads. apply reads_str; auto. intros o. cbn [sl_data]. destruct (char_from_str s) as [c|] eqn:E.
    + apply char_from_str_spec in E. destruct E as [E1 E2]. exfalso. eapply Hc; eauto.
    + apply reads_fail.
  - apply fde_request. specialize (IH Hw).
    assert (R : fde (then_ (prog t) (map_ok USome)) (c :: bs) e).
    { apply fde_then; auto. destruct (denote_req t) as (m' & v' & ->). unfold request. eauto. }
    eapply ev_imp; [exact R|]. intros f Hf. cbn [mp_method]. unfold deserialize_option. apply fails_peek. consts.
    replace (c =? 0xc0) with false by lia. exact Hf.
  - apply fde_request. eapply ev_imp; [exact (IH Hw)|]. auto.
  - apply fde_request. eapply fme_arr; [cbn; auto|eauto|]. cbn. apply fsq_hint.
    eapply fsq_loop with (p := adm fo t); eauto. intros v c _. apply denote_reads; auto.
  - assert (Hw' : all_list wf (ts1 ++ t :: ts2)) by (destruct HT as [->| ->]; apply Hw).
    assert (W1 : all_list wf ts1) by (apply all_list_Forall in Hw'; apply Forall_app in Hw'; apply all_list_Forall; tauto).
    assert (W2 : wf t) by (eapply all_list_In; [exact Hw'|]; apply in_or_app; right; left; auto).
    assert (F : fsq (tuple_prog DeserializeError (map (fun t => (prog t, None)) (ts1 ++ t :: ts2)) []) n (bs ++ b) e).
    { rewrite map_app. eapply fsq_tuple with (l := l); [apply tuple_faults; exact W1|rewrite map_length; auto|rewrite zlen_map; lia|exact Hs|].
      intros acc. cbn [map tuple_prog]. apply fsq_now; auto. rewrite zlen_map. lia. }
    destruct HT as [->| ->]; cbn [denote]; apply fde_request; (eapply fme_arr; [cbn; auto|eauto|]); exact F.
  - assert (Hw' : all_list wf (ts1 ++ t :: ts2)) by (destruct HT as [->| ->]; apply Hw).
    assert (W1 : all_list wf ts1) by (apply all_list_Forall in Hw'; apply Forall_app in Hw'; apply all_list_Forall; tauto).
    assert (F : fsq (tuple_prog DeserializeError (map (fun t => (prog t, None)) (ts1 ++ t :: ts2)) []) (zlen ts1) bs DeserializeError).
    { rewrite map_app, <- (app_nil_r bs). eapply fsq_tuple with (l := l); [apply tuple_faults; exact W1|rewrite map_length; auto|rewrite zlen_map; lia|exact Hs|].
      intros acc. cbn [map tuple_prog]. rewrite zlen_map, Z.sub_diag. apply fsq_end. apply fsq_ret. }
    destruct HT as [->| ->]; cbn [denote]; apply fde_request; (eapply fme_arr; [cbn; auto|eauto|]); exact F.
  - assert (Hw' : all_list wf ts) by (destruct HT as [->| ->]; apply Hw).
    assert (F : rsq (tuple_prog DeserializeError (map (fun t => (prog t, None)) ts) []) n bs (Ok (USeq (rev [] ++ l), n - zlen ts))).
    { rewrite <- (zlen_map (fun t => (prog t, @None val)) ts). eapply rsq_tuple_more with (l := l); [apply tuple_faults; exact Hw'|rewrite map_length; auto|rewrite zlen_map; lia|exact Hs]. }
    destruct HT as [->| ->]; cbn [denote]; apply fde_request; (eapply fme_arr_many; [cbn; auto|eauto| |exact F]); lia.
  - destruct Hw as [W1 W2]. apply fde_request. eapply fme_map; [cbn; auto|eauto|]. cbn. apply fmp_hint.
    eapply fmp_loop with (p := adm fo k) (q := adm fo v); eauto.
    + intros n0 acc Hn0. rewrite (mfrob_eq (map_loop _ _ acc)); cbn [mfrob map_loop]. apply fmp_now; auto.
    + intros x c _. apply denote_reads; auto.
    + intros x c _. apply denote_reads; auto.
  - destruct Hw as [W1 W2]. apply fde_request. eapply fme_map; [cbn; auto|eauto|]. cbn. apply fmp_hint.
    eapply fmp_loop with (p := adm fo k) (q := adm fo v); eauto.
    + intros n0 acc Hn0. rewrite (mfrob_eq (map_loop _ _ acc)); cbn [mfrob map_loop].
      eapply fmp_later; [lia|apply denote_reads; eauto|]. cbv beta iota. apply fmp_val_now; auto.
    + intros x c _. apply denote_reads; auto.
    + intros x c _. apply denote_reads; auto.
  - destruct Hw as [_ Hw]. apply all_list_Forall in Hw. apply (Forall_impl _ (fun f H => proj1 H)) in Hw.
    apply fde_request. eapply fme_arr; [cbn; auto|eauto|]. cbn [visit_seq mk_visitor v_struct on_seq].
    rewrite map_app. apply Forall_app in Hw. destruct Hw as [W1 W2]. inversion W2; subst.
    eapply fsq_tuple with (l := l); [apply field_faults; exact W1|rewrite map_length; auto|rewrite zlen_map; lia|exact Hs|].
    intros acc. cbn [map tuple_prog]. apply fsq_now; auto. rewrite zlen_map. lia.
  - destruct Hw as [_ Hw]. apply all_list_Forall in Hw. apply (Forall_impl _ (fun f H => proj1 H)) in Hw.
    apply fde_request. eapply fme_arr; [cbn; auto|eauto|]. cbn [visit_seq mk_visitor v_struct on_seq].
    rewrite map_app. apply Forall_app in Hw. destruct Hw as [W1 W2]. rewrite <- (app_nil_r bs).
    eapply fsq_tuple with (l := l); [apply field_faults; exact W1|rewrite map_length; auto|rewrite zlen_map; lia|exact Hs|].
    intros acc. rewrite zlen_map, Z.sub_diag. clear - Hds Hf. revert acc. induction Hds as [|d ds Hd _ IH]; intros acc; cbn [app map tuple_prog].
    + apply fsq_end. rewrite Hf. cbn. apply fsq_ret.
    + apply fsq_end. destruct (attr_of d) as [|dv]; [congruence|]. cbn [default_of]. apply IH.
  - destruct Hw as [_ Hw]. apply all_list_Forall in Hw. apply (Forall_impl _ (fun f H => proj1 H)) in Hw.
    apply fde_request.
    assert (F : rsq (tuple_prog DeserializeError (map (fun f => (prog (snd f), default_of (attr_of f))) fs) []) n bs (Ok (USeq (rev [] ++ l), n - zlen fs))).
    { rewrite <- (zlen_map (fun f => (prog (snd f), default_of (attr_of f))) fs). eapply rsq_tuple_more with (l := l); [apply field_faults; exact Hw|rewrite map_length; auto|rewrite zlen_map; lia|exact Hs]. }
    eapply fme_arr_many; [cbn; auto|eauto| |exact F]. lia.
  - destruct Hw as [Hns Hw]. apply all_list_Forall in Hw. apply (Forall_impl _ (fun f H => proj1 H)) in Hw.
    apply fde_request. eapply fme_map; [cbn; auto|eauto|]. cbn [visit_map mk_visitor v_struct on_map].
    eapply fmp_struct; [auto|apply seed_faults; auto|exact He|lia|].
    rewrite (mfrob_eq (struct_loop _ _ _ _ got)); cbn [mfrob struct_loop]. apply fmp_now; [lia|auto|]. apply fde_key. auto.
  - destruct Hw as [Hns Hw]. apply all_list_Forall in Hw. apply (Forall_impl _ (fun f H => proj1 H)) in Hw.
    apply fde_request. eapply fme_map; [cbn; auto|eauto|]. cbn [visit_map mk_visitor v_struct on_map].
    eapply fmp_struct; [auto|apply seed_faults; auto|exact He|lia|].
    rewrite (mfrob_eq (struct_loop _ _ _ _ got)); cbn [mfrob struct_loop]. eapply fmp_later; [lia|apply rde_unknown; eauto|]. cbv beta iota.
    apply fmp_val_now; auto. apply fde_skip. auto.
  - destruct Hw as [Hns Hw]. apply all_list_Forall in Hw. apply (Forall_impl _ (fun f H => proj1 H)) in Hw.
    apply fde_request. eapply fme_map; [cbn; auto|eauto|]. cbn [visit_map mk_visitor v_struct on_map].
    eapply fmp_struct; [auto|apply seed_faults; auto|exact He|lia|].
    rewrite (mfrob_eq (struct_loop _ _ _ _ got)); cbn [mfrob struct_loop]. eapply fmp_later; [lia|apply rde_ident; eauto|]. cbv beta iota.
    rewrite nth_error_map, Hi, Hg. cbn [option_map]. apply fmp_val_now; auto. apply IH.
    rewrite Forall_forall in Hw. apply Hw. eapply nth_error_In; eauto.
  - destruct Hw as [Hns Hw]. apply all_list_Forall in Hw. apply (Forall_impl _ (fun f H => proj1 H)) in Hw.
    apply fde_request. eapply fme_map; [cbn; auto|eauto|]. cbn [visit_map mk_visitor v_struct on_map].
    eapply fmp_struct; [auto|apply seed_faults; auto|exact He|lia|].
    rewrite (mfrob_eq (struct_loop _ _ _ _ got)); cbn [mfrob struct_loop]. rewrite <- (app_nil_r k).
    eapply fmp_later; [lia|apply rde_ident; eauto|]. cbv beta iota.
    rewrite Hg. destruct (nth_error (map (fun f => prog (snd f)) fs) i); apply fmp_ret.
  - destruct Hw as [Hns Hw]. apply all_list_Forall in Hw. apply (Forall_impl _ (fun f H => proj1 H)) in Hw.
    apply fde_request. eapply fme_map; [cbn; auto|eauto|]. cbn [visit_map mk_visitor v_struct on_map]. rewrite <- (app_nil_r bs).
    eapply fmp_struct; [auto|apply seed_faults; auto|exact He|lia|]. rewrite Z.sub_diag.
    rewrite (mfrob_eq (struct_loop _ _ _ _ got)); cbn [mfrob struct_loop]. apply fmp_end.
    rewrite (finish_none fs got i f); auto; [apply fmp_ret|]. unfold absent_val. rewrite Hp. destruct (snd f); auto. exfalso. eapply Ho; eauto.
  - apply fde_request, fme_enum_unit; auto. cbn [visit_enum mk_visitor v_enum on_enum]. unfold enum_prog.
    apply fen_here; auto. apply fde_key. auto.
  - apply fde_request, fme_enum_data. cbn [visit_enum mk_visitor v_enum on_enum]. unfold enum_prog.
    apply fen_here; auto. apply fde_key. auto.
  - apply fde_request. destruct (unknown_head _ _ Hk) as (c & l & -> & Hc). apply fme_enum_unit; auto. cbn [visit_enum mk_visitor v_enum on_enum]. unfold enum_prog.
    apply fen_here; auto. apply fde_unknown. auto.
  - apply fde_request. apply fme_enum_data; auto. cbn [visit_enum mk_visitor v_enum on_enum]. unfold enum_prog.
    apply fen_here; auto. apply fde_unknown. auto.
  - destruct Hw as [Hns Hw]. pose proof (all_list_In _ _ Hw _ (nth_error_In _ _ Hi)) as [Wf Kf].
    apply fde_request. destruct (ident_head _ _ _ Hk) as (c & l & -> & Hc & _). apply fme_enum_unit; auto.
    cbn [visit_enum mk_visitor v_enum on_enum]. unfold enum_prog. rewrite <- (app_nil_r (c :: l)).
    eapply fen_later; [apply rde_ident; eauto|]. cbv beta iota. rewrite nth_error_map, Hi. cbn [option_map].
    apply ev_all. intros g. destruct (attr_of f); [congruence|..]; cbn [kind_ok] in Kf.
    + cbn [run_variant]. apply fails_post; auto. apply fails_fail.
    + destruct (snd f); try tauto. cbn [denote]. unfold request. cbn [run_variant]. apply fails_post; auto. apply fails_fail.
    + destruct (snd f); try tauto. cbn [denote]. unfold request. cbn [run_variant]. apply fails_post; auto. apply fails_fail.
  - destruct Hw as [Hns Hw]. apply fde_request, fme_enum_data.
    cbn [visit_enum mk_visitor v_enum on_enum]. unfold enum_prog. rewrite <- (app_nil_r k).
    eapply fen_later; [apply rde_ident; eauto|]. cbv beta iota. rewrite nth_error_map, Hi. cbn [option_map]. rewrite Hf.
    apply ev_all. intros g. cbn [run_variant]. apply fails_lift.
  - destruct Hw as [Hns Hw]. pose proof (all_list_In _ _ Hw _ (nth_error_In _ _ Hi)) as [Wf Kf]. specialize (IH Wf).
    apply fde_request, fme_enum_data.
    cbn [visit_enum mk_visitor v_enum on_enum]. unfold enum_prog.
    eapply fen_later; [apply rde_ident; eauto|]. cbv beta iota. rewrite nth_error_map, Hi. cbn [option_map].
    destruct (attr_of f); [congruence|..]; cbn [kind_ok] in Kf.
    + eapply ev_imp; [exact IH|]. intros g Hg. cbn [run_variant]. apply fails_post; auto.
    + destruct (snd f); try tauto. cbn [denote] in *. unfold request in *. eapply ev_imp; [exact (fde_inv _ _ _ _ _ IH)|]. intros g Hg. cbn [run_variant].
      apply (fails_ext (dpost (map_ok (UVar i)) (dpost (fun r => r) (deserialize_seq ar (run g) (mk_visitor (v_seq DeserializeError (tuple_prog DeserializeError (map (fun t => (prog t, None)) l) []))))))).
      * intros s. unfold dpost, dtry, dlift. destruct (deserialize_seq _ _ _ _); auto.
      * apply fails_post; auto.
    + destruct (snd f) as [| | | | | | | | | | | | | | |fs|]; try tauto. cbn [denote] in *. unfold request in *. eapply ev_imp; [exact (fde_inv _ _ _ _ _ IH)|]. intros g Hg. cbn [run_variant].
      cbv beta in Hg. match type of Hg with MpAny.fails _ (dpost ?p ?m) _ _ => apply (fails_ext (dpost (map_ok (UVar i)) (dpost p m))) end.
      * intros s. unfold dpost, dtry, dlift. cbn [mp_method]. destruct (deserialize_struct _ _ _ _); auto.
      * apply fails_post; auto.
Qed.
End Fault.

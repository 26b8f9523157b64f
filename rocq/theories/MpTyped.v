(** Every admissible MessagePack encoding of a typed value is read back (C21-C25). *)
From Verif Require Import Prelude PreludeFacts Utf8 Utf8Spec Utf8Facts SerdeSer SerdeDe MpMagick MpSpec MpDe MpDeView MpDeReads MpDeEat MpDeTrail Types TypesFacts MpTypeSpec.
Ltac Zify.zify_post_hook ::= Z.div_mod_to_equations.

Definition ev (P : nat -> Prop) : Prop := exists N, forall f, (N <= f)%nat -> P f.
Lemma ev_all (P : nat -> Prop) : (forall f, P f) -> ev P.
Proof. exists 0%nat. auto. Qed.
Lemma ev_and (P Q R : nat -> Prop) : ev P -> ev Q -> (forall f, P f -> Q f -> R f) -> ev R.
Proof. intros [N HN] [M HM] H. exists (N + M)%nat. intros f Hf. apply H; [apply HN|apply HM]; lia. Qed.
Lemma ev_imp (P R : nat -> Prop) : ev P -> (forall f, P f -> R f) -> ev R.
Proof. intros [N HN] H. exists N. auto. Qed.
Lemma ev_S (P : nat -> Prop) : ev (fun f => P (S f)) -> ev P.
Proof. intros [N HN]. exists (S N). intros [|f] Hf; [lia|]. apply HN. lia. Qed.
Lemma ev_pos (P : nat -> Prop) : ev (fun f => (0 < f)%nat -> P f) -> ev P.
Proof. intros [N HN]. exists (S N). intros f Hf. apply HN; lia. Qed.

Section Typed.
Context (ar : arch) (fo : float_ops).
Local Notation M := (DM mpde mp_de_error).
Local Notation reads := (reads ar).
Local Notation run := (@mp_run ar fo val).
Local Notation deser := (deser val mp_de_error).
Local Notation visitor := (visitor val mp_de_error).

(** Programs against encodings. *)
Definition rde (p : deser) bs r : Prop := ev (fun f => reads (r_de (run f) p) bs r).
Definition rsq p n bs r : Prop := ev (fun f => reads (r_seq (run f) p n) bs r).
Definition rmp p n bs r : Prop := ev (fun f => reads (r_map (run f) p n) bs r).
Definition ren u p bs r : Prop := ev (fun f => reads (r_enum (run f) u p) bs r).
Definition rme m (v : visitor) bs r : Prop := ev (fun f => reads (mp_method ar fo (run f) m v) bs r).

Lemma reads_post {A B} (m : M A) (post : result A mp_de_error -> result B mp_de_error) bs r :
  reads m bs r -> post (Err UnexpectedEof) = Err UnexpectedEof -> reads (dpost post m) bs (post r).
Proof.
  intros H He s Hs Hf. destruct (H s Hs Hf) as [H1 H2]. split.
  - intros t Ht. destruct (H1 t Ht) as (s' & E & A'). exists s'. unfold dpost, dtry, dlift. rewrite E. auto.
  - intros c q E. destruct (H2 c q E) as (s' & E' & A'). exists s'. unfold dpost, dtry, dlift. rewrite E', He. auto.
Qed.

Lemma rde_req m v post bs r : rme m v bs r -> post (Err UnexpectedEof) = Err UnexpectedEof ->
  rde (DReq m v post) bs (post r).
Proof. intros H He. apply ev_S. eapply ev_imp; [exact H|]. intros f Hf. cbn. apply reads_post; auto. Qed.

Lemma rde_request m v bs r : rme m (mk_visitor v) bs r -> rde (request m v) bs r.
Proof. intros H. apply (rde_req m (mk_visitor v) (fun r => r)); auto. Qed.

Lemma rde_then p g bs r : rde p bs r -> g (Err UnexpectedEof) = Err UnexpectedEof -> 
  (exists m v post, p = DReq m v post) -> rde (then_ p g) bs (g r).
Proof.
  intros H Hg (m & v & post & ->). apply ev_S. destruct H as [N HN]. exists N. intros f Hf.
  specialize (HN (S f) ltac:(lia)). cbn [mp_run r_de step_de then_] in *. 
  apply (reads_ext ar (dpost g (dpost post (mp_method ar fo (run f) m v)))).
  - intros s. unfold dpost, dtry, dlift. destruct (mp_method _ _ _ _ _ _); auto.
  - apply reads_post; auto.
Qed.

Lemma rsq_ret u n : rsq (SRet (Ok u)) n [] (Ok (u, n)).
Proof. apply ev_S. apply ev_all. intros f. cbn. apply (reads_lift ar (Ok (u, n))). Qed.
Lemma rsq_err e n : rsq (SRet (Err e)) n [] (Err e).
Proof. apply ev_S. apply ev_all. intros f. cbn. apply (reads_lift ar (Err e)). Qed.
Definition sprop (k : result (option val) mp_de_error -> sprog val mp_de_error) : Prop :=
  k (Err UnexpectedEof) = SRet (Err UnexpectedEof).
Lemma rsq_next seed k n a b v r : 0 < n -> sprop k -> rde seed a (Ok v) -> rsq (k (Ok (Some v))) (n - 1) b r ->
  rsq (SNext seed k) n (a ++ b) r.
Proof.
  intros Hn Hk Ha Hb. apply ev_S, ev_pos. eapply ev_and; [exact Ha|exact Hb|]. intros f Fa Fb Hf.
  cbn [mp_run r_seq step_seq]. destruct (n =? 0) eqn:E; [lia|]. eapply reads_try; [exact Fa|exact Fb|].
  intros s Hs. destruct f; [lia|]. cbn [res_some]. rewrite Hk. exists s. auto.
Qed.
Lemma rsq_end seed k b r : rsq (k (Ok None)) 0 b r -> rsq (SNext seed k) 0 b r.
Proof. intros H. apply ev_S. eapply ev_imp; [exact H|]. auto. Qed.
Lemma rsq_hint k n b r : rsq (k (Some n)) n b r -> rsq (SHint k) n b r.
Proof. intros H. apply ev_S. eapply ev_imp; [exact H|]. auto. Qed.

Lemma rmp_ret u n : rmp (MRet (Ok u)) n [] (Ok (u, n)).
Proof. apply ev_S. apply ev_all. intros f. cbn. apply (reads_lift ar (Ok (u, n))). Qed.
Lemma rmp_err e n : rmp (MRet (Err e)) n [] (Err e).
Proof. apply ev_S. apply ev_all. intros f. cbn. apply (reads_lift ar (Err e)). Qed.
Lemma rmp_key seed k n a b v r : 0 < n -> k (Err UnexpectedEof) = MRet (Err UnexpectedEof) ->
  rde seed a (Ok v) -> rmp (k (Ok (Some v))) (n - 1) b r -> rmp (MKey seed k) n (a ++ b) r.
Proof.
  intros Hn Hk Ha Hb. apply ev_S, ev_pos. eapply ev_and; [exact Ha|exact Hb|]. intros f Fa Fb Hf.
  cbn [mp_run r_map step_map]. destruct (n =? 0) eqn:E; [lia|]. eapply reads_try; [exact Fa|exact Fb|].
  intros s Hs. destruct f; [lia|]. cbn [res_some]. rewrite Hk. exists s. auto.
Qed.
Lemma rmp_end seed k b r : rmp (k (Ok None)) 0 b r -> rmp (MKey seed k) 0 b r.
Proof. intros H. apply ev_S. eapply ev_imp; [exact H|]. auto. Qed.
Lemma rmp_val seed k n a b v r : k (Err UnexpectedEof) = MRet (Err UnexpectedEof) ->
  rde seed a (Ok v) -> rmp (k (Ok v)) n b r -> rmp (MVal seed k) n (a ++ b) r.
Proof.
  intros Hk Ha Hb. apply ev_S, ev_pos. eapply ev_and; [exact Ha|exact Hb|]. intros f Fa Fb Hf.
  cbn [mp_run r_map step_map]. eapply reads_try; [exact Fa|exact Fb|].
  intros s Hs. destruct f; [lia|]. rewrite Hk. exists s. auto.
Qed.
Lemma rmp_hint k n b r : rmp (k (Some n)) n b r -> rmp (MHint k) n b r.
Proof. intros H. apply ev_S. eapply ev_imp; [exact H|]. auto. Qed.

(** Containers: header, visitor, nothing left over. *)
Lemma reads_check u : reads (@check_count val (u, 0)) [] (Ok u).
Proof. apply reads_ret. Qed.

Lemma reads_hdr {A B C} (g : Z -> M A) (k : A -> M B) (k' : B -> M C) h b x r :
  reads (dbind (fetch ar) g) h (Ok x) -> reads (dbind (k x) k') b r ->
  reads (dbind (fetch ar) (fun c => dbind (g c) (fun x => dbind (k x) k'))) (h ++ b) r.
Proof.
  intros H1 H2. apply (reads_ext ar (dbind (dbind (fetch ar) g) (fun x => dbind (k x) k'))).
  - intros s. apply dbind_assoc.
  - eapply reads_bind; eauto.
Qed.

Lemma rme_seq m v n h b u : In m [DSeq; DTuple; DTupleStruct] -> arr_hdr n h -> rsq (visit_seq v) n b (Ok (u, 0)) ->
  rme m v (h ++ b) (Ok u).
Proof.
  intros Hm Hh Hb. eapply ev_imp; [exact Hb|]. intros f Fb.
  assert (E : mp_method ar fo (run f) m v = deserialize_seq ar (run f) v) by (destruct Hm as [<-|[<-|[<-|[]]]]; auto).
  rewrite E. unfold deserialize_seq. eapply reads_hdr; [apply (hdr_arr_run ar _ _ Hh)|].
  eapply reads_bind_end; [exact Fb|apply reads_check].
Qed.
Lemma rme_map v n h b u : map_hdr n h -> rmp (visit_map v) n b (Ok (u, 0)) -> rme DMap v (h ++ b) (Ok u).
Proof.
  intros Hh Hb. eapply ev_imp; [exact Hb|]. intros f Fb. cbn [mp_method]. unfold deserialize_map.
  eapply reads_hdr; [apply (hdr_map_run ar _ _ Hh)|]. eapply reads_bind_end; [exact Fb|apply reads_check].
Qed.
Lemma rme_struct_map v n h b u : map_hdr n h -> rmp (visit_map v) n b (Ok (u, 0)) -> rme DStruct v (h ++ b) (Ok u).
Proof.
  intros Hh Hb. eapply ev_imp; [exact Hb|]. intros f Fb. cbn [mp_method]. unfold deserialize_struct.
  eapply reads_hdr; [apply (hdr_struct_map ar _ _ Hh)|]. cbn [fst snd].
  eapply reads_bind_end; [exact Fb|apply reads_check].
Qed.
Lemma rme_struct_arr v n h b u : arr_hdr n h -> rsq (visit_seq v) n b (Ok (u, 0)) -> rme DStruct v (h ++ b) (Ok u).
Proof.
  intros Hh Hb. eapply ev_imp; [exact Hb|]. intros f Fb. cbn [mp_method]. unfold deserialize_struct.
  eapply reads_hdr; [apply (hdr_struct_arr ar _ _ Hh)|]. cbn [fst snd].
  eapply reads_bind_end; [exact Fb|apply reads_check].
Qed.

(** ** Loops *)
Lemma zlen_cons_pos {A} (x : A) l : zlen (x :: l) - 1 = zlen l /\ 0 < zlen (x :: l).
Proof. rewrite zlen_cons. pose proof (zlen_nonneg l). lia. Qed.

Lemma rsq_loop seed (p : val -> bytes -> Prop) l : (forall v b, In v l -> p v b -> rde seed b (Ok v)) ->
  forall acc bs, seq_enc (map p l) bs -> rsq (seq_loop seed acc) (zlen l) bs (Ok (USeq (rev acc ++ l), 0)).
Proof.
  induction l as [|v l IH]; intros Hp acc bs Hb; rewrite (sfrob_eq (seq_loop seed acc)); cbn [sfrob seq_loop].
  - cbn in Hb. subst. apply rsq_end. rewrite app_nil_r. apply rsq_ret.
  - cbn in Hb. destruct Hb as (a & b & -> & Ha & Hb). destruct (zlen_cons_pos v l) as [E P].
    eapply rsq_next; [lia|reflexivity|apply Hp; [left; auto|exact Ha]|]. rewrite E.
    replace (rev acc ++ v :: l) with (rev (v :: acc) ++ l) by (cbn; rewrite <- app_assoc; auto).
    apply IH; auto. intros w c Hw. apply Hp. right. auto.
Qed.

Lemma rsq_tuple (ds : list (deser * option val)) : forall (ps : list (val -> bytes -> Prop)) l n acc bs,
  Forall2 (fun d (p : val -> bytes -> Prop) => forall v b, p v b -> rde (fst d) b (Ok v)) ds ps ->
  length l = length ds -> (n <= length ds)%nat ->
  seq_enc (zip (fun p v => p v) (firstn n ps) (firstn n l)) bs ->
  all2 (fun d v => snd d = Some v) (skipn n ds) (skipn n l) ->
  rsq (tuple_prog DeserializeError ds acc) (Z.of_nat n) bs (Ok (USeq (rev acc ++ l), 0)).
Proof.
  induction ds as [|[d o] ds IH]; intros ps l n acc bs Hp Hl Hn Hb Hd.
  - destruct l; [|discriminate]. destruct n; [|cbn in Hn; lia]. inversion Hp; subst. cbn in Hb. subst.
    cbn [tuple_prog]. rewrite app_nil_r. apply rsq_ret.
  - destruct l as [|v l]; [discriminate|]. inversion Hp as [|? p ? ps' H1 H2]; subst. cbn in Hl, Hn.
    replace (rev acc ++ v :: l) with (rev (v :: acc) ++ l) by (cbn; rewrite <- app_assoc; auto).
    cbn [tuple_prog]. destruct n as [|n].
    + cbn in Hb, Hd. destruct Hd as [-> Hd]. apply rsq_end. subst bs.
      apply (IH ps' l 0%nat (v :: acc) []); auto; cbn; auto; lia.
    + cbn in Hb. destruct Hb as (a & b & -> & Ha & Hb). cbn in Hd.
      eapply rsq_next; [lia|reflexivity|apply H1, Ha|].
      replace (Z.of_nat (S n) - 1) with (Z.of_nat n) by lia. apply (IH ps'); auto; lia.
Qed.

Lemma rmp_loop kseed vseed (p q : val -> bytes -> Prop) l :
  (forall e b, In e l -> p (fst e) b -> rde kseed b (Ok (fst e))) ->
  (forall e b, In e l -> q (snd e) b -> rde vseed b (Ok (snd e))) ->
  forall acc bs, seq_enc (map (fun e b => exists x y, b = x ++ y /\ p (fst e) x /\ q (snd e) y) l) bs ->
  rmp (map_loop kseed vseed acc) (zlen l) bs (Ok (UMap (rev acc ++ l), 0)).
Proof.
  induction l as [|[k v] l IH]; intros Hp Hq acc bs Hb; rewrite (mfrob_eq (map_loop kseed vseed acc)); cbn [mfrob map_loop].
  - cbn in Hb. subst. apply rmp_end. rewrite app_nil_r. apply rmp_ret.
  - cbn in Hb. destruct Hb as (a & b & -> & (x & y & -> & Hx & Hy) & Hb). destruct (zlen_cons_pos (k, v) l) as [E P].
    rewrite <- app_assoc. eapply rmp_key; [lia|reflexivity|apply (Hp (k, v)); [left; auto|exact Hx]|]. rewrite E.
    cbn [fst snd] in *. eapply rmp_val; [reflexivity|apply (Hq (k, v)); [left; auto|exact Hy]|]. cbn [snd].
    replace (rev acc ++ (k, v) :: l) with (rev ((k, v) :: acc) ++ l) by (cbn; rewrite <- app_assoc; auto).
    apply IH; auto; intros e c He; [apply Hp|apply Hq]; right; auto.
Qed.

(** ** Identifiers *)
Lemma list_eqb_Z a : forall b, list_eqb Z.eqb a b = true <-> a = b.
Proof.
  induction a as [|x a IH]; intros [|y b]; cbn; try (split; congruence).
  rewrite Bool.andb_true_iff, Z.eqb_eq, IH. split; [intros [-> ->]; auto|intros [=]; auto].
Qed.
Lemma find_name_spec ns : NoDup ns -> forall i s j, nth_error ns i = Some s -> find_name s ns j = Some (j + i)%nat.
Proof.
  induction 1 as [|n ns Hn Hd IH]; intros [|i] s j H; cbn in H; try discriminate; cbn.
  - injection H as ->. rewrite (proj2 (list_eqb_Z s s) eq_refl). f_equal. lia.
  - destruct (list_eqb Z.eqb s n) eqn:E.
    + apply list_eqb_Z in E. subst. exfalso. apply Hn. eapply nth_error_In; eauto.
    + rewrite (IH i) by auto. f_equal. lia.
Qed.
Lemma find_name_none ns s : ~ In s ns -> forall j, find_name s ns j = None.
Proof.
  induction ns as [|n ns IH]; intros H j; cbn; auto. destruct (list_eqb Z.eqb s n) eqn:E.
  - apply list_eqb_Z in E. subst. exfalso. apply H. left. auto.
  - apply IH. intros Hi. apply H. right. auto.
Qed.

Ltac code := apply reads_cons; consts; ifs; try (exfalso; lia).
Ltac pk := apply reads_peek; consts; ifs; try (exfalso; lia).
Lemma reads_deser_str (v : visitor) s h : valid_utf8 s -> str_hdr (zlen s) h -> reads (deserialize_str ar v) (h ++ s) (visit_str v s).
Proof.
  intros Hs Hh. unfold deserialize_str. apply reads_str; auto. intros o. cbn [sl_data].
  eapply reads_bind_nil; [apply reads_handed|]. apply reads_lift.
Qed.
Lemma rme_str m v s bs : In m [DStr; DString; DIdentifier] -> valid_utf8 s -> str_enc s bs ->
  rme m v bs (visit_str v s).
Proof.
  intros Hm Hs (h & Hh & ->). apply ev_all. intros f. pose proof (reads_deser_str v s h Hs Hh) as H.
  destruct Hm as [<-|[<-|[<-|[]]]]; cbn [mp_method]; auto. unfold deserialize_identifier.
  inversion Hh; subst; cbn [app] in *; pk; exact H.
Qed.
Lemma rme_ident_int v z bs : ident_int z bs -> rme DIdentifier v bs (visit_int v U32 z).
Proof.
  intros H. apply ev_all. intros f. cbn [mp_method]. unfold deserialize_identifier.
  assert (Hr : 0 <= z < 2 ^ 32).
  { inversion H; subst; try lia; match goal with U : uint_be _ _ _ |- _ => apply uint_be_range in U end; 
    match goal with U : _ <= _ < 256 ^ _ |- _ => cbn in U end; lia. }
  assert (Hi : int_fmt z bs) by (inversion H; subst; constructor; auto).
  assert (D : reads (deserialize_int ar U32 v) bs (visit_int v U32 z)).
  { unfold deserialize_int. eapply reads_bind_end; [|apply reads_lift].
    pose proof (reads_parse_integer ar U32 z bs Hi) as P. 
    replace (in_ikindb U32 z) with true in P; [exact P|]. symmetry. unfold in_ikindb. cbn. lia. }
  inversion H; subst; pk; exact D.
Qed.

Lemma rde_ident strict ns i bs : names_ok ns -> ident_enc ns i bs -> rde (ident DeserializeError strict ns) bs (Ok (UIdent (Some i))).
Proof.
  intros (Hd & Hu & _) [(s & Hn & Hs)|(Hi & Hz)]; apply rde_request.
  - pose proof (find_name_spec ns Hd i s 0 Hn) as F.
    assert (U : valid_utf8 s). { apply nth_error_In in Hn. rewrite Forall_forall in Hu. apply Hu. auto. }
    pose proof (rme_str DIdentifier (mk_visitor (v_ident DeserializeError strict ns)) s bs) as R. cbn in R.
    rewrite F in R. apply R; auto.
  - pose proof (rme_ident_int (mk_visitor (v_ident DeserializeError strict ns)) (Z.of_nat i) bs Hz) as R. cbn in R.
    replace ((0 <=? Z.of_nat i) && (Z.of_nat i <? zlen ns)) with true in R by (unfold zlen; lia).
    rewrite Nat2Z.id in R. exact R.
Qed.
Lemma rde_unknown ns bs : unknown_enc ns bs -> rde (ident DeserializeError false ns) bs (Ok (UIdent None)).
Proof.
  intros [(s & Hs & Hn & He)|(z & Hz & He)]; apply rde_request.
  - pose proof (rme_str DIdentifier (mk_visitor (v_ident DeserializeError false ns)) s bs) as R. cbn in R.
    rewrite (find_name_none ns s Hn) in R. apply R; auto.
  - pose proof (rme_ident_int (mk_visitor (v_ident DeserializeError false ns)) z bs He) as R. cbn in R.
    replace ((0 <=? z) && (z <? zlen ns)) with false in R by lia. exact R.
Qed.
Lemma rde_ignored m bs : mp_fmt m bs -> rde ignored bs (Ok UUnit).
Proof.
  intros H. destruct (@ignored_req mp_de_error) as (v & -> & Hv & _). apply (rde_req DIgnoredAny v (fun r => r)); [|reflexivity].
  destruct (proj1 (eat_complete ar) m bs H) as [N HN].
  exists (S N). intros [|f] Hf; [lia|]. cbn [mp_method]. unfold deserialize_ignored_any.
  eapply reads_bind_end; [apply (HN (S f)); lia|]. rewrite Hv. apply (reads_lift ar (Ok UUnit)).
Qed.

Lemma finish_all fs : forall got l, all_fields fs got l -> finish got (map absent_val fs) = Some l.
Proof.
  induction fs as [|[[nm a] t] fs IH]; intros [|g got] [|v l] H; cbn in H; try tauto. 
  destruct H as [H1 H2]. apply IH in H2. cbn [map finish]. destruct g as [w|].
  - subst. rewrite H2. auto.
  - unfold absent_ok, attr_of in H1. cbn in H1.
    assert (absent_val (nm, a, t) = Some v) as ->; [|rewrite H2; auto].
    unfold absent_val, attr_of. cbn. destruct a as [|d]; [destruct H1 as [-> [u ->]]|subst v]; auto.
Qed.
Lemma entries_nonneg names ps got n bs got' : entries names ps got n bs got' -> 0 <= n.
Proof. induction 1; lia. Qed.
Lemma rmp_struct names ps seeds absent l : names_ok names ->
  Forall2 (fun d (p : val -> bytes -> Prop) => forall v b, p v b -> rde d b (Ok v)) seeds ps ->
  forall got n bs got', entries names ps got n bs got' -> finish got' absent = Some l ->
  rmp (struct_loop DeserializeError names seeds absent got) n bs (Ok (USeq l, 0)).
Proof.
  intros Hn Hp. induction 1 as [got|got n i p v k b rest got' H1 H2 H3 H4 H5 IH|got n m k b rest got' H1 H2 H3 IH]; intros Hf;
    rewrite (mfrob_eq (struct_loop _ _ _ _ got)); cbn [mfrob struct_loop].
  - apply rmp_end. rewrite Hf. apply rmp_ret.
  - apply entries_nonneg in H5.
    eapply rmp_key; [lia|reflexivity|apply rde_ident; eauto|]. cbv beta iota.
    assert (Hs : exists d, nth_error seeds i = Some d /\ forall v b, p v b -> rde d b (Ok v)).
    { clear - Hp H2. revert i H2. induction Hp; intros [|i] H2; cbn in *; try discriminate; eauto.
      injection H2 as <-. eauto. }
    destruct Hs as (d & Hs & Hd). rewrite Hs, H1. replace (1 + n - 1) with n by lia.
    eapply rmp_val; [reflexivity|apply Hd; eauto|]. apply IH. auto.
  - apply entries_nonneg in H3.
    eapply rmp_key; [lia|reflexivity|apply rde_unknown; eauto|]. cbv beta iota.
    replace (1 + n - 1) with n by lia.
    eapply rmp_val; [reflexivity|eapply rde_ignored; eauto|]. apply IH. auto.
Qed.

(** ** Enums and options *)
Lemma reads_peek_eat {A} (k : Z -> M A) K c bs r : k c = dbind (eat_some ar 1) (fun _ => K) -> reads K bs r ->
  reads (dbind peek k) (c :: bs) r.
Proof.
  intros E H. pose proof (reads_cons ar (fun _ => K) c bs r H) as F. intros s Hs Hfit. destruct (F s Hs Hfit) as [F1 F2].
  assert (Q : forall l, rest s = c :: l -> dbind peek k s = dbind (fetch ar) (fun _ => K) s).
  { intros l El. unfold fetch. unfold dbind at 1 2 3. rewrite peek_run by apply Hs. rewrite El. rewrite E.
    unfold dbind. destruct (eat_some ar 1 s) as [? [|]| |]; auto. }
  split.
  - intros t Ht. destruct (F1 t Ht) as (s' & E' & A'). exists s'. split; auto. rewrite (Q _ Ht). auto.
  - intros c0 q E0. destruct (rest s) as [|b l] eqn:Er.
    + exists s. unfold dbind. rewrite peek_run by apply Hs. rewrite Er. auto.
    + assert (b = c) as -> by (cbn in E0; congruence). destruct (F2 _ _ E0) as (s' & E' & A'). exists s'. split; auto.
      rewrite (Q _ eq_refl). auto.
Qed.

Lemma rde_inv m v post bs r : rde (DReq m v post) bs r -> ev (fun f => reads (dpost post (mp_method ar fo (run f) m v)) bs r).
Proof. intros [N H]. exists N. intros f Hf. apply (H (S f)). lia. Qed.

Lemma reads_post2 {A} (m : M A) (post g : result A mp_de_error -> result A mp_de_error) bs r :
  reads (dpost post m) bs r -> g (Err UnexpectedEof) = Err UnexpectedEof -> reads (dpost (fun r => g (post r)) m) bs (g r).
Proof.
  intros H Hg. apply (reads_ext ar (dpost g (dpost post m))); [|apply reads_post; auto].
  intros s. unfold dpost, dtry, dlift. destruct (m s); auto.
Qed.

Lemma rme_option_none v : rme DOption v [0xc0] (visit_none v).
Proof.
  apply ev_all. intros f. cbn [mp_method]. unfold deserialize_option.
  eapply reads_peek_eat; [reflexivity|]. apply reads_lift.
Qed.
Lemma rme_option_some v c bs r : c <> 0xc0 -> rde (visit_some v) (c :: bs) r -> rme DOption v (c :: bs) r.
Proof.
  intros Hc H. eapply ev_imp; [exact H|]. intros f Hf. cbn [mp_method]. unfold deserialize_option.
  apply reads_peek. consts. replace (c =? 0xc0) with false by lia. exact Hf.
Qed.

Lemma ident_head ns i bs : ident_enc ns i bs -> exists c l, bs = c :: l /\ c <> 0x81 /\ c <> 0xc0.
Proof.
  intros [(s & _ & (h & Hh & ->))|(_ & H)].
  - inversion Hh; subst; cbn [app]; eexists; eexists; split; eauto; lia.
  - inversion H; subst; eexists; eexists; (split; [reflexivity|lia]).
Qed.

Lemma ren_variant u seed kerr kok a b x r : kerr UnexpectedEof = Err UnexpectedEof -> rde seed a (Ok x) ->
  ev (fun f => reads (run_variant ar (run f) u (kok x)) b r) -> ren u (EVariant seed kerr kok) (a ++ b) r.
Proof.
  intros Hk Ha Hb. apply ev_S. eapply ev_and; [exact Ha|exact Hb|]. intros f Fa Fb.
  cbn [mp_run r_enum step_enum]. eapply reads_try; [exact Fa|exact Fb|].
  intros s Hs. exists s. unfold dlift. rewrite Hk. auto.
Qed.

Lemma rme_enum_unit v c bs r : c <> 0x81 -> ren true (visit_enum v) (c :: bs) r -> rme DEnum v (c :: bs) r.
Proof.
  intros Hc H. eapply ev_imp; [exact H|]. intros f Hf. cbn [mp_method]. unfold deserialize_enum.
  apply reads_peek. change (Z.lor FIXMAP 1) with 0x81. replace (c =? 0x81) with false by lia. exact Hf.
Qed.
Lemma rme_enum_data v bs r : ren false (visit_enum v) bs r -> rme DEnum v (0x81 :: bs) r.
Proof.
  intros H. eapply ev_imp; [exact H|]. intros f Hf. cbn [mp_method]. unfold deserialize_enum.
  eapply reads_peek_eat; [reflexivity|]. exact Hf.
Qed.

(** ** Admissible encodings are well-formed messages *)
Lemma seq_enc_fmt (qs : list (bytes -> Prop)) : (forall q b, In q qs -> q b -> exists m, mp_fmt m b) ->
  forall bs, seq_enc qs bs -> exists l, length l = length qs /\ mp_fmt_list l bs.
Proof.
  induction qs as [|q qs IH]; intros Hq bs H; cbn in H.
  - subst. exists []. split; auto. constructor.
  - destruct H as (a & b & -> & Ha & Hb). destruct (Hq q a (or_introl eq_refl) Ha) as [m Hm].
    destruct (IH (fun q b Hi => Hq q b (or_intror Hi)) b Hb) as (l & Hl & Hf).
    exists (m :: l). split; [cbn; lia|]. constructor; auto.
Qed.
Lemma str_enc_fmt s bs : valid_utf8 s -> str_enc s bs -> exists m, mp_fmt m bs.
Proof. intros Hu (h & Hh & ->). exists (VStr s). constructor; auto. apply valid_utf8_bytes; auto. Qed.
Lemma ident_int_fmt z bs : ident_int z bs -> exists m, mp_fmt m bs.
Proof. intros H. exists (VInt z). constructor. inversion H; subst; constructor; auto. Qed.
Lemma ident_fmt ns i bs : names_ok ns -> ident_enc ns i bs -> exists m, mp_fmt m bs.
Proof.
  intros (_ & Hu & _) [(s & Hn & Hs)|(_ & H)]; [|eapply ident_int_fmt; eauto].
  eapply str_enc_fmt; eauto. apply nth_error_In in Hn. rewrite Forall_forall in Hu. apply Hu; auto.
Qed.
Lemma unknown_fmt ns bs : unknown_enc ns bs -> exists m, mp_fmt m bs.
Proof. intros [(s & Hu & _ & Hs)|(z & _ & H)]; [eapply str_enc_fmt; eauto|eapply ident_int_fmt; eauto]. Qed.
Lemma entries_fmt names ps : names_ok names -> Forall (fun p : val -> bytes -> Prop => forall v b, p v b -> exists m, mp_fmt m b) ps ->
  forall got n bs got', entries names ps got n bs got' -> exists l, zlen l = n /\ mp_fmt_pairs l bs.
Proof.
  intros Hn Hp. rewrite Forall_forall in Hp.
  induction 1 as [got|got n i p v k b rest got' H1 H2 H3 H4 H5 IH|got n m k b rest got' H1 H2 H3 IH].
  - exists []. split; auto. constructor.
  - destruct IH as (l & Hl & Hf). destruct (ident_fmt _ _ _ Hn H3) as [mk Hk]. 
    destruct (Hp p (nth_error_In _ _ H2) v b H4) as [mv Hv].
    exists ((mk, mv) :: l). rewrite zlen_cons. split; [lia|]. constructor; auto.
  - destruct IH as (l & Hl & Hf). destruct (unknown_fmt _ _ H1) as [mk Hk].
    exists ((mk, m) :: l). rewrite zlen_cons. split; [lia|]. constructor; auto.
Qed.
Lemma all_list_In {A} (P : A -> Prop) l : all_list P l -> forall x, In x l -> P x.
Proof. induction l as [|a l IH]; cbn; [tauto|]. intros [H1 H2] x [<-|H]; auto. Qed.

Lemma zip_app_In {A B C} (f : A -> B -> C) l m x : In x (zip f l m) -> exists a b, In a l /\ In b m /\ x = f a b.
Proof.
  revert m. induction l as [|a l IH]; intros [|b m] H; cbn in H; try tauto. destruct H as [<-|H].
  - exists a, b. cbn. auto.
  - destruct (IH _ H) as (a' & b' & ? & ? & ?). exists a', b'. cbn. auto.
Qed.
Lemma zip_length {A B C} (f : A -> B -> C) l m : length l = length m -> length (zip f l m) = length l.
Proof. revert m. induction l as [|a l IH]; intros [|b m] H; cbn in *; auto; lia. Qed.

Lemma adm_fmt t : wf t -> forall v bs, adm fo t v bs -> exists m, mp_fmt m bs.
Proof.
  induction t as [ |k| | | | | | | |t IH|t IH|t IH|l IH|l IH|k v IHk IHv|fs IH|vs IH] using ty_ind'; intros Hw v0 bs H;
    [..| |]; try (destruct v0; cbn [adm] in H; tauto); try match goal with |- _ => destruct v0; cbn [adm] in H; try tauto; [idtac] end.
  - subst. destruct b; eexists; constructor.
  - destruct H. eexists. constructor. eauto.
  - destruct H as [(h & -> & ?)|[(h & y & -> & ? & ?)|[(z & ? & ?)|[-> ?]]]]; eexists;
      [apply MF_f32|apply MF_f64|apply MF_int|apply MF_nil]; eauto.
  - destruct H as [(h & -> & ?)|[(h & y & -> & ? & ?)|[(z & ? & ?)|[-> ?]]]]; eexists;
      [apply MF_f64|apply MF_f32|apply MF_int|apply MF_nil]; eauto.
  - destruct H as [Hc H]. eapply str_enc_fmt; eauto. apply valid_utf8_char. auto.
  - destruct H. eapply str_enc_fmt; eauto.
  - destruct H as (Ha & h & Hh & ->). eexists. apply MF_bin; eauto.
  - subst. eexists. constructor.
  - subst. eexists. constructor.
  - destruct v0; cbn [adm] in H; try tauto; [subst; eexists; constructor|]. destruct H as [H _]. eapply IH; eauto.
  - cbn [adm] in H. eapply IH; eauto.
  - destruct H as (h & b & -> & Hh & Hb).
    destruct (seq_enc_fmt (map (adm fo t) l)) with (bs := b) as (ms & Hl & Hf); auto.
    { intros q c Hi Hc. apply in_map_iff in Hi. destruct Hi as (x & <- & _). eapply IH; eauto. }
    exists (VArr ms). constructor; auto. unfold zlen in *. rewrite Hl, map_length. auto.
  - destruct H as (h & b & -> & Hh & Hl0 & Hb). destruct Hw as [Hw _].
    edestruct seq_enc_fmt with (2 := Hb) as (ms & Hl & Hf).
    { intros q c Hi Hc. apply zip_app_In in Hi. destruct Hi as (p & x & Hp & _ & ->). apply in_map_iff in Hp.
      destruct Hp as (t & <- & Ht). rewrite Forall_forall in IH. eapply IH; eauto. eapply all_list_In; eauto. }
    exists (VArr ms). constructor; auto. unfold zlen in *. rewrite Hl, zip_length, map_length; auto. rewrite map_length. auto.
  - destruct H as (h & b & -> & Hh & Hl0 & Hb). destruct Hw as [Hw _].
    edestruct seq_enc_fmt with (2 := Hb) as (ms & Hl & Hf).
    { intros q c Hi Hc. apply zip_app_In in Hi. destruct Hi as (p & x & Hp & _ & ->). apply in_map_iff in Hp.
      destruct Hp as (t & <- & Ht). rewrite Forall_forall in IH. eapply IH; eauto. eapply all_list_In; eauto. }
    exists (VArr ms). constructor; auto. unfold zlen in *. rewrite Hl, zip_length, map_length; auto. rewrite map_length. auto.
  - destruct H as (h & b & -> & Hh & Hb). destruct Hw as [Hw1 Hw2].
    assert (Hm : exists ms, length ms = length l /\ mp_fmt_pairs ms b).
    { clear Hh. revert b Hb. induction l as [|e l IHl]; intros b Hb; cbn in Hb.
      - subst. exists []. split; auto. constructor.
      - destruct Hb as (a & b' & -> & (x & y & -> & Hx & Hy) & Hb). destruct (IHl _ Hb) as (ms & Hl & Hf).
        destruct (IHk Hw1 _ _ Hx) as [mk Hmk]. destruct (IHv Hw2 _ _ Hy) as [mv Hmv].
        exists ((mk, mv) :: ms). split; [cbn; lia|]. rewrite <- app_assoc. constructor; auto. }
    destruct Hm as (ms & Hl & Hf). exists (VMap ms). constructor; auto. unfold zlen in *. rewrite Hl. auto.
  - destruct Hw as [Hn Hw]. rewrite Forall_forall in IH.
    assert (Hps : Forall (fun p : val -> bytes -> Prop => forall v b, p v b -> exists m, mp_fmt m b) (map (fun f => adm fo (snd f)) fs)).
    { apply Forall_forall. intros p Hp v b Hv. apply in_map_iff in Hp. destruct Hp as (f & <- & Hf).
      eapply IH; eauto. eapply (all_list_In _ _ Hw f); auto. }
    destruct H as [(n & h & b & -> & Hn' & Hh & Hl0 & Hb & _)|(n & h & b & got & -> & Hh & He & _)].
    + edestruct seq_enc_fmt with (2 := Hb) as (ms & Hl & Hf).
      { intros q c Hi Hc. apply zip_app_In in Hi. destruct Hi as (p & x & Hp & _ & ->).
        rewrite Forall_forall in Hps. eapply Hps; eauto. rewrite <- (firstn_skipn n). apply in_or_app. auto. }
      exists (VArr ms). constructor; auto. unfold zlen. rewrite Hl, zip_length.
      2: rewrite !firstn_length, map_length, Hl0; lia.
      rewrite firstn_length, map_length. replace (Nat.min n (length fs)) with n by lia. auto.
    + destruct (entries_fmt _ _ Hn Hps _ _ _ _ He) as (ms & Hl & Hf). exists (VMap ms). constructor; auto. rewrite Hl. auto.
  - destruct Hw as [Hn Hw]. rewrite Forall_forall in IH.
    destruct (nth_error (map _ vs) i) as [[kd p]|] eqn:En; [|tauto].
    assert (Hp : forall v b, p v b -> exists m, mp_fmt m b).
    { rewrite nth_error_map in En. destruct (nth_error vs i) as [f|] eqn:Ef; [|discriminate]. cbn in En. injection En as <- <-.
      apply nth_error_In in Ef. intros v b. apply IH; auto. eapply (all_list_In _ _ Hw f); auto. }
    assert (K : (exists k b, bs = 0x81 :: k ++ b /\ ident_enc (map name_of vs) i k /\ p v0 b) -> exists m, mp_fmt m bs).
    { intros (k & b & -> & Hk & Hb). destruct (Hp _ _ Hb) as [mv Hv]. destruct (ident_fmt _ _ _ Hn Hk) as [mk Hmk].
      exists (VMap [(mk, mv)]). change (0x81 :: k ++ b) with ([0x80 + 1] ++ (k ++ b)). constructor.
      - constructor. lia.
      - rewrite <- (app_nil_r b). constructor; auto. constructor. }
    destruct kd; auto. destruct H as [-> H]. eapply ident_fmt; eauto.
Qed.
Lemma fmt_head m bs : mp_fmt m bs -> exists c l, bs = c :: l /\ (c = 0xc0 -> l = []).
Proof.
  intros H. inversion H; subst; try (eexists; eexists; split; [reflexivity|auto; lia]); 
   match goal with X : _ |- _ => solve [inversion X; subst; cbn [app]; eexists; eexists; (split; [reflexivity|auto; lia])] end.
Qed.

(** ** Every admissible encoding is read *)
Lemma rme_f32 v x bs : adm fo TF32 (UF32 x) bs -> rme DF32 v bs (visit_f32 v x).
Proof.
  intros H. apply ev_all. intros f. cbn [mp_method]. unfold deserialize_f32.
  destruct H as [(h & -> & ?)|[(h & y & -> & ? & ->)|[(z & Hi & ->)|[-> ->]]]].
  - code. eapply reads_bind_end; [apply reads_f32; eauto|apply reads_lift].
  - code. eapply reads_bind_end; [|apply reads_lift]. eapply reads_bind_end; [apply reads_f64; eauto|apply reads_ret].
  - assert (Hc : exists c l, bs = c :: l /\ c <> 0xca /\ c <> 0xcb /\ c <> 0xc0).
    { inversion Hi; subst; eexists; eexists; (split; [reflexivity|lia]). }
    destruct Hc as (c & l & -> & ? & ? & ?). code.
    eapply reads_bind_end; [apply reads_fetch_num; eauto|apply reads_lift].
  - code. eapply reads_bind_nil; [apply reads_ret|apply reads_lift].
Qed.
Lemma rme_f64 v x bs : adm fo TF64 (UF64 x) bs -> rme DF64 v bs (visit_f64 v x).
Proof.
  intros H. apply ev_all. intros f. cbn [mp_method]. unfold deserialize_f64.
  destruct H as [(h & -> & ?)|[(h & y & -> & ? & ->)|[(z & Hi & ->)|[-> ->]]]].
  - code. eapply reads_bind_end; [apply reads_f64; eauto|apply reads_lift].
  - code. eapply reads_bind_end; [|apply reads_lift]. eapply reads_bind_end; [apply reads_f32; eauto|apply reads_ret].
  - assert (Hc : exists c l, bs = c :: l /\ c <> 0xca /\ c <> 0xcb /\ c <> 0xc0).
    { inversion Hi; subst; eexists; eexists; (split; [reflexivity|lia]). }
    destruct Hc as (c & l & -> & ? & ? & ?). code.
    eapply reads_bind_end; [apply reads_fetch_num; eauto|apply reads_lift].
  - code. eapply reads_bind_nil; [apply reads_ret|apply reads_lift].
Qed.

Lemma denote_req t : exists m v, denote DeserializeError t = request m v.
Proof. destruct t; cbn; eauto. Qed.

Lemma Forall2_map {A B C} (P : B -> C -> Prop) (f : A -> B) (g : A -> C) l :
  (forall x, In x l -> P (f x) (g x)) -> Forall2 P (map f l) (map g l).
Proof.
  induction l as [|a l IH]; intros H; cbn; constructor; [apply H; left; auto|]. apply IH. intros x Hx. apply H. right. auto.
Qed.

Lemma rsq_all ds ps l bs :
  Forall2 (fun d (p : val -> bytes -> Prop) => forall v b, p v b -> rde (fst d) b (Ok v)) ds ps ->
  length l = length ds -> seq_enc (zip (fun p v => p v) ps l) bs ->
  rsq (tuple_prog DeserializeError ds []) (zlen ds) bs (Ok (USeq l, 0)).
Proof.
  intros Hp Hl Hb. assert (Hl2 : length ds = length ps) by (clear -Hp; induction Hp; cbn; auto).
  apply (rsq_tuple ds ps l (length ds) [] bs); auto.
  - rewrite Hl2 at 1. rewrite <- Hl at 1. rewrite !firstn_all. auto.
  - rewrite <- Hl at 2. rewrite !skipn_all. cbn. auto.
Qed.

Theorem denote_reads t : wf t -> forall v bs, adm fo t v bs -> rde (denote DeserializeError t) bs (Ok v).
Proof.
  induction t as [ |k| | | | | | | |t IH|t IH|t IH|l IH|l IH|k v IHk IHv|fs IH|vs IH] using ty_ind'; intros Hw v0 bs H;
    [..| |]; try (destruct v0; cbn [adm] in H; tauto); try match goal with |- _ => destruct v0; cbn [adm] in H; try tauto; [idtac] end;
    cbn [denote]; try apply rde_request.
  - apply ev_all. intros f. cbn [mp_method]. unfold deserialize_bool. subst. destruct b; code; apply (reads_lift ar (Ok _)).
  - destruct H as [Hk Hi]. apply ev_all. intros f. cbn [mp_method]. unfold deserialize_int.
    pose proof (reads_parse_integer ar k z bs Hi) as P. apply in_ikindb_spec in Hk. rewrite Hk in P.
    eapply reads_bind_end; [exact P|]. cbn. rewrite Hk. apply (reads_lift ar (Ok _)).
  - apply (rme_f32 (mk_visitor (v_f32 DeserializeError)) bits bs H).
  - apply (rme_f64 (mk_visitor (v_f64 DeserializeError)) bits bs H).
  - destruct H as [Hc (h & Hh & ->)]. apply ev_all. intros f. cbn [mp_method]. unfold deserialize_char.
    apply reads_str; [apply valid_utf8_char; auto|auto|]. intros o. cbn [sl_data].
    rewrite (proj2 (char_from_str_spec _ c)) by auto. apply (reads_lift ar (Ok _)).
  - destruct H as [Hu H]. apply (rme_str DString (mk_visitor (v_str DeserializeError)) s bs); cbn; auto.
  - destruct H as (_ & h & Hh & ->). apply ev_all. intros f. cbn [mp_method]. unfold deserialize_bytes.
    apply reads_bytes; auto. intros o. eapply reads_bind_nil; [apply reads_handed|]. apply (reads_lift ar (Ok _)).
  - apply ev_all. intros f. cbn [mp_method]. unfold deserialize_unit. subst. code; apply (reads_lift ar (Ok _)).
  - apply ev_all. intros f. cbn [mp_method]. unfold deserialize_unit. subst. code; apply (reads_lift ar (Ok _)).
  - destruct v0; cbn [adm] in H; try tauto.
    + subst. apply rme_option_none.
    + destruct H as [H Hne]. cbn [wf] in Hw. destruct (adm_fmt t Hw _ _ H) as [m Hm].
      destruct (fmt_head _ _ Hm) as (c & l & -> & Hc).
      assert (c <> 0xc0). { intros E. apply Hne. rewrite (Hc E), E. auto. }
      apply rme_option_some; auto. change (visit_some _) with (then_ (denote DeserializeError t) (map_ok USome)).
      apply (rde_then _ (map_ok USome) _ (Ok v0)); auto.
      destruct (denote_req t) as (m' & v' & ->). unfold request. eauto.
  - cbn [adm wf] in *. apply (IH Hw) in H. eapply ev_imp; [exact H|]. auto.
  - destruct H as (h & b & -> & Hh & Hb). eapply rme_seq; [cbn; auto|eauto|]. cbn.
    apply rsq_hint. apply (rsq_loop _ (adm fo t) l); auto.
  - destruct H as (h & b & -> & Hh & Hl & Hb). destruct Hw as [Hw _]. eapply rme_seq; [cbn; auto|eauto|]. cbn.
    rewrite Forall_forall in IH. replace (zlen l) with (zlen (map (fun t => (denote DeserializeError t, @None val)) l)) by (unfold zlen; rewrite map_length; auto).
    eapply rsq_all; [|rewrite map_length; auto|exact Hb].
    apply Forall2_map. intros t Ht v c. cbn [fst]. apply IH; auto. eapply all_list_In; eauto.
  - destruct H as (h & b & -> & Hh & Hl & Hb). destruct Hw as [Hw _]. eapply rme_seq; [cbn; auto|eauto|]. cbn.
    rewrite Forall_forall in IH. replace (zlen l) with (zlen (map (fun t => (denote DeserializeError t, @None val)) l)) by (unfold zlen; rewrite map_length; auto).
    eapply rsq_all; [|rewrite map_length; auto|exact Hb].
    apply Forall2_map. intros t Ht v c. cbn [fst]. apply IH; auto. eapply all_list_In; eauto.
  - destruct H as (h & b & -> & Hh & Hb). destruct Hw as [Hw1 Hw2]. eapply rme_map; [eauto|]. cbn.
    apply rmp_hint. apply (rmp_loop _ _ (adm fo k) (adm fo v) l); auto.
  - destruct Hw as [Hn Hw]. rewrite Forall_forall in IH. 
    destruct H as [(n & h & b & -> & Hn' & Hh & Hl0 & Hb & Hd)|(n & h & b & got & -> & Hh & He & Ha)].
    + eapply rme_struct_arr; [eauto|]. cbn. 
      apply (rsq_tuple _ (map (fun f => adm fo (snd f)) fs) l n []); rewrite ?map_length; auto.
      * apply Forall2_map. intros f Hf v c. cbn [fst]. apply IH; auto. apply (all_list_In _ _ Hw f Hf).
      * clear - Hd. rewrite skipn_map. revert Hd. generalize (skipn n fs) (skipn n l). clear.
        induction l as [|f fs IH]; intros [|v l] H; cbn in *; auto. destruct H as [H1 H2]. split; auto. rewrite H1. auto.
    + eapply rme_struct_map; [eauto|]. cbn. eapply rmp_struct; eauto; [|apply finish_all; auto].
      apply Forall2_map. intros f Hf v c. apply IH; auto. apply (all_list_In _ _ Hw f Hf).
  - destruct Hw as [Hn Hw]. rewrite Forall_forall in IH. rewrite nth_error_map in H.
    destruct (nth_error vs i) as [[[nm kd] t]|] eqn:Ei; [|cbn in H; tauto]. cbn [option_map attr_of snd fst] in H.
    pose proof (nth_error_In _ _ Ei) as Hi. destruct (all_list_In _ _ Hw _ Hi) as [Hwt Hk]. cbn [attr_of snd fst] in *.
    assert (Hc : nth_error (map (fun f => (attr_of f, denote DeserializeError (snd f))) vs) i = Some (kd, denote DeserializeError t)).
    { rewrite nth_error_map, Ei. auto. }
    specialize (IH _ Hi Hwt). cbn [snd] in IH.
    destruct kd.
    + destruct H as [-> H]. destruct (ident_head _ _ _ H) as (c & l & -> & H81 & _).
      apply rme_enum_unit; [auto|]. rewrite <- (app_nil_r (c :: l)).
      cbn [visit_enum mk_visitor v_enum on_enum]. unfold enum_prog. eapply ren_variant; [reflexivity|eapply rde_ident; eauto|]. cbv beta iota. rewrite Hc. apply ev_all. intros f. apply (reads_lift ar (Ok _)).
    + destruct H as (k & b & -> & Hk' & Hb). apply rme_enum_data.
      cbn [visit_enum mk_visitor v_enum on_enum]. unfold enum_prog. eapply ren_variant; [reflexivity|eapply rde_ident; eauto|]. cbv beta iota. rewrite Hc. eapply ev_imp; [exact (IH _ _ Hb)|].
      intros f Hf. cbn [run_variant]. apply (reads_post _ (map_ok (UVar i)) _ (Ok v0)); auto.
    + destruct H as (k & b & -> & Hk' & Hb). apply rme_enum_data.
      cbn [visit_enum mk_visitor v_enum on_enum]. unfold enum_prog. eapply ren_variant; [reflexivity|eapply rde_ident; eauto|]. cbv beta iota. rewrite Hc.
      destruct t; cbn in Hk; try tauto. cbn [denote] in *. unfold request in *.
      eapply ev_imp; [exact (rde_inv _ _ _ _ _ (IH _ _ Hb))|]. intros f Hf. cbn [run_variant].
      apply (reads_post2 _ (fun r => r) (map_ok (UVar i)) _ (Ok v0)); auto.
    + destruct H as (k & b & -> & Hk' & Hb). apply rme_enum_data.
      cbn [visit_enum mk_visitor v_enum on_enum]. unfold enum_prog. eapply ren_variant; [reflexivity|eapply rde_ident; eauto|]. cbv beta iota. rewrite Hc.
      destruct t; cbn in Hk; try tauto. cbn [denote] in *. unfold request in *.
      eapply ev_imp; [exact (rde_inv _ _ _ _ _ (IH _ _ Hb))|]. intros f Hf. cbn [run_variant].
      apply (reads_post2 _ (fun r => r) (map_ok (UVar i)) _ (Ok v0)); auto.
Qed.
End Typed.

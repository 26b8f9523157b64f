(** [deserialize_any] gives the value a message denotes (C27). *)
From Verif Require Import Prelude PreludeFacts Utf8 Utf8Spec Utf8Facts SerdeSer SerdeDe MpMagick MpSpec MpDe MpDeView MpDeReads MpDeEat MpDeTrail Types TypesFacts MpTypeSpec MpTyped.
From Verif Require MpSerProofs.
Ltac Zify.zify_post_hook ::= Z.div_mod_to_equations.

Definition fault_err (f : fault) : mp_de_error := match f with ExtValue => UnsupportedExt | BadUtf8 => InvalidUnicodeCodePoint end.

Section Any.
Context (ar : arch) (fo : float_ops).
Local Notation M := (DM mpde mp_de_error).
Local Notation reads := (reads ar).
Local Notation run := (@mp_run ar fo val).
Local Notation rde := (rde ar fo).
Local Notation rsq := (rsq ar fo).
Local Notation rmp := (rmp ar fo).
Local Notation rme := (rme ar fo).
Local Notation any := (any DeserializeError).
Local Notation any_seq := (any_seq DeserializeError).
Local Notation any_map := (any_map DeserializeError).

Definition any_visitor : visitor val mp_de_error :=
  Visitor (fun b => Ok (UBool b)) (fun _ z => Ok (UInt z)) (fun b => Ok (UF32 b)) (fun b => Ok (UF64 b))
    (fun c => Ok (UChar c)) (fun s => Ok (UStr s)) (fun s => Ok (UBytes s)) (Ok UNone) (Ok UUnit) any any
    (any_seq []) (any_map []) (ERet (Err DeserializeError)).
Definition dfrob {U E} (p : deser U E) : deser U E :=
  match p with DRet r => DRet r | DHuman k => DHuman k | DReq m v k => DReq m v k end.
Lemma any_eq : any = DReq DAny any_visitor (fun r => r).
Proof. transitivity (dfrob any); [destruct any; reflexivity|reflexivity]. Qed.
Lemma rde_any bs r : rme DAny any_visitor bs r -> rde any bs r.
Proof. intros H. rewrite any_eq. apply (rde_req ar fo DAny any_visitor (fun r => r) bs r); auto. Qed.

(** Errors: with [bs] in front, the result is the error [e]. *)
Definition fails {A} (m : M A) bs e : Prop :=
  forall s, ready ar s -> forall t, rest s = bs ++ t -> exists s', m s = Done s' (Err e).
Definition fde p bs e := ev (fun f => fails (r_de (run f) p) bs e).
Definition fsq p n bs e := ev (fun f => fails (r_seq (run f) p n) bs e).
Definition fmp p n bs e := ev (fun f => fails (r_map (run f) p n) bs e).
Definition fme m (v : visitor val mp_de_error) bs e := ev (fun f => fails (mp_method ar fo (run f) m v) bs e).

Lemma fails_app {A} (m : M A) a b e : fails m a e -> fails m (a ++ b) e.
Proof. intros H s Hs t Ht. rewrite <- app_assoc in Ht. eauto. Qed.
Lemma fails_reads {A} (m : M A) a e : reads m a (Err e) -> fails m a e.
Proof. intros H s Hs t Ht. destruct (H s Hs (ready_fits_app ar s a t Hs Ht)) as [H1 _]. destruct (H1 t Ht) as (s' & E & _). eauto. Qed.
Lemma fails_bind1 {A B} (m : M A) (k : A -> M B) a e : fails m a e -> fails (dbind m k) a e.
Proof. intros H s Hs t Ht. destruct (H s Hs t Ht) as (s' & E). exists s'. unfold dbind. rewrite E. auto. Qed.
Lemma fails_bind2 {A B} (m : M A) (k : A -> M B) a b x e : reads m a (Ok x) -> fails (k x) b e -> fails (dbind m k) (a ++ b) e.
Proof.
  intros Hm Hk s Hs t Ht. rewrite <- app_assoc in Ht. destruct (Hm s Hs (ready_fits_app ar s a _ Hs Ht)) as [H1 _]. destruct (H1 _ Ht) as (s1 & E1 & A1).
  destruct (Hk s1 (adv_ready _ _ _ _ A1) t) as (s2 & E2); [eapply adv_rest; eauto|].
  exists s2. unfold dbind. rewrite E1. auto.
Qed.
Lemma fails_try1 {A B} (m : M A) (k : result A mp_de_error -> M B) a e :
  fails m a e -> (forall s, k (Err e) s = Done s (Err e)) -> fails (dtry m k) a e.
Proof. intros H Hk s Hs t Ht. destruct (H s Hs t Ht) as (s' & E). exists s'. unfold dtry. rewrite E, Hk. auto. Qed.
Lemma fails_try2 {A B} (m : M A) (k : result A mp_de_error -> M B) a b x e :
  reads m a (Ok x) -> fails (k (Ok x)) b e -> fails (dtry m k) (a ++ b) e.
Proof.
  intros Hm Hk s Hs t Ht. rewrite <- app_assoc in Ht. destruct (Hm s Hs (ready_fits_app ar s a _ Hs Ht)) as [H1 _]. destruct (H1 _ Ht) as (s1 & E1 & A1).
  destruct (Hk s1 (adv_ready _ _ _ _ A1) t) as (s2 & E2); [eapply adv_rest; eauto|].
  exists s2. unfold dtry. rewrite E1. auto.
Qed.
Lemma fails_peek {A} (k : Z -> M A) c bs e : fails (k c) (c :: bs) e -> fails (dbind peek k) (c :: bs) e.
Proof.
  intros H s Hs t Ht. destruct (H s Hs t Ht) as (s' & E). exists s'. unfold dbind. rewrite peek_run by apply Hs.
  rewrite Ht. cbn. auto.
Qed.
Lemma fails_fail {A} e bs : fails (@dfail _ _ A e) bs e.
Proof. intros s _ t _. exists s. reflexivity. Qed.

Lemma fde_any bs e : fme DAny any_visitor bs e -> fde any bs e.
Proof.
  intros H. rewrite any_eq. apply ev_S. eapply ev_imp; [exact H|]. intros f Hf. cbn [mp_run r_de step_de].
  unfold dpost. apply fails_try1; auto.
Qed.
Lemma fsq_here seed k n a b e : 0 < n -> (forall e, k (Err e) = SRet (Err e)) -> fde seed a e -> fsq (SNext seed k) n (a ++ b) e.
Proof.
  intros Hn Hk Ha. apply ev_S, ev_pos. eapply ev_imp; [exact Ha|]. intros f Fa Hf. apply fails_app.
  cbn [mp_run r_seq step_seq]. destruct (n =? 0) eqn:E; [lia|]. apply fails_try1; auto.
  intros s. cbn [res_some]. rewrite Hk. destruct f; [lia|]. reflexivity.
Qed.
Lemma fsq_later seed k n a b v e : 0 < n -> rde seed a (Ok v) -> fsq (k (Ok (Some v))) (n - 1) b e -> fsq (SNext seed k) n (a ++ b) e.
Proof.
  intros Hn Ha Hb. apply ev_S. eapply ev_and; [exact Ha|exact Hb|]. intros f Fa Fb.
  cbn [mp_run r_seq step_seq]. destruct (n =? 0) eqn:E; [lia|]. eapply fails_try2; [exact Fa|exact Fb].
Qed.
Lemma fmp_here seed k n a b e : 0 < n -> (forall e, k (Err e) = MRet (Err e)) -> fde seed a e -> fmp (MKey seed k) n (a ++ b) e.
Proof.
  intros Hn Hk Ha. apply ev_S, ev_pos. eapply ev_imp; [exact Ha|]. intros f Fa Hf. apply fails_app.
  cbn [mp_run r_map step_map]. destruct (n =? 0) eqn:E; [lia|]. apply fails_try1; auto.
  intros s. cbn [res_some]. rewrite Hk. destruct f; [lia|]. reflexivity.
Qed.
Lemma fmp_later seed k n a b v e : 0 < n -> rde seed a (Ok v) -> fmp (k (Ok (Some v))) (n - 1) b e -> fmp (MKey seed k) n (a ++ b) e.
Proof.
  intros Hn Ha Hb. apply ev_S. eapply ev_and; [exact Ha|exact Hb|]. intros f Fa Fb.
  cbn [mp_run r_map step_map]. destruct (n =? 0) eqn:E; [lia|]. eapply fails_try2; [exact Fa|exact Fb].
Qed.
Lemma fmp_val_here seed k n a b e : (forall e, k (Err e) = MRet (Err e)) -> fde seed a e -> fmp (MVal seed k) n (a ++ b) e.
Proof.
  intros Hk Ha. apply ev_S, ev_pos. eapply ev_imp; [exact Ha|]. intros f Fa Hf. apply fails_app.
  cbn [mp_run r_map step_map]. apply fails_try1; auto.
  intros s. rewrite Hk. destruct f; [lia|]. reflexivity.
Qed.
Lemma fmp_val_later seed k n a b v e : rde seed a (Ok v) -> fmp (k (Ok v)) n b e -> fmp (MVal seed k) n (a ++ b) e.
Proof.
  intros Ha Hb. apply ev_S. eapply ev_and; [exact Ha|exact Hb|]. intros f Fa Fb.
  cbn [mp_run r_map step_map]. eapply fails_try2; [exact Fa|exact Fb].
Qed.

Ltac pk := apply reads_peek; consts; ifs; try (exfalso; lia).

Lemma rme_any_seq n h b r : arr_hdr n h -> rme DSeq any_visitor (h ++ b) r -> rme DAny any_visitor (h ++ b) r.
Proof.
  intros Hh H. eapply ev_imp; [exact H|]. intros f Hf. cbn [mp_method] in *. unfold deserialize_any.
  inversion Hh; subst; cbn [app] in *; pk; exact Hf.
Qed.
Lemma rme_any_map n h b r : map_hdr n h -> rme DMap any_visitor (h ++ b) r -> rme DAny any_visitor (h ++ b) r.
Proof.
  intros Hh H. eapply ev_imp; [exact H|]. intros f Hf. cbn [mp_method] in *. unfold deserialize_any.
  inversion Hh; subst; cbn [app] in *; pk; exact Hf.
Qed.
Lemma fails_hdr {A B C} (g : Z -> M A) (k : A -> M B) (k' : B -> M C) h b x e :
  reads (dbind (fetch ar) g) h (Ok x) -> fails (dbind (k x) k') b e ->
  fails (dbind (fetch ar) (fun c => dbind (g c) (fun x => dbind (k x) k'))) (h ++ b) e.
Proof.
  intros H1 H2. pose proof (fails_bind2 _ (fun x => dbind (k x) k') _ _ _ _ H1 H2) as F. intros s Hs t Ht. destruct (F s Hs t Ht) as (s' & E).
  exists s'. rewrite <- E. symmetry. apply dbind_assoc.
Qed.
Lemma fme_seq n h b e : arr_hdr n h -> fsq (any_seq []) n b e -> fme DAny any_visitor (h ++ b) e.
Proof.
  intros Hh Hb. eapply ev_imp; [exact Hb|]. intros f Fb. cbn [mp_method].
  assert (F : fails (deserialize_seq ar (run f) any_visitor) (h ++ b) e).
  { unfold deserialize_seq. eapply fails_hdr; [apply (hdr_arr_run ar _ _ Hh)|]. apply fails_bind1. exact Fb. }
  unfold deserialize_any. inversion Hh; subst; cbn [app] in *; apply fails_peek; consts; ifs; exact F.
Qed.
Lemma fme_map n h b e : map_hdr n h -> fmp (any_map []) n b e -> fme DAny any_visitor (h ++ b) e.
Proof.
  intros Hh Hb. eapply ev_imp; [exact Hb|]. intros f Fb. cbn [mp_method].
  assert (F : fails (deserialize_map ar (run f) any_visitor) (h ++ b) e).
  { unfold deserialize_map. eapply fails_hdr; [apply (hdr_map_run ar _ _ Hh)|]. apply fails_bind1. exact Fb. }
  unfold deserialize_any. inversion Hh; subst; cbn [app] in *; apply fails_peek; consts; ifs; exact F.
Qed.
Lemma fme_ext n h b : ext_hdr n h -> fme DAny any_visitor (h ++ b) UnsupportedExt.
Proof.
  intros Hh. apply ev_all. intros f. cbn [mp_method]. unfold deserialize_any.
  inversion Hh; subst; cbn [app] in *; apply fails_peek; consts; ifs; apply fails_fail.
Qed.

Lemma reads_str_bad s h : ~ valid_utf8 s -> str_hdr (zlen s) h ->
  reads (parse_str ar) (h ++ s) (Err InvalidUnicodeCodePoint).
Proof.
  intros Hu Hh. rewrite <- from_utf8_ok_spec in Hu.
  assert (Hbody : reads (dbind (split_input (zlen s)) (fun x => if from_utf8_ok (sl_data x) then dret x else dfail InvalidUnicodeCodePoint)) s (Err InvalidUnicodeCodePoint)).
  { apply reads_nil_r. apply reads_split. intros o. cbn [sl_data]. destruct (from_utf8_ok s); [congruence|]. apply reads_fail. }
  unfold parse_str. inversion Hh; subst; cbn [app]; apply reads_cons; consts; ifs; try (exfalso; lia).
  - rewrite land_31 by (auto; reflexivity). eapply reads_bind_nil; [apply reads_ret|]. exact Hbody.
  - eapply reads_bind; [apply reads_u8; eassumption|]. exact Hbody.
  - eapply reads_bind; [apply reads_u16; eassumption|]. exact Hbody.
  - eapply reads_bind; [apply reads_usize; eassumption|]. exact Hbody.
Qed.

Lemma rme_any_int z bs : int_fmt z bs -> rme DAny any_visitor bs (Ok (UInt z)).
Proof.
  intros H. apply ev_all. intros f. cbn [mp_method]. unfold deserialize_any.
  assert (D : forall k, in_ikindb k z = true -> reads (deserialize_int ar k any_visitor) bs (Ok (UInt z))).
  { intros k Hk. unfold deserialize_int. pose proof (reads_parse_integer ar k z bs H) as P. rewrite Hk in P.
    eapply reads_bind_end; [exact P|]. apply (reads_lift ar (Ok (UInt z))). }
  inversion H; subst;
    try match goal with U : uint_be _ _ _ |- _ => apply uint_be_range in U; match type of U with context [256 ^ ?x] => let y := eval vm_compute in (256 ^ x) in change (256 ^ x) with y in U end end;
    try match goal with U : int_be ?n _ _ |- _ => apply MpSerProofs.int_be_range in U; [|lia]; destruct U as [U _]; match type of U with context [2 ^ (?x)] => let y := eval vm_compute in (2 ^ x) in change (2 ^ x) with y in U end end;
    pk; apply D; unfold in_ikindb; cbn [imin imax]; lia.
Qed.

Lemma rme_any_leaf m bs v : mp_fmt m bs -> denotes m (inl v) -> (forall l, m <> VArr l) -> (forall l, m <> VMap l) ->
  rme DAny any_visitor bs (Ok v).
Proof.
  intros H D Ha Hm. destruct H; inversion D; subst; try (exfalso; eapply Ha; reflexivity); try (exfalso; eapply Hm; reflexivity).
  4: apply rme_any_int; auto.
  all: apply ev_all; intros f; cbn [mp_method]; unfold deserialize_any.
  - pk. unfold deserialize_unit. apply reads_cons. apply (reads_lift ar (Ok _)).
  - pk. unfold deserialize_bool. apply reads_cons. apply (reads_lift ar (Ok _)).
  - pk. unfold deserialize_bool. apply reads_cons. apply (reads_lift ar (Ok _)).
  - pk. unfold deserialize_f32. apply reads_cons. consts. ifs. eapply reads_bind_end; [apply reads_f32; eassumption|]. apply (reads_lift ar (Ok _)).
  - pk. unfold deserialize_f64. apply reads_cons. consts. ifs. eapply reads_bind_end; [apply reads_f64; eassumption|]. apply (reads_lift ar (Ok _)).
  - match goal with V : valid_utf8 _, Hh : str_hdr _ _ |- _ => pose proof (reads_deser_str ar any_visitor _ _ V Hh) as R; inversion Hh; subst; cbn [app] in *; pk; exact R end.
  - match goal with Hh : bin_hdr _ _ |- _ => assert (R : reads (deserialize_bytes ar any_visitor) (h ++ s) (Ok (UBytes s)));
     [unfold deserialize_bytes; apply reads_bytes; auto; intros o; eapply reads_bind_nil; [apply reads_handed|]; apply (reads_lift ar (Ok _))
     |inversion Hh; subst; cbn [app] in *; pk; exact R] end.
Qed.
Lemma fme_str s h : ~ valid_utf8 s -> str_hdr (zlen s) h -> fme DAny any_visitor (h ++ s) InvalidUnicodeCodePoint.
Proof.
  intros Hu Hh. pose proof (reads_str_bad s h Hu Hh) as R. apply fails_reads in R.
  apply ev_all. intros f. cbn [mp_method]. unfold deserialize_any.
  assert (F : fails (deserialize_str ar any_visitor) (h ++ s) InvalidUnicodeCodePoint) by (apply fails_bind1; auto).
  inversion Hh; subst; cbn [app] in *; apply fails_peek; consts; ifs; exact F.
Qed.

(** The reserved code is refused. *)
Lemma any_reserved b : fde any (0xc1 :: b) ReservedCode.
Proof.
  apply fde_any, ev_all. intros f. cbn [mp_method]. unfold deserialize_any. apply fails_peek; consts; ifs; apply fails_fail.
Qed.

Lemma any_seq_eq acc : any_seq acc = SNext any (fun r =>
    match r with
    | Ok (Some v) => any_seq (v :: acc)
    | Ok None => SRet (Ok (USeq (rev acc)))
    | Err e => SRet (Err e)
    end).
Proof. rewrite (sfrob_eq (any_seq acc)). reflexivity. Qed.
Lemma any_map_eq acc : any_map acc = MKey any (fun r =>
    match r with
    | Ok (Some k) => MVal any (fun r =>
        match r with
        | Ok v => any_map ((k, v) :: acc)
        | Err e => MRet (Err e)
        end)
    | Ok None => MRet (Ok (UMap (rev acc)))
    | Err e => MRet (Err e)
    end).
Proof. rewrite (mfrob_eq (any_map acc)). reflexivity. Qed.

Lemma any_reads :
  (forall m bs, mp_fmt m bs ->
     (forall v, denotes m (inl v) -> rde any bs (Ok v)) /\ (forall e, denotes m (Datatypes.inr e) -> fde any bs (fault_err e))) /\
  (forall l bs, mp_fmt_list l bs -> forall acc,
     (forall vs, denotes_list l (inl vs) -> rsq (any_seq acc) (zlen l) bs (Ok (USeq (rev acc ++ vs), 0))) /\
     (forall e, denotes_list l (Datatypes.inr e) -> fsq (any_seq acc) (zlen l) bs (fault_err e))) /\
  (forall l bs, mp_fmt_pairs l bs -> forall acc,
     (forall vs, denotes_pairs l (inl vs) -> rmp (any_map acc) (zlen l) bs (Ok (UMap (rev acc ++ vs), 0))) /\
     (forall e, denotes_pairs l (Datatypes.inr e) -> fmp (any_map acc) (zlen l) bs (fault_err e))).
Proof.
  assert (L : forall m bs, mp_fmt m bs -> (forall l, m <> VArr l) -> (forall l, m <> VMap l) -> forall v, denotes m (inl v) -> rde any bs (Ok v)).
  { intros m bs H1 H2 H3 v H4. apply rde_any. eapply rme_any_leaf; eauto. }
  apply mp_fmt_mutind.
  1-6: intros; split; [apply L; [constructor; auto|discriminate|discriminate]|intros e D; inversion D].
  - intros s h Hs Hh. split; [apply L; [apply MF_str; auto|discriminate|discriminate]|].
    intros e D. inversion D; subst. apply fde_any, fme_str; auto.
  - intros s h Hs Hh. split; [apply L; [apply MF_bin; auto|discriminate|discriminate]|intros e D; inversion D].
  - intros l h bs Hh Hl IH. destruct (IH []) as [IH1 IH2]. split.
    + intros v D. inversion D; subst. apply rde_any. eapply rme_any_seq; [exact Hh|].
      eapply rme_seq; [left; reflexivity|exact Hh|]. apply IH1. auto.
    + intros e D. inversion D; subst. apply fde_any. eapply fme_seq; [exact Hh|]. apply IH2. auto.
  - intros l h bs Hh Hl IH. destruct (IH []) as [IH1 IH2]. split.
    + intros v D. inversion D; subst. apply rde_any. eapply rme_any_map; [exact Hh|].
      eapply rme_map; [exact Hh|]. apply IH1. auto.
    + intros e D. inversion D; subst. apply fde_any. eapply fme_map; [exact Hh|]. apply IH2. auto.
  - intros t d h Ht Hd Hh. split; intros r D; inversion D; subst. apply fde_any. eapply fme_ext; eauto.
  - intros acc. split; intros r D; inversion D; subst. rewrite any_seq_eq. apply rsq_end. rewrite app_nil_r. apply rsq_ret.
  - intros m l a b Hm [IHm1 IHm2] Hl IHl acc. destruct (zlen_cons_pos m l) as [E P]. rewrite any_seq_eq. split; intros r D; inversion D; subst.
    + eapply rsq_next; [lia|reflexivity|apply IHm1; eauto|]. rewrite E. cbv beta iota.
      match goal with |- context [rev acc ++ ?v :: ?vs] => replace (rev acc ++ v :: vs) with (rev (v :: acc) ++ vs) by (cbn; rewrite <- app_assoc; auto); destruct (IHl (v :: acc)) as [IH1 _] end. apply IH1. auto.
    + apply fsq_here; [lia|reflexivity|]. apply IHm2. auto.
    + eapply fsq_later; [lia|apply IHm1; eauto|]. rewrite E. cbv beta iota. apply (proj2 (IHl (v :: acc))). auto.
  - intros acc. split; intros r D; inversion D; subst. rewrite any_map_eq. apply rmp_end. rewrite app_nil_r. apply rmp_ret.
  - intros k m l a b c Hk [IHk1 IHk2] Hm [IHm1 IHm2] Hl IHl acc. destruct (zlen_cons_pos (k, m) l) as [E P]. rewrite any_map_eq.
    split; intros r D; inversion D; subst.
    + eapply rmp_key; [lia|reflexivity|apply IHk1; eauto|]. rewrite E. cbv beta iota.
      eapply rmp_val; [reflexivity|apply IHm1; eauto|]. cbv beta iota.
      match goal with |- context [rev acc ++ ?v :: ?vs] => replace (rev acc ++ v :: vs) with (rev (v :: acc) ++ vs) by (cbn; rewrite <- app_assoc; auto); destruct (IHl (v :: acc)) as [IH1 _] end. apply IH1. auto.
    + apply fmp_here; [lia|reflexivity|]. apply IHk2. auto.
    + eapply fmp_later; [lia|apply IHk1; eauto|]. cbv beta iota. apply fmp_val_here; [reflexivity|]. apply IHm2. auto.
    + eapply fmp_later; [lia|apply IHk1; eauto|]. rewrite E. cbv beta iota. eapply fmp_val_later; [apply IHm1; eauto|]. cbv beta iota.
      apply (proj2 (IHl ((u, v) :: acc))). auto.
Qed.
End Any.

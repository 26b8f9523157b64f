(** Enums read through a buffer inside other types, in MessagePack (C76). *)
From Verif Require Import Prelude PreludeFacts Utf8Spec Utf8 Utf8Facts Writer SerMonad SerdeSer SerdeDe FloatOps Arch MpMagick MpSpec MpErrMap MpSer MpSerSim MpSerProofs MpSerFacts MpDe MpDeView
  MpDeReads MpDeSafe MpDeTop Types TypesFacts MpTypeSpec MpTyped MpTypedSer MpTypedTop MpAny MpReadBack Content ContentSpec ContentFacts MpContent MpTagged Nested NestedSpec.
Ltac Zify.zify_post_hook ::= Z.div_mod_to_equations.

Lemma seq_enc_mono {A} (f g : A -> bytes -> Prop) l : (forall a b, In a l -> f a b -> g a b) ->
  forall bs, seq_enc (map f l) bs -> seq_enc (map g l) bs.
Proof.
  induction l as [|a l IH]; intros H bs; cbn; auto. intros (x & y & -> & Hx & Hy). exists x, y. split; auto. split; [apply H; [left|]; auto|].
  apply IH; auto. intros c b Hc. apply H. right. auto.
Qed.

Section N.
Context (ar : arch) (fo : float_ops) (A32 : arch32up ar) (cfg : mp_cfg) (fl : flavour) (Hc : 2 ^ 32 - 1 <= cfg_usize_max cfg) (skips : Prop).
Local Notation st := (style_of fl).
Local Notation prog := (xdenote fo DeserializeError).
Local Notation VW := (@VecWriter ser_error).
Local Notation ser := (mp_ser VW cfg fl).
Local Notation sok := (sok (E := ser_error) fl skips).
Local Notation rde := (rde ar fo).

Lemma or_all {A} (P : A -> Prop) l a : In a l -> skips \/ all_list P l -> skips \/ P a.
Proof. intros I [S|H]; [left; exact S|right]. exact (all_list_In _ _ H _ I). Qed.
Lemma xreq x : exists m v post, prog x = DReq m v post.
Proof. destruct x; cbn [xdenote]; unfold untagged, tagged, buffered, any, request; cbn [then_]; eauto. destruct (denote_req t) as (m & v & ->). unfold request. eauto. Qed.

Lemma buffered_rde f m bs w v : mp_fmt m bs -> denotes m (inl w) -> f w = Some v -> rde (buffered DeserializeError f) bs (Ok v).
Proof.
  intros H D F. unfold buffered.
  match goal with |- MpTyped.rde _ _ (then_ ?p ?g) _ _ => set (h := g); replace (Ok v) with (h (Ok w)) by (unfold h; rewrite F; reflexivity) end.
  apply rde_then; [exact (proj1 (proj1 (any_reads ar fo) m bs H) w D)|reflexivity|]. rewrite (any_eq). eauto.
Qed.

(** What is written is read back. *)
Definition back (x : xty) (w : val) (bs : bytes) : Prop := rde (prog x) bs (Ok w) /\ exists m, mp_fmt m bs.
Definition comes_back (x : xty) (v : val) (bs : bytes) : Prop :=
  back x (mp_image x v) bs /\ if xnull nullish x v then bs = [0xc0] else bs <> [0xc0].

Lemma sok_out s P : sok (ser s) tt P -> sok (ser s) tt (fun out => P out /\ mp_to_vec cfg fl s = Ok out).
Proof. intros [(out & H & p)|H]; [left|right; exact H]. exists out. split; [exact H|]. split; [exact p|]. exact (to_vec_emits _ _ _ _ _ H). Qed.

Lemma untagged_back vs v : skips \/ xplain (XUntagged vs) -> mp_untagged_ok st vs v -> sok (ser (untagged_trace vs v)) tt (comes_back (XUntagged vs) v).
Proof.
  intros Q0 (i & k & t & u & -> & En & K & W & S & H & T & Ks & Ap). cbn [untagged_trace].
  apply (or_all _ _ _ (nth_error_In _ _ En)) in Q0. cbn [snd] in Q0. rewrite En. cbn [snd].
  eapply sok_imp; [apply sok_out; exact (trace_sok (E := ser_error) cfg fl fo skips t W Q0 u H)|].
  intros out [[_ Hn] Ho]. destruct (to_vec_ok_documented cfg fl _ out (typed_sval_ok t W u H) Hc Ho) as (m & D & F).
  destruct (doc_denotes st _ (typed_sval_ok t W u H) m D) as [w Dn]. unfold comes_back. cbn [mp_image ximage xnull]. rewrite En. split; [|exact Hn].
  split; [|eauto]. cbn [xdenote]. apply (buffered_rde _ m out w); auto. apply den_of in Dn.
  destruct (written_shape st t W T u m w H D Dn) as (sh & Sh & In_).
  assert (V : untagged_variant fo (k, t) w = Some u).
  { pose proof (content_back fo st t W S T u m w H D Dn) as B. unfold untagged_variant. cbn [fst snd]. destruct k; auto.
    - destruct t; cbn in K; try contradiction. destruct u; cbn in H; try contradiction. cbn in D. injection D as <-. injection Dn as <-. reflexivity.
    - destruct t; cbn in K; try contradiction. unfold written, fields_shape in In_. specialize (Ks eq_refl).
      destruct In_ as [J|[]]. destruct fl; cbn [style_of] in *; [tauto| |]; cbn in J; subst sh; destruct w; try discriminate; exact B. }
  assert (P : untagged_pick fo (firstn i vs ++ (k, t) :: skipn (Datatypes.S i) vs) 0 w = Some (UVar (0 + length (firstn i vs)) u)).
  { eapply pick_first; eauto. }
  assert (Li : (i < length vs)%nat) by (apply nth_error_Some; congruence).
  rewrite firstn_length_le in P by lia. cbn [Nat.add] in P. rewrite <- (vs_split vs i (k, t) En) in P. exact P.
Qed.

Lemma tagged_comes_back tag vs v : skips \/ xplain (XTagged tag vs) -> mp_tagged_ok st tag vs v -> sok (ser (tagged_trace tag vs v)) tt (comes_back (XTagged tag vs) v).
Proof.
  intros Q0 (Hfl & Nv & i & f & u & -> & En & W & S & T & H). apply (or_all _ _ _ (nth_error_In _ _ En)) in Q0.
  assert (Q1 : skips \/ plain (with_tag tag (variant_fields f))) by (destruct Q0 as [Q0|Q0]; [left; exact Q0|right; split; [split; [reflexivity|exact I]|exact Q0]]). clear Q0. rename Q1 into Q0. destruct (tagged_call tag vs i f u En H) as (l & Et & Hl & Hv). rewrite Et.
  assert (Hn : hastype TStr (UStr (fst f))).
  { destruct Nv as (_ & N2 & _). rewrite Forall_forall in N2. apply (N2 (fst f)). apply in_map. eapply nth_error_In; eauto. }
  assert (Hw : hastype (with_tag tag (variant_fields f)) (USeq (UStr (fst f) :: l))) by (split; [exact Hn|exact Hl]).
  eapply sok_imp; [apply sok_out; exact (trace_sok (E := ser_error) cfg fl fo skips _ W Q0 _ Hw)|].
  intros out [[_ Hne] Ho]. destruct (to_vec_ok_documented cfg fl _ out (typed_sval_ok _ W _ Hw) Hc Ho) as (m & D & F).
  destruct (doc_denotes st _ (typed_sval_ok _ W _ Hw) m D) as [w Dn]. unfold comes_back. cbn [mp_image ximage xnull]. split; [|exact Hne].
  split; [|eauto]. cbn [xdenote]. apply (buffered_rde _ m out w); auto. apply den_of in Dn.
  pose proof (tag_content fo st tag (fst f) _ l m w W S T Hl Hn D Dn) as Q. destruct f as [n [fs|]]; cbn [fst snd variant_fields] in *; subst u; destruct fl; cbn [style_of] in Q, Hfl; try congruence.
  - destruct Q as (ws & -> & Q). cbn [tagged_pick]. rewrite (by_tag_struct fo vs i n fs _ l (proj1 Nv) En Q). reflexivity.
  - destruct Q as (ws & -> & Q & K). cbn [tagged_pick]. rewrite (split_tag tag (UStr n) ws (map name_of fs)); auto.
    + cbn [snd]. rewrite (by_tag_struct fo vs i n fs _ l (proj1 Nv) En Q). reflexivity.
    + destruct W as [(N1 & _) _]. inversion N1; auto.
  - destruct Q as (ws & -> & Q). cbn [tagged_pick]. destruct ws; [|discriminate]. rewrite (by_tag_unit fo vs i n _ (proj1 Nv) En); auto.
  - destruct Q as (ws & -> & Q & K). cbn [tagged_pick]. rewrite (split_tag tag (UStr n) ws []); auto. cbn [snd]. rewrite (by_tag_unit fo vs i n _ (proj1 Nv) En); eauto.
Qed.

Lemma ordinary_back t v : skips \/ plain t -> ordinary t v -> sok (ser (trace t v)) tt (comes_back (XTy t) v).
Proof.
  intros Q [W H]. eapply sok_imp; [exact (trace_sok (E := ser_error) cfg fl fo skips t W Q v H)|]. intros out [Ha Hn]. split; [|exact Hn].
  split; [apply denote_reads; auto|eapply adm_fmt; eauto].
Qed.

(** ** Structs *)
Definition xitem (f : bytes * xty) (v : val) : bytes * option sval := (fst f, Some (xtrace (snd f) v)).
Definition xfield (f : bytes * xty) (v : val) : Prop := sok (ser (xtrace (snd f) v)) tt (comes_back (snd f) v).
Lemma xcount fs : forall l, length fs = length l -> count_some (zip xitem fs l) = zlen fs.
Proof. induction fs as [|f fs IH]; intros [|v l] H; try discriminate; auto. cbn [zip]. unfold xitem at 1. rewrite count_cons_some, zlen_cons, IH; auto. Qed.

Lemma xfields_arr : fl = Compact -> forall fs l idx, all2 xfield fs l ->
  sok (ser_fields VW fl ser (zip xitem fs l) (zlen fs, idx)) (0, idx)
    (seq_enc (zip (fun p v => p v) (map (fun f => back (snd f)) fs) (zip (fun f v => mp_image (snd f) v) fs l))).
Proof.
  intros Hfl. induction fs as [|f fs IH]; intros [|v l] idx H; cbn [all2] in H; try tauto.
  - left. exists []. split; [apply emits_ret|]. reflexivity.
  - destruct H as [Hf H]. cbn [zip map ser_fields seq_enc]. unfold xitem at 1. rewrite zlen_cons. pose proof (zlen_nonneg fs) as Hz.
    eapply sok_bind with (a := (zlen fs, idx)) (P := comes_back (snd f) v); [|apply IH; auto|].
    + apply (sok_ext fl skips (sbind (ser (xtrace (snd f) v)) (fun _ => sret (1 + zlen fs - 1, idx)))).
      { unfold struct_serialize_field, checked_dec. rewrite Hfl. replace (1 + zlen fs <? 1) with false by lia. reflexivity. }
      replace (zlen fs, idx) with (1 + zlen fs - 1, idx) by (f_equal; lia). apply (sok_bind_ret fl skips _ tt (fun _ => (1 + zlen fs - 1, idx))). exact Hf.
    + intros x y [Hx _] Hy. exists x, y. auto.
Qed.

Lemma xfields_map : fl <> Compact -> forall fs, names_ok (map fst fs) -> forall fs2 fs1 l g1 idx, fs = fs1 ++ fs2 ->
  length g1 = length fs1 -> (fl = StructMapIdx -> idx = Z.of_nat (length fs1)) -> all2 xfield fs2 l ->
  exists idx', sok (ser_fields VW fl ser (zip xitem fs2 l) (zlen fs2, idx)) (0, idx')
   (fun b => entries (map fst fs) (map (fun f => back (snd f)) fs) (g1 ++ map (fun _ => None) fs2)
      (zlen fs2) b (g1 ++ zip (fun f v => Some (mp_image (snd f) v)) fs2 l)).
Proof.
  intros Hfl fs Hn. induction fs2 as [|f fs2 IH]; intros fs1 [|v l] g1 idx Hfs Hg Hidx H; cbn [all2] in H; try tauto.
  - exists idx. left. exists []. split; [apply emits_ret|]. cbn. constructor.
  - destruct H as [Hf H]. cbn [zip map]. unfold xitem at 1.
    assert (Hshort : Z.of_nat (length fs1) + 1 < 2 ^ 32).
    { destruct Hn as (_ & _ & Hn). unfold short, zlen in Hn. rewrite map_length, Hfs, app_length in Hn. cbn [length] in Hn. lia. }
    rewrite zlen_cons. pose proof (zlen_nonneg fs2) as Hz.
    destruct (IH (fs1 ++ [f]) l (g1 ++ [Some (mp_image (snd f) v)]) (match fl with StructMapIdx => idx + 1 | _ => idx end)) as (idx' & HI); auto.
    { rewrite <- app_assoc. auto. }
    { rewrite !app_length. cbn. lia. }
    { intros E1. rewrite E1, app_length. cbn. rewrite Hidx by auto. lia. }
    assert (Hnm : nth_error (map fst fs) (length fs1) = Some (fst f)).
    { rewrite nth_error_map, Hfs, nth_error_mid. auto. }
    assert (Hk : sok (match fl with StructMapIdx => serialize_u32 VW idx | _ => serialize_str VW (fst f) end) tt
        (ident_enc (map fst fs) (length fs1))).
    { assert (Hi : (length fs1 < length (map fst fs))%nat) by (apply nth_error_Some; congruence).
      destruct fl; try congruence.
      - rewrite Hidx by auto. eapply sok_imp; [apply sok_u32; lia|]. intros b Hb. right. auto.
      - eapply sok_imp; [apply sok_str|].
        + destruct Hn as (_ & Hu & _). rewrite Forall_forall in Hu. apply Hu. eapply nth_error_In; eauto.
        + intros b Hb. left. eauto. }
    exists idx'. cbn [ser_fields]. eapply sok_bind with (P := cat (ident_enc (map fst fs) (length fs1)) (comes_back (snd f) v)); [|exact HI|].
    * unfold struct_serialize_field, checked_dec. replace (1 + zlen fs2 <? 1) with false by lia.
      apply (sok_ext fl skips (sbind (match fl with StructMapIdx => serialize_u32 VW idx | _ => serialize_str VW (fst f) end) (fun _ => 
         sbind (ser (xtrace (snd f) v)) (fun _ => sret (zlen fs2, match fl with StructMapIdx => idx + 1 | _ => idx end))))).
      { intros w. destruct fl; try congruence; unfold sbind, sret; replace (1 + zlen fs2 - 1) with (zlen fs2) by lia; auto.
        rewrite Hidx by auto. rewrite Z.mod_small by lia. auto. }
      eapply sok_cat; [exact Hk|]. apply (sok_bind_ret fl skips _ tt (fun _ => (zlen fs2, _))). exact Hf.
    * intros x y (k & b & -> & Hx & Hb & _) Hy. rewrite <- !app_assoc in *. cbn [app] in Hy.
      eapply EN_field; [|  | exact Hx | exact Hb |].
      -- rewrite <- Hg. apply nth_error_mid.
      -- rewrite nth_error_map, Hfs, nth_error_mid. auto.
      -- rewrite <- Hg, set_nth_app, <- app_assoc. exact Hy.
Qed.

Lemma finish_some l : forall absent, length absent = length l -> finish (map Some l) absent = Some l.
Proof. induction l as [|v l IH]; intros [|a absent] H; try discriminate; auto. cbn [map finish]. rewrite IH; auto. Qed.
Lemma zip_some {A B} (f : A -> B -> val) l : forall m, zip (fun a b => Some (f a b)) l m = map Some (zip f l m).
Proof. induction l as [|a l IH]; intros [|b m]; cbn; auto. rewrite IH. reflexivity. Qed.

Lemma xstruct_back fs l : names_ok (map fst fs) -> all2 xfield fs l ->
  sok (ser (xtrace (XStruct fs) (USeq l))) tt (comes_back (XStruct fs) (USeq l)).
Proof.
  intros Hn H. pose proof (all2_length _ _ _ H) as Hl. cbn [xtrace]. unfold struct_call. rewrite zip_map. fold xitem. rewrite xcount by auto. cbn [mp_ser].
  assert (Hcn : 0 <= zlen fs < 2 ^ 32).
  { destruct Hn as (_ & _ & Hn). unfold short, zlen in Hn |- *. rewrite map_length in Hn. lia. }
  assert (Li : length (zip (fun f v => mp_image (snd f) v) fs l) = length fs) by (apply zip_len; auto).
  assert (Fm : Forall (fun p : val -> bytes -> Prop => forall v b, p v b -> exists m, mp_fmt m b) (map (fun f : bytes * xty => back (snd f)) fs)).
  { apply Forall_map. apply Forall_forall. intros f _ v b [_ Hm]. exact Hm. }
  assert (Hcase : fl = Compact \/ fl <> Compact) by (destruct fl; auto; right; discriminate).
  assert (Im : mp_image (XStruct fs) (USeq l) = USeq (zip (fun f v => mp_image (snd f) v) fs l)).
  { unfold mp_image. cbn [ximage]. rewrite zip_map. reflexivity. }
  destruct Hcase as [Hfl|Hfl].
  - pose proof (xfields_arr Hfl fs l 0 H) as HF.
    eapply sok_bind with (a := (zlen fs, 0)) (P := arr_hdr (zlen fs)).
    + destruct (array_len_ok (E := ser_error) (zlen fs) Hcn) as (h & He & Hh & _).
      apply (sok_ext fl skips (sbind (write_array_len VW (zlen fs)) (fun _ => sret (zlen fs, 0)))).
      { unfold serialize_struct, inherent_serialize_struct. rewrite Hfl. reflexivity. }
      apply (sok_bind_ret fl skips _ tt (fun _ => (zlen fs, 0))). left. eauto.
    + eapply sok_bind with (Q := fun b => b = []); [exact HF| |].
      * apply (sok_ext fl skips (sret tt)); [|apply sok_ret]. unfold struct_end. rewrite Hfl. reflexivity.
      * intros x y Hx ->. rewrite app_nil_r. exact Hx.
    + intros h b Hh Hb. unfold comes_back. cbn [xnull]. split; [|eapply arr_not_nil; eauto]. rewrite Im. split.
      * cbn [xdenote]. apply rde_request. eapply rme_struct_arr; [exact Hh|]. cbn [mk_visitor v_struct visit_seq on_seq].
        replace (zlen fs) with (zlen (map (fun f : bytes * xty => (prog (snd f), @None val)) fs)) by (unfold zlen; rewrite map_length; auto).
        eapply rsq_all; [|rewrite map_length; exact Li|exact Hb]. apply Forall2_map. intros f _ v c [Hr _]. exact Hr.
      * edestruct (fun Q => seq_enc_fmt _ Q b Hb) as (ms & Lm & Hms); [intros q c Hq Hqc; apply zip_app_In in Hq; destruct Hq as (p & v & Hp & _ & ->); rewrite Forall_forall in Fm; exact (Fm p Hp v c Hqc)|].
        exists (VArr ms). constructor; auto. replace (zlen ms) with (zlen fs); auto. unfold zlen. rewrite Lm, zip_length; rewrite map_length; lia.
  - destruct (xfields_map Hfl fs Hn fs [] l [] 0 eq_refl eq_refl (fun _ => eq_refl) H) as (idx' & HF). cbn [app] in HF.
    eapply sok_bind with (a := (zlen fs, 0)) (P := map_hdr (zlen fs)).
    + unfold serialize_struct, inherent_serialize_struct. destruct (map_len_ok (E := ser_error) (zlen fs) Hcn) as (h & He & Hh & _).
      destruct fl; try congruence; apply (sok_bind_ret _ skips _ tt (fun _ => (zlen fs, 0))); left; eauto.
    + eapply sok_bind with (Q := fun b => b = []); [exact HF| |].
      * unfold struct_end. destruct fl; try congruence; apply sok_ret.
      * intros x y Hx ->. rewrite app_nil_r. exact Hx.
    + intros h b Hh Hb. unfold comes_back. cbn [xnull]. split; [|eapply map_not_nil; eauto]. rewrite Im. split.
      * cbn [xdenote]. apply rde_request. eapply rme_struct_map; [exact Hh|]. cbn [mk_visitor v_struct visit_map on_map].
        eapply rmp_struct; [exact Hn| |exact Hb|]; [apply Forall2_map; intros f _ v c [Hr _]; exact Hr|].
        rewrite zip_some. apply finish_some. rewrite map_length. auto.
      * destruct (entries_fmt _ _ Hn Fm _ _ _ _ Hb) as (ms & Lm & Hms). exists (VMap ms). constructor; auto. rewrite Lm. exact Hh.
Qed.

(** ** Enums with names outside *)
Lemma xenum_back vs i v bs : names_ok (map fst vs) ->
  match nth_error vs i with
  | Some (_, None) => v = UUnit /\ ident_enc (map fst vs) i bs
  | Some (_, Some x) => exists k b, bs = 0x81 :: k ++ b /\ ident_enc (map fst vs) i k /\ back x v b
  | None => False
  end -> back (XEnum vs) (UVar i v) bs.
Proof.
  intros Hn H. destruct (nth_error vs i) as [[nm o]|] eqn:Ei; [|tauto].
  assert (Hk : nth_error (map (fun f => (xkind f, match snd f with Some x => prog x | None => denote DeserializeError TUnit end)) vs) i =
    Some (xkind (nm, o), match o with Some x => prog x | None => denote DeserializeError TUnit end)) by (rewrite nth_error_map, Ei; reflexivity).
  destruct o as [x|]; cbn [xkind snd] in Hk.
  - destruct H as (k & b & -> & Hi & Hr & (m & Hm)). split.
    + cbn [xdenote]. apply rde_request. apply rme_enum_data.
      cbn [visit_enum mk_visitor v_enum on_enum]. unfold enum_prog. eapply ren_variant; [reflexivity|eapply rde_ident; eauto|]. cbv beta iota. rewrite Hk.
      eapply ev_imp; [exact Hr|]. intros f Hf. cbn [run_variant]. apply (reads_post ar _ (map_ok (UVar i)) _ (Ok v)); auto.
    + destruct (ident_fmt _ _ _ Hn Hi) as [mk Hmk]. exists (VMap [(mk, m)]). change (0x81 :: k ++ b) with ([0x80 + 1] ++ (k ++ b)). constructor.
      * constructor. lia.
      * rewrite <- (app_nil_r b). constructor; auto. constructor.
  - destruct H as [-> H]. split; [|eapply ident_fmt; eauto]. destruct (ident_head _ _ _ H) as (c & l & -> & H81 & _).
    cbn [xdenote]. apply rde_request. apply rme_enum_unit; [auto|]. rewrite <- (app_nil_r (c :: l)).
    cbn [visit_enum mk_visitor v_enum on_enum]. unfold enum_prog. eapply ren_variant; [reflexivity|eapply rde_ident; eauto|]. cbv beta iota. rewrite Hk.
    apply ev_all. intros f. apply (reads_lift ar (Ok _)).
Qed.
Lemma xnewtype_back x v bs : back x v bs -> back (XNewtype x) v bs.
Proof. intros [Hr Hm]. split; [|exact Hm]. cbn [xdenote]. apply rde_request. eapply ev_imp; [exact Hr|]. auto. Qed.

(** ** Everything *)
Lemma tuple_sok xs : Forall (fun x => skips \/ xplain x -> forall v, mp_made st x v -> sok (ser (xtrace x v)) tt (comes_back x v)) xs -> skips \/ all_list xplain xs -> forall l,
  all2 (fun p v => p v) (map (mp_made st) xs) l ->
  length l = length xs /\ Forall2 (fun x P => sok (ser x) tt P) (zip (fun f v => f v) (map xtrace xs) l)
    (zip (fun p v => p v) (map back xs) (zip (fun f v => f v) (map mp_image xs) l)).
Proof.
  induction 1 as [|x xs Hx _ IH]; intros Q [|v l] H; cbn in H; try tauto; [split; [auto|constructor]|]. destruct H as [H1 H2]. cbn [all_list] in Q. destruct (IH ltac:(tauto) l H2) as [Hl HF].
  split; [cbn; lia|]. cbn. constructor; [|exact HF]. eapply sok_imp; [apply Hx; [tauto|exact H1]|]. intros b [Hb _]. exact Hb.
Qed.

Theorem nested_back x : skips \/ xplain x -> forall v, mp_made st x v -> sok (ser (xtrace x v)) tt (comes_back x v).
Proof.
  induction x as [t|vs|tag vs|x IH|x IH|xs IH|k x IH|fs IH|x IH|vs IH] using xty_ind'; intros Q v H; cbn [mp_made made_of] in H; cbn [xplain] in Q.
  - cbn [xtrace]. apply ordinary_back; [exact Q|exact H].
  - cbn [xtrace]. apply untagged_back; [exact Q|exact H].
  - cbn [xtrace]. apply tagged_comes_back; [exact Q|exact H].
  - destruct v; cbn in H; try tauto.
    + left. exists [0xc0]. split; [apply emits_wb|]. split; [|reflexivity]. split; [apply rde_request, rme_option_none|]. exists VNil. constructor.
    + cbn [xtrace mp_ser]. eapply sok_imp; [apply (IH Q v H)|]. intros b [[Hr (m & Hm)] Hn]. unfold comes_back, mp_image. cbn [xnull ximage]. fold mp_image.
      destruct (xnull nullish x v) eqn:En.
      * subst b. split; [|reflexivity]. split; [apply rde_request, rme_option_none|]. exists VNil. constructor.
      * split; [|exact Hn]. split; [|eauto]. destruct (fmt_head _ _ Hm) as (c & l & -> & Hcl). cbn [xdenote]. apply rde_request. apply rme_option_some.
        { intros E1. apply Hn. rewrite (Hcl E1), E1. reflexivity. }
        change (visit_some _) with (then_ (prog x) (map_ok USome)).
        apply (rde_then ar fo _ (map_ok USome) _ (Ok (mp_image x v))); auto using xreq.
  - destruct v; cbn in H; try tauto. destruct H as [H Hs]. cbn [xtrace mp_ser].
    eapply sok_imp; [apply (sok_array cfg fl skips (map (xtrace x) l) (map (back x) (map (mp_image x) l)) (zlen l))|].
    + clear Hs. induction H as [|v l Hv H IHl]; cbn; constructor; auto. eapply sok_imp; [apply (IH Q); auto|]. intros b [Hb _]. exact Hb.
    + unfold zlen. rewrite map_length. auto.
    + exact Hs.
    + intros o (h & b & -> & Hh & Hb). unfold comes_back, mp_image. cbn [xnull ximage]. fold mp_image. split; [|eapply arr_not_nil; eauto]. split.
      * cbn [xdenote]. apply rde_request. eapply rme_seq; [cbn; auto|exact Hh|]. cbn. apply rsq_hint.
        replace (zlen l) with (zlen (map (mp_image x) l)) by (unfold zlen; rewrite map_length; auto).
        apply (rsq_loop ar fo _ (back x) (map (mp_image x) l)) with (acc := []); auto. intros w c _ [Hr _]. exact Hr.
      * edestruct (fun Q => seq_enc_fmt _ Q b Hb) as (ms & Lm & Hms); [intros q c Hq Hqc; apply in_map_iff in Hq; destruct Hq as (w & <- & _); exact (proj2 Hqc)|].
        exists (VArr ms). constructor; auto. replace (zlen ms) with (zlen l); auto. unfold zlen. rewrite Lm, !map_length. reflexivity.
  - destruct v; cbn in H; try tauto. destruct H as [H Hs]. fold (mp_made st) in H. destruct (tuple_sok xs IH Q l H) as [Hl HF]. cbn [xtrace mp_ser].
    assert (Lz : length (zip (fun f v => f v) (map mp_image xs) l) = length xs) by (rewrite zip_len; rewrite map_length; auto).
    eapply sok_imp; [apply (sok_array cfg fl skips _ _ (zlen xs) HF)|].
    + unfold zlen. rewrite zip_len; rewrite map_length; auto.
    + unfold short, zlen in *. lia.
    + intros o (h & b & -> & Hh & Hb). unfold comes_back, mp_image. cbn [xnull ximage]. fold mp_image. split; [|eapply arr_not_nil; eauto]. split.
      * cbn [xdenote]. apply rde_request. eapply rme_seq; [cbn; auto|exact Hh|]. cbn.
        replace (zlen xs) with (zlen (map (fun x => (prog x, @None val)) xs)) by (unfold zlen; rewrite map_length; auto).
        eapply rsq_all; [|rewrite map_length; exact Lz|exact Hb]. apply Forall2_map. intros y _ w c [Hr _]. exact Hr.
      * edestruct (fun Q => seq_enc_fmt _ Q b Hb) as (ms & Lm & Hms); [intros q c Hq Hqc; apply zip_app_In in Hq; destruct Hq as (p & w & Hp & _ & ->); apply in_map_iff in Hp; destruct Hp as (y & <- & _); exact (proj2 Hqc)|].
        exists (VArr ms). constructor; auto. replace (zlen ms) with (zlen xs); auto. unfold zlen. rewrite Lm, zip_length; rewrite map_length; lia.
  - destruct v; cbn in H; try tauto. destruct H as [H Hs]. rewrite Forall_forall in H. cbn [xtrace mp_ser].
    eapply sok_imp; [apply (sok_map cfg fl skips l (trace k) (xtrace x) (fun u => back (XTy k) (collapse nullish k u)) (fun u => back x (mp_image x u)))|].
    + intros e He. destruct (H e He) as [H1 H2]. split; (eapply sok_imp; [first [apply ordinary_back; [tauto|exact H1]|apply IH; [tauto|exact H2]]|]; intros b [Hb _]; exact Hb).
    + exact Hs.
    + intros o (h & b & -> & Hh & Hb). unfold comes_back, mp_image. cbn [xnull ximage]. fold mp_image. split; [|eapply map_not_nil; eauto]. split.
      * cbn [xdenote]. apply rde_request. eapply rme_map; [exact Hh|]. cbn. apply rmp_hint.
        set (l' := map (fun e => (collapse nullish k (fst e), mp_image x (snd e))) l).
        replace (zlen l) with (zlen l') by (unfold zlen, l'; rewrite map_length; auto).
        apply (rmp_loop ar fo _ _ (back (XTy k)) (back x) l') with (acc := []); try (intros e c _ [Hr _]; exact Hr).
        unfold l'. rewrite map_map. exact Hb.
      * assert (Q2 : exists ms, zlen ms = zlen l /\ mp_fmt_pairs ms b).
        { clear -Hb. revert b Hb. induction l as [|e l I]; intros b Hb; cbn in Hb; [subst; exists []; split; [reflexivity|constructor]|].
          destruct Hb as (p & q & -> & (y & z & -> & [_ (m1 & M1)] & [_ (m2 & M2)]) & Hb). destruct (I q Hb) as (ms & Lm & Hms).
          exists ((m1, m2) :: ms). rewrite !zlen_cons. split; [lia|]. rewrite <- app_assoc. constructor; auto. }
        destruct Q2 as (ms & Lm & Hms). exists (VMap ms). constructor; auto. rewrite Lm. exact Hh.
  - destruct v; cbn in H; try tauto. destruct H as [Hn H]. apply xstruct_back; auto. fold (mp_made st) in H. clear Hn. revert l H.
    induction IH as [|f fs Hf _ I]; intros [|v l] H; cbn in *; try tauto. destruct H as [H1 H2]. split; [apply Hf; [tauto|exact H1]|apply I; [tauto|exact H2]].
  - cbn [xtrace mp_ser]. eapply sok_imp; [apply (IH Q v H)|]. intros b [Hb Hn]. split; [apply xnewtype_back; exact Hb|exact Hn].
  - destruct v as [| | | | | | | | | | | |i v|]; cbn in H; try tauto. destruct H as [Hn H]. fold (mp_made st) in H. cbn [xtrace]. rewrite nth_error_map in *.
    destruct (nth_error vs i) as [[nm o]|] eqn:Ei; [|cbn in H; tauto]. cbn [option_map snd fst] in *.
    assert (Hnm : nth_error (map fst vs) i = Some nm) by (rewrite nth_error_map, Ei; reflexivity).
    destruct o as [x|]; cbn [option_map] in *; cbn [mp_ser].
    + pose proof (nth_error_In _ _ Ei) as Hi. rewrite Forall_forall in IH. apply (or_all _ _ _ Hi) in Q. cbn [snd] in Q. specialize (IH _ Hi Q v H).
      eapply sok_imp; [apply (sok_variant_map fl skips (map fst vs) i nm _ _ Hn Hnm IH)|]. intros b (k & c & -> & Hk & [Hb _]).
      unfold comes_back, mp_image. cbn [xnull ximage]. rewrite nth_error_map, Ei. cbn [option_map snd]. fold mp_image. split; [|discriminate].
      apply xenum_back; auto. rewrite Ei. eauto 6.
    + subst v. eapply sok_imp; [apply (sok_variant fl skips (map fst vs) i nm Hn Hnm)|]. intros b Hb.
      unfold comes_back, mp_image. cbn [xnull ximage]. rewrite nth_error_map, Ei. cbn [option_map snd]. split; [|eapply ident_not_nil; eauto].
      apply xenum_back; auto. rewrite Ei. auto.
Qed.

End N.

Theorem mp_nested_trip ar fo cfg fl x v out tail : arch32up ar -> 2 ^ 32 - 1 <= cfg_usize_max cfg -> mp_made (style_of fl) x v ->
  mp_to_vec cfg fl (xtrace x v) = Ok out -> slice_of ar (out ++ tail) ->
  exists N, forall fuel, (N <= fuel)%nat ->
    exists s, mp_from_slice ar fo fuel (xdenote fo DeserializeError x) (out ++ tail) = Done s (Ok (mp_image x v, zlen out)).
Proof.
  intros A32 Hc H E Hs. destruct (nested_back ar fo cfg fl Hc True x (or_introl I) v H) as [(o & He & [[[N HN] _] _])|(_ & o & e & He)]; apply to_vec_emits in He; [|congruence].
  assert (o = out) by congruence. subst o. exists N. intros fuel Hf. eapply MpDeTop.from_slice_reads; eauto.
Qed.
Theorem mp_writable cfg fl x v : 2 ^ 32 - 1 <= cfg_usize_max cfg -> fl <> Compact \/ xplain x -> mp_made (style_of fl) x v -> exists out, mp_to_vec cfg fl (xtrace x v) = Ok out.
Proof.
  intros Hc N H.
  destruct (nested_back {| usize_max := 2 ^ 64; overflow_checks := false |}
    {| int_to_f32 := fun z => z; int_to_f64 := fun z => z; f64_to_f32 := fun z => z; f32_to_f64 := fun z => z |} cfg fl Hc (fl <> Compact) x N v H) as [(o & He & _)|((C & S) & _)]; [|contradiction].
  apply to_vec_emits in He. eauto.
Qed.

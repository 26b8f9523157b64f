(** What one program writes as MessagePack reads as the specified value of another
    program's type (C68). *)
From Verif Require Import MpDe MpDeTop Prelude PreludeFacts Utf8 Utf8Spec Utf8Facts SerdeSer SerdeDe MpSpec MpBytesSpec MpSer MpErrMap MpSerProofs MpSerFacts MpBytes
  MpSerSim FloatOps Types TypesFacts MpTypeSpec JsonTypeSpec MpTyped MpTypedSer MpTypedTop EvolveSpec EvolveFacts.
Local Notation prog t := (denote DeserializeError t).
Ltac Zify.zify_post_hook ::= Z.div_mod_to_equations.

(** ** Headers *)
Lemma arr_head_ok n : 0 <= n < 2 ^ 32 -> arr_hdr n (arr_head n).
Proof.
  intros H. unfold arr_head, head. change (256 ^ Z.of_nat 2) with 65536. change (256 ^ Z.of_nat 4) with (2 ^ 32).
  destruct (n <? 16) eqn:L1; [constructor; lia|]. destruct (n <? 65536) eqn:L2.
  { apply AH_16, uint_be_bytes. cbn. lia. }
  replace (n <? 2 ^ 32) with true by lia. apply AH_32, uint_be_bytes. cbn. lia.
Qed.
Lemma map_head_ok n : 0 <= n < 2 ^ 32 -> map_hdr n (map_head n).
Proof.
  intros H. unfold map_head, head. change (256 ^ Z.of_nat 2) with 65536. change (256 ^ Z.of_nat 4) with (2 ^ 32).
  destruct (n <? 16) eqn:L1; [constructor; lia|]. destruct (n <? 65536) eqn:L2.
  { apply MH_16, uint_be_bytes. cbn. lia. }
  replace (n <? 2 ^ 32) with true by lia. apply MH_32, uint_be_bytes. cbn. lia.
Qed.
Lemma str_head_ok n : 0 <= n < 2 ^ 32 -> str_hdr n (str_head n).
Proof.
  intros H. unfold str_head, head. change (256 ^ Z.of_nat 1) with 256. change (256 ^ Z.of_nat 2) with 65536. change (256 ^ Z.of_nat 4) with (2 ^ 32).
  destruct (n <? 32) eqn:L1; [constructor; lia|]. destruct (n <? 256) eqn:L0.
  { apply SH_8, uint_be_bytes. cbn. lia. }
  destruct (n <? 65536) eqn:L2. { apply SH_16, uint_be_bytes. cbn. lia. }
  replace (n <? 2 ^ 32) with true by lia. apply SH_32, uint_be_bytes. cbn. lia.
Qed.
Lemma bin_head_ok n : 0 <= n < 2 ^ 32 -> bin_hdr n (bin_head n).
Proof.
  intros H. unfold bin_head, head. change (256 ^ Z.of_nat 1) with 256. change (256 ^ Z.of_nat 2) with 65536. change (256 ^ Z.of_nat 4) with (2 ^ 32).
  replace (n <? 0) with false by lia. destruct (n <? 256) eqn:L0.
  { apply BH_8, uint_be_bytes. cbn. lia. }
  destruct (n <? 65536) eqn:L2. { apply BH_16, uint_be_bytes. cbn. lia. }
  replace (n <? 2 ^ 32) with true by lia. apply BH_32, uint_be_bytes. cbn. lia.
Qed.
Lemma str_bytes_ok s : zlen s < 2 ^ 32 -> str_enc s (str_bytes s).
Proof. intros H. exists (str_head (zlen s)). split; [apply str_head_ok; unfold zlen in *; lia|auto]. Qed.
Lemma index_ok i : 0 <= i < 2 ^ 32 -> ident_int i (int_bytes false i).
Proof.
  intros H. unfold int_bytes, unsigned_in. change (2 ^ (8 * Z.of_nat 1)) with 256. change (2 ^ (8 * Z.of_nat 2)) with 65536. change (2 ^ (8 * Z.of_nat 4)) with (2 ^ 32).
  destruct ((-32 <=? i) && (i <? 128)) eqn:L. { rewrite Z.mod_small by lia. constructor. lia. }
  destruct ((0 <=? i) && (i <? 256)) eqn:L1. { apply II_u8, uint_be_bytes. cbn. lia. }
  destruct ((0 <=? i) && (i <? 65536)) eqn:L2. { apply II_u16, uint_be_bytes. cbn. lia. }
  replace ((0 <=? i) && (i <? 2 ^ 32)) with true by lia. apply II_u32, uint_be_bytes. cbn. lia.
Qed.
Lemma lt32_spec n : lt32 n = true <-> 0 <= n < 2 ^ 32.
Proof. unfold lt32. lia. Qed.

Section E.
Context (st : style) (fo : float_ops).
Local Notation B := (mp_bytes st).
Definition good (x : sval) : Prop := sval_ok x /\ mp_doc st x <> None.

Lemma bytes_fmt x : good x -> exists m, mp_doc st x = Some m /\ mp_fmt m (B x).
Proof.
  intros [Hv Hd]. set (fl := match st with SArray => Compact | SIndexMap => StructMapIdx | SNameMap => StructMapStr end).
  assert (Hs : style_of fl = st) by (unfold fl; destruct st; auto). set (cfg := {| cfg_alloc := true; cfg_usize_max := 2 ^ 64 |}).
  assert (Hc : 2 ^ 32 - 1 <= cfg_usize_max cfg) by (cbn; lia).
  assert (HB : mp_to_vec cfg fl x = Ok (B x)). { apply (to_vec_bytes cfg fl x Hv Hc). rewrite Hs. auto. }
  apply (to_vec_ok_documented cfg fl x _ Hv Hc) in HB. rewrite Hs in HB. exact HB.
Qed.
Lemma int_bytes_fmt k z : in_ikind k z -> int_fmt z (int_bytes (signed_kind k) z).
Proof.
  intros H. destruct (bytes_fmt (SInt k z)) as (m & [= <-] & F); [split; [exact H|discriminate]|]. inversion F. auto.
Qed.

Lemma bare_bytes x : B (bare x) = B x.
Proof. induction x using sval_ind'; auto. Qed.
Lemma bare_doc x : mp_doc st (bare x) = mp_doc st x.
Proof. induction x using sval_ind'; auto. Qed.
Lemma bare_ok x : sval_ok x -> sval_ok (bare x).
Proof. induction x using sval_ind'; auto. Qed.
Lemma bare_good x : good x -> good (bare x).
Proof. intros [H1 H2]. split; [apply bare_ok; auto|rewrite bare_doc; auto]. Qed.
Lemma bare_bare x : match bare x with SSome _ | SNewtypeStruct _ => False | _ => True end.
Proof. induction x using sval_ind'; cbn; auto. Qed.

Lemma fmt_text_utf8 p : fmt_all valid_utf8 p -> forall s, fmt_text p = Some s -> valid_utf8 s.
Proof.
  induction p as [ok|c k1 IH1 k2 IH2]; cbn; intros H s E.
  - destruct ok; [|discriminate]. injection E as <-. apply valid_utf8_nil.
  - destruct (fmt_text k1) as [r|]; [|discriminate]. injection E as <-. apply valid_utf8_app; [tauto|]. apply IH1; tauto.
Qed.
Lemma doc_str_some s : doc_str s <> None -> zlen s < 2 ^ 32.
Proof. unfold doc_str. destruct (lt32 (zlen s)) eqn:L; [|congruence]. apply lt32_spec in L. lia. Qed.
Lemma text_bytes x s : mp_text st x = Some s -> good x -> valid_utf8 s /\ B x = str_bytes s /\ zlen s < 2 ^ 32.
Proof.
  intros T [Hv Hd]. destruct x; cbn [mp_text] in T; try discriminate; cbn [sval_ok mp_doc mp_bytes] in *.
  - injection T as <-. split; [apply valid_utf8_char; auto|]. split; auto. unfold zlen, utf8_char.
    repeat match goal with |- context [if ?b then _ else _] => destruct b end; cbn [length]; lia.
  - injection T as <-. auto using doc_str_some.
  - unfold tag_bytes, doc_variant in *. destruct st; try discriminate. injection T as <-. destruct Hv. auto using doc_str_some.
  - rewrite T in *. destruct Hv as (_ & _ & _ & Hv & _). eauto using fmt_text_utf8, doc_str_some.
Qed.

(** Only these are nil. *)
Lemma nil_bytes x : mp_null x = true -> B x = [0xc0].
Proof. destruct x; try discriminate; auto. Qed.
Lemma doc_array_some n l m : doc_array n l = Some m -> exists l', m = VArr l'.
Proof. unfold doc_array. destruct l; [|discriminate]. destruct (_ && _); [|discriminate]. intros [= <-]. eauto. Qed.
Lemma doc_map_some n l m : doc_map n l = Some m -> exists l', m = VMap l'.
Proof. unfold doc_map. destruct l; [|discriminate]. destruct (_ && _); [|discriminate]. intros [= <-]. eauto. Qed.
Lemma not_nil_doc x : mp_null x = false -> match x with SSome _ | SNewtypeStruct _ => False | _ => True end -> mp_doc st x <> Some VNil.
Proof.
  intros N X D. destruct x; try discriminate; try contradiction; cbn [mp_doc] in D; try discriminate; unfold doc_str, doc_variant, variant_map in D.
  - destruct (lt32 _); discriminate.
  - destruct (lt32 _); discriminate.
  - destruct st; try discriminate. unfold doc_str in D. destruct (lt32 _); discriminate.
  - destruct (match st with SNameMap => _ | _ => _ end); [|discriminate]. destruct (mp_doc st x); discriminate.
  - destruct len; [|discriminate]. apply doc_array_some in D. destruct D. discriminate.
  - apply doc_array_some in D. destruct D. discriminate.
  - apply doc_array_some in D. destruct D. discriminate.
  - destruct (match st with SNameMap => _ | _ => _ end); [|discriminate]. destruct (doc_array _ _); discriminate.
  - destruct len; [|discriminate]. destruct (omap _ ops); [|discriminate]. apply doc_map_some in D. destruct D. discriminate.
  - unfold doc_struct in D. destruct (omap _ fields); [|discriminate].
    destruct st; [apply doc_array_some in D|apply doc_map_some in D|apply doc_map_some in D]; destruct D; discriminate.
  - destruct (match st with SNameMap => _ | _ => _ end); [|discriminate]. destruct (doc_struct _ _ _); discriminate.
  - destruct (fmt_text _); [|discriminate]. destruct (lt32 _); discriminate.
Qed.
Lemma nil_fmt m : mp_fmt m [0xc0] -> m = VNil.
Proof.
  intros H. inversion H; subst; auto; exfalso.
  - eapply int_not_nil; eauto.
  - eapply str_not_nil; eauto.
  - match goal with X : bin_hdr _ ?h, Y : ?h ++ _ = _ |- _ => inversion X; subst; cbn [app] in Y; apply cons_inj in Y; destruct Y; lia end.
  - eapply arr_not_nil; eauto.
  - eapply map_not_nil; eauto.
  - match goal with X : ext_hdr _ ?h, Y : ?h ++ _ = _ |- _ => inversion X; subst; cbn [app] in Y; apply cons_inj in Y; destruct Y; lia end.
Qed.
Lemma not_nil x : good x -> mp_null (bare x) = false -> B x <> [0xc0].
Proof.
  intros G N E. apply bare_good in G. rewrite <- bare_bytes in E. destruct (bytes_fmt _ G) as (m & D & F). rewrite E in F. apply nil_fmt in F. subst.
  exact (not_nil_doc _ N (bare_bare x) D).
Qed.

(** ** The parts *)
Lemma omap_some {A C} (f : A -> option C) l : omap f l <> None -> Forall (fun x => f x <> None) l.
Proof.
  induction l as [|x l IH]; intros H; constructor; cbn [omap] in H; fold (omap f l) in H; destruct (f x); try congruence.
  apply IH. intros E. rewrite E in H. congruence.
Qed.
Lemma omap_zlen {A C} (f : A -> option C) l : forall r, omap f l = Some r -> zlen r = zlen l.
Proof.
  induction l as [|x l IH]; intros r H; [injection H as <-; auto|]. apply omap_cons in H. destruct H as (y & zs & _ & H & ->).
  rewrite !zlen_cons. rewrite (IH _ H). auto.
Qed.
Lemma array_good n l : all_list sval_ok l -> doc_array n (omap (mp_doc st) l) <> None -> Forall good l /\ zlen l < 2 ^ 32.
Proof.
  intros Hv H. apply all_list_Forall in Hv. unfold doc_array in H. destruct (omap (mp_doc st) l) as [vs|] eqn:O; [|congruence]. destruct (_ && _) eqn:L; [|congruence].
  pose proof (omap_zlen _ _ _ O) as HL. apply andb_prop in L. destruct L as [L1 L2]. apply lt32_spec in L2. split; [|lia].
  assert (O' : omap (mp_doc st) l <> None) by congruence. apply omap_some in O'. rewrite Forall_forall in *. split; auto.
Qed.
Lemma items_good x xs : items_of x = Some xs -> good x -> Forall good xs /\ zlen xs < 2 ^ 32 /\ B x = arr_head (zlen xs) ++ flat_map B xs.
Proof.
  intros I [Hv Hd]. destruct x; try discriminate; injection I as ->; cbn [sval_ok mp_doc mp_bytes] in *.
  - destruct len as [n|]; [|congruence]. destruct (array_good n xs (proj2 Hv) Hd). auto.
  - destruct (array_good _ xs (proj2 Hv) Hd). auto.
  - destruct (array_good _ xs (proj2 Hv) Hd). auto.
Qed.
Lemma variant_good x i n c : variant_of x = Some (i, n, c) -> good x ->
  good c /\ is_u32 i /\ valid_utf8 n /\ doc_variant st i n <> None /\ B x = 0x81 :: tag_bytes st i n ++ B c.
Proof.
  intros V [Hv Hd]. destruct x; try discriminate; injection V as <- <- <-; cbn [sval_ok mp_doc mp_bytes] in *; unfold variant_map in Hd;
    (destruct (doc_variant _ _ _) as [d|] eqn:D; [|congruence]); (split; [split|]); try tauto; try (cbn [sval_ok]; tauto).
  - intros E. rewrite E in Hd. congruence.
  - split; [tauto|]. split; [tauto|]. split; [discriminate|]. reflexivity.
  - cbn [mp_doc]. intros E. rewrite E in Hd. congruence.
  - split; [tauto|]. split; [tauto|]. split; [discriminate|]. reflexivity.
  - cbn [mp_doc]. intros E. rewrite E in Hd. congruence.
  - split; [tauto|]. split; [tauto|]. split; [discriminate|]. reflexivity.
Qed.
Lemma pair_up_good l : forall es, pair_up l = Some es -> Forall (fun o => sval_ok (snd o)) l ->
  omap (fun o => option_map (pair (fst o)) (mp_doc st (snd o))) l <> None ->
  Forall (fun e => good (fst e) /\ good (snd e)) es /\ zlen (filter fst l) = zlen es /\
  flat_map (fun o => B (snd o)) l = flat_map (fun e => B (fst e) ++ B (snd e)) es.
Proof.
  induction l as [l IH] using list_ind_strong. intros es H F O. destruct l as [|[[] k] l]; cbn [pair_up] in H; try discriminate.
  { injection H as <-. auto. }
  destruct l as [|[[] v] l]; try discriminate. destruct (pair_up l) as [es'|] eqn:P; [|discriminate]. injection H as <-.
  destruct (omap _ _) as [r|] eqn:R in O; [|congruence]. apply omap_cons in R. destruct R as (y & zs & Gk & R & ->).
  apply omap_cons in R. destruct R as (y' & zs' & Gv & R & ->). cbn [fst snd] in Gk, Gv.
  inversion F as [|? ? F1 F']; subst. inversion F' as [|? ? F2 F'']; subst. cbn [snd] in F1, F2.
  assert (H1 : good k /\ good v). { split; split; auto; intros E; rewrite E in *; discriminate. }
  destruct (IH l ltac:(cbn; lia) es' P F'' ltac:(congruence)) as (A1 & A2 & A3). split; [|split].
  - constructor; auto.
  - cbn [filter fst]. rewrite !zlen_cons. lia.
  - cbn [flat_map snd]. rewrite A3. rewrite <- app_assoc. auto.
Qed.

(** Fields. *)
Definition fok (f : bytes * option sval) : Prop := valid_utf8 (fst f) /\ match snd f with Some x => sval_ok x | None => True end.
Local Notation fdoc := (fun f : bytes * option sval => match snd f with None => Some (fst f, None) | Some x => option_map (fun m => (fst f, Some m)) (mp_doc st x) end).
Lemma index_doc fs : forall ds i, omap fdoc fs = Some ds -> zlen (doc_fields_index i ds) = present fs.
Proof.
  induction fs as [|[n [x|]] fs IH]; intros ds i H; [injection H as <-; auto| |]; apply omap_cons in H; destruct H as (y & zs & Gk & R & ->); cbn [fst snd] in Gk.
  - destruct (mp_doc st x) as [m|]; [|discriminate]. injection Gk as <-. cbn [doc_fields_index]. rewrite zlen_cons, (IH zs _ R).
    unfold present. cbn [filter snd]. rewrite zlen_cons. auto.
  - injection Gk as <-. cbn [doc_fields_index]. rewrite (IH zs _ R). auto.
Qed.
Lemma name_doc fs : forall ds r, omap fdoc fs = Some ds -> doc_fields_name ds = Some r ->
  zlen r = present fs /\ Forall (fun f => zlen (fst f) < 2 ^ 32) (written fs).
Proof.
  induction fs as [|[n [x|]] fs IH]; intros ds r H N; [injection H as <-; injection N as <-; split; auto; constructor| |]; apply omap_cons in H; destruct H as (y & zs & Gk & R & ->); cbn [fst snd] in Gk.
  - destruct (mp_doc st x) as [m|]; [|discriminate]. injection Gk as <-. cbn [doc_fields_name] in N.
    destruct (doc_str n) eqn:S1; [|discriminate]. destruct (doc_fields_name zs) as [r'|] eqn:N'; [|discriminate]. injection N as <-.
    destruct (IH zs r' R N') as [A1 A2]. rewrite zlen_cons, A1. unfold present. cbn [filter snd]. rewrite zlen_cons. split; auto.
    unfold written. cbn [flat_map fst snd app]. constructor; [|exact A2]. cbn. apply doc_str_some. congruence.
  - injection Gk as <-. cbn [doc_fields_name] in N. destruct (IH zs r R N) as [A1 A2]. rewrite A1. auto.
Qed.
Lemma array_doc fs : forall ds r, omap fdoc fs = Some ds -> doc_fields_array ds = Some r ->
  zlen r = present fs /\ forall i n, field_at fs i n = nth_error (map snd (written fs)) i.
Proof.
  induction fs as [|[n [x|]] fs IH]; intros ds r H N.
  - injection H as <-; injection N as <-. split; auto. intros [|i] m; reflexivity.
  - apply omap_cons in H; destruct H as (y & zs & Gk & R & ->); cbn [fst snd] in Gk.
    destruct (mp_doc st x) as [m|]; [|discriminate]. injection Gk as <-. cbn [doc_fields_array] in N.
    destruct (doc_fields_array zs) as [r'|] eqn:N'; [|discriminate]. injection N as <-.
    destruct (IH zs r' R N') as [A1 A2]. rewrite zlen_cons, A1. unfold present. cbn [filter snd]. rewrite zlen_cons. split; auto.
    intros [|i] k; [reflexivity|]. exact (A2 i k).
  - apply omap_cons in H; destruct H as (y & zs & Gk & R & ->); cbn [fst snd] in Gk. injection Gk as <-. cbn [doc_fields_array] in N.
    destruct (forallb _ zs) eqn:FA; [|discriminate]. injection N as <-.
    assert (W : forall g, In g fs -> snd g = None).
    { clear - R FA. revert zs R FA. induction fs as [|[k [x|]] fs IH]; intros zs R FA g []; subst; apply omap_cons in R; destruct R as (y & zs' & Gk & R & ->); cbn [fst snd] in *.
      - destruct (mp_doc st x); [|discriminate]. injection Gk as <-. discriminate.
      - destruct (mp_doc st x); [|discriminate]. injection Gk as <-. discriminate.
      - auto.
      - injection Gk as <-. cbn [forallb snd] in FA. apply (IH zs'); auto. }
    assert (W' : written fs = []).
    { clear - W. induction fs as [|[k x] fs IH]; auto. unfold written. cbn [flat_map fst snd]. rewrite (W (k, x) (or_introl eq_refl) : x = None). apply IH. intros g Hg. apply W. right. auto. }
    split.
    + unfold present. cbn [filter snd]. change (filter _ fs) with (filter (fun f : bytes * option sval => match snd f with Some _ => true | None => false end) fs). fold (present fs). rewrite <- written_present, W'. auto.
    + intros i k. unfold written. cbn [flat_map fst snd app]. fold (written fs). rewrite W'. unfold field_at. destruct i as [|i]; cbn; auto.
      destruct (nth_error fs i) as [[k' x]|] eqn:E; auto. apply nth_error_In in E. apply W in E. exact E.
Qed.
Lemma fdoc_good fs : Forall fok fs -> omap fdoc fs <> None -> Forall (fun f => valid_utf8 (fst f) /\ good (snd f)) (written fs).
Proof.
  intros F O. apply omap_some in O. rewrite Forall_forall in *. intros [n x] H. apply written_in in H. specialize (F _ H). specialize (O _ H). destruct F. cbn [fst snd] in *.
  split; auto. split; auto. intros E. rewrite E in O. cbn in O. congruence.
Qed.

Lemma index_bytes fs : forall i, st = SIndexMap -> field_bytes st B i fs = flat_map (fun e => B (fst e) ++ B (snd e)) (indexed i fs) /\ zlen (indexed i fs) = present fs.
Proof.
  intros i Hs. revert i. induction fs as [|[n [x|]] fs IH]; intros i; [split; reflexivity| |]; destruct (IH (i + 1)) as [A1 A2]; unfold present in *; cbn [field_bytes indexed flat_map fst snd filter].
  - fold (field_bytes st B (i + 1) fs). rewrite !zlen_cons, A1, A2. rewrite <- app_assoc. split; auto.
    rewrite Hs at 1. reflexivity.
  - split; [exact A1|auto].
Qed.
Lemma indexed_in fs : forall i e, In e (indexed i fs) -> exists k n x, nth_error fs k = Some (n, Some x) /\ e = (SInt U32 (i + Z.of_nat k), x).
Proof.
  induction fs as [|[n [x|]] fs IH]; intros i e H; cbn [indexed] in H; [destruct H| |].
  - destruct H as [<-|H].
    + exists 0%nat, n, x. rewrite Z.add_0_r. auto.
    + destruct (IH _ _ H) as (k & n' & x' & E1 & ->). exists (S k), n', x'. split; auto. f_equal. f_equal. lia.
  - destruct (IH _ _ H) as (k & n' & x' & E1 & ->). exists (S k), n', x'. split; auto. f_equal. f_equal. lia.
Qed.
Lemma indexed_of fs : forall i k n x, nth_error fs k = Some (n, Some x) -> In (SInt U32 (i + Z.of_nat k), x) (indexed i fs).
Proof.
  induction fs as [|[m [y|]] fs IH]; intros i [|k] n x H; cbn [nth_error] in H; try discriminate; cbn [indexed].
  - injection H as _ ->. left. f_equal. f_equal. lia.
  - right. replace (i + Z.of_nat (S k)) with (i + 1 + Z.of_nat k) by lia. eapply IH; eauto.
  - replace (i + Z.of_nat (S k)) with (i + 1 + Z.of_nat k) by lia. eapply IH; eauto.
Qed.
Lemma name_bytes fs : forall i, st = SNameMap -> field_bytes st B i fs = flat_map (fun e => B (fst e) ++ B (snd e)) (map (fun f => (SStr (fst f), snd f)) (written fs)).
Proof.
  intros i Hs. revert i. induction fs as [|[n [x|]] fs IH]; intros i; [reflexivity| |]; unfold written; cbn [field_bytes flat_map map app fst snd]; fold (field_bytes st B (i + 1) fs); rewrite IH; auto.
  rewrite <- app_assoc. rewrite Hs at 1. reflexivity.
Qed.
Lemma array_bytes fs : forall i, st = SArray -> field_bytes st B i fs = flat_map B (map snd (written fs)).
Proof.
  intros i Hs. revert i. induction fs as [|[n [x|]] fs IH]; intros i; [reflexivity| |]; unfold written; cbn [field_bytes flat_map map app fst snd]; fold (field_bytes st B (i + 1) fs); rewrite IH; auto.
  rewrite Hs at 1. reflexivity.
Qed.

Lemma entries_good x es : entries_of st x = Some es -> good x ->
  Forall (fun e => good (fst e) /\ good (snd e)) es /\ zlen es < 2 ^ 32 /\ B x = map_head (zlen es) ++ flat_map (fun e => B (fst e) ++ B (snd e)) es.
Proof.
  intros I [Hv Hd]. destruct x; try discriminate; cbn [entries_of sval_ok mp_doc mp_bytes] in *.
  - destruct len as [n|]; [|congruence]. destruct (omap _ ops) as [r|] eqn:O; [|congruence]. destruct Hv as (_ & _ & Hv). apply all_list_Forall in Hv.
    destruct (pair_up_good ops es I Hv ltac:(congruence)) as (A1 & A2 & A3). rewrite A2, A3. split; auto. split; auto.
    unfold doc_map in Hd. destruct (pair_up r) as [r'|] eqn:P; [|congruence]. destruct (_ && _) eqn:L; [|congruence]. apply andb_prop in L.
    destruct L as [L1 L2]. apply lt32_spec in L2. assert (zlen r' = zlen es); [|lia].
    clear - O I P. revert es r r' O I P. induction ops as [l IH] using list_ind_strong. intros es r r' O I P. destruct l as [|[[] k] l]; cbn [pair_up] in I; try discriminate.
    { injection O as <-. injection P as <-. injection I as <-. auto. }
    destruct l as [|[[] v] l]; try discriminate. destruct (pair_up l) as [es'|] eqn:P'; [|discriminate]. injection I as <-.
    apply omap_cons in O. destruct O as (y & zs & Gk & O & ->). apply omap_cons in O. destruct O as (y' & zs' & Gv & O & ->). cbn [fst snd] in *.
    destruct (mp_doc st k); [|discriminate]. destruct (mp_doc st v); [|discriminate]. injection Gk as <-. injection Gv as <-. cbn [pair_up] in P.
    destruct (pair_up zs') as [p'|] eqn:P2; [|discriminate]. injection P as <-. rewrite !zlen_cons. f_equal. eapply IH; eauto. cbn. lia.
  - destruct Hv as (_ & Hn & Hv). apply all_list_Forall in Hv. unfold doc_struct in Hd. destruct (omap _ fields) as [ds|] eqn:O; [|congruence].
    pose proof (fdoc_good fields Hv ltac:(congruence)) as G. unfold struct_bytes.
    pose proof (index_doc fields ds 0 O) as HI. pose proof (fun r => name_doc fields ds r O) as HN. pose proof (index_bytes fields 0) as IB. pose proof (name_bytes fields 0) as NB.
    destruct st eqn:Hs; try discriminate; injection I as <-.
    + unfold doc_map in Hd. rewrite HI in Hd. destruct (_ && _) eqn:L; [|congruence]. apply andb_prop in L. destruct L as [L1 L2]. apply lt32_spec in L2.
      destruct (IB eq_refl) as [E1 E2]. rewrite E1, E2. split; [|split; [lia|auto]].
      apply Forall_forall. intros e He. apply indexed_in in He. destruct He as (k & n & x & Hk & ->). cbn [fst snd]. split.
      * split; [|discriminate]. assert (k < length fields)%nat by (apply nth_error_Some; congruence). unfold zlen in Hn. cbn. unfold in_ikind. cbn. lia.
      * rewrite Forall_forall in G. apply nth_error_In, written_in in Hk. apply G in Hk. tauto.
    + unfold doc_map in Hd. destruct (doc_fields_name ds) as [r|] eqn:N; [|congruence]. destruct (_ && _) eqn:L; [|congruence]. apply andb_prop in L. destruct L as [L1 L2]. apply lt32_spec in L2.
      destruct (HN _ eq_refl) as [A1 A2]. rewrite (NB eq_refl). unfold zlen at 1 2. rewrite !map_length. fold (zlen (written fields)). rewrite written_present.
      split; [|split; [lia|auto]]. apply Forall_forall. intros e He. apply in_map_iff in He. destruct He as (f & <- & Hf). cbn [fst snd].
      rewrite Forall_forall in *. specialize (G f Hf). specialize (A2 f Hf). assert (zlen (fst f) < 2 ^ 32) by exact A2. pose proof (zlen_nonneg (fst f)). split; [|tauto]. split; [tauto|]. cbn [mp_doc]. unfold doc_str.
      replace (lt32 (zlen (fst f))) with true; [discriminate|]. symmetry. apply lt32_spec. lia.
Qed.
Lemma array_struct_good len its : st = SArray -> good (SStruct len its) -> let xs := map snd (written its) in
  Forall good xs /\ zlen xs < 2 ^ 32 /\ B (SStruct len its) = arr_head (zlen xs) ++ flat_map B xs /\ forall i n, field_at its i n = nth_error xs i.
Proof.
  intros Hs [Hv Hd]. cbn [sval_ok mp_doc mp_bytes] in *. destruct Hv as (_ & Hn & Hv). apply all_list_Forall in Hv. unfold doc_struct in Hd. destruct (omap _ its) as [ds|] eqn:O; [|congruence].
  pose proof (fdoc_good its Hv ltac:(congruence)) as G. rewrite Hs in Hd. unfold doc_array in Hd. destruct (doc_fields_array ds) as [r|] eqn:N; [|congruence].
  destruct (array_doc _ _ _ O N) as [A1 A2]. destruct (_ && _) eqn:L; [|congruence]. apply andb_prop in L. destruct L as [L1 L2]. apply lt32_spec in L2.
  assert (Hz : zlen (map snd (written its)) = present its). { rewrite <- written_present. unfold zlen. rewrite map_length. auto. }
  cbn zeta. rewrite Hz. split; [|split; [lia|split; [|exact A2]]].
  - apply Forall_forall. intros x Hx. apply in_map_iff in Hx. destruct Hx as (f & <- & Hf). rewrite Forall_forall in G. apply G in Hf. tauto.
  - unfold struct_bytes. rewrite (array_bytes its 0 Hs). replace (match st with SArray => arr_head | _ => map_head end) with arr_head by (rewrite Hs; auto). auto.
Qed.

(** ** Structs *)
Lemma seq_enc_of (ps : list (val -> bytes -> Prop)) : forall l xs, all3 (fun p v x => p v (B x)) ps l xs -> seq_enc (zip (fun p v => p v) ps l) (flat_map B xs).
Proof.
  induction ps as [|p ps IH]; intros [|v l] [|x xs] H; cbn in H; try tauto; cbn; auto. destruct H as [H1 H2]. exists (B x), (flat_map B xs). auto.
Qed.
Lemma all3_len {A C D} (P : A -> C -> D -> Prop) l : forall m n, all3 P l m n -> length m = length l /\ length n = length l.
Proof. induction l as [|a l IH]; intros [|b m] [|c n] H; cbn in H; try tauto; auto. destruct H as [_ H]. apply IH in H. cbn. lia. Qed.

(** By position. *)
Lemma fields_array look fs : forall ps (qs : list (val -> bytes -> Prop)) l xs k, fits_fields look has_default k fs ps l -> length qs = length fs ->
  (forall i n, look (k + i)%nat n = nth_error xs i) -> (length xs <= length fs)%nat ->
  (forall i p q v x, nth_error ps i = Some p -> nth_error qs i = Some q -> In x xs -> p v x -> q v (B x)) ->
  length l = length fs /\ all3 (fun q v x => q v (B x)) (firstn (length xs) qs) (firstn (length xs) l) xs /\
  all2 (fun f v => attr_of f = FDefault v) (skipn (length xs) fs) (skipn (length xs) l).
Proof.
  induction fs as [|f fs IH]; intros [|p ps] [|q qs] [|v l] xs k H L Hl Hx Hp; cbn in H, L; try tauto; try discriminate.
  - destruct xs; cbn in *; [auto|lia].
  - destruct H as [H1 H2]. pose proof (Hl 0%nat (name_of f)) as Hl0. rewrite Nat.add_0_r in Hl0. rewrite Hl0 in H1. destruct xs as [|x xs]; cbn [nth_error] in H1.
    + destruct (IH ps qs l [] (S k) H2 ltac:(lia)) as (A1 & A2 & A3); cbn in *; try lia.
      { intros i n. replace (S (k + i)) with (k + S i)%nat by lia. rewrite Hl. destruct i; auto. }
      repeat split; auto.
    + cbn [length] in Hx. destruct (IH ps qs l xs (S k) H2 ltac:(lia)) as (A1 & A2 & A3); try lia.
      { intros i n. replace (S k + i)%nat with (k + S i)%nat by lia. rewrite Hl. auto. }
      { intros i p' q' v' x' E1 E2 I. apply (Hp (S i)); auto. right. auto. }
      cbn [length firstn skipn all3]. repeat split; auto; try lia. apply (Hp 0%nat p q v x); cbn; auto.
Qed.

(** By key. *)
Section ByKey.
Context (fs : list (bytes * fattr * ty)) (ps : list (val -> sval -> Prop)) (qs : list (val -> bytes -> Prop)) (l : list val) (look : nat -> bytes -> option sval)
  (es : list (sval * sval)) (r : sval * sval -> option nat).
Local Notation names := (map name_of fs).
Context (Hf : fits_fields look absent_ok 0 fs ps l) (Hq : length qs = length fs)
  (Hp : forall i p q v e, nth_error ps i = Some p -> nth_error qs i = Some q -> In e es -> p v (snd e) -> q v (B (snd e)))
  (Hg : Forall (fun e => good (fst e) /\ good (snd e)) es)
  (Hk : forall e i, In e es -> r e = Some i -> exists f, nth_error fs i = Some f /\ ident_enc names i (B (fst e)) /\ look i (name_of f) = Some (snd e))
  (Hu : forall e, In e es -> r e = None -> unknown_enc names (B (fst e)))
  (Hd : NoDup (flat_map (fun e => match r e with Some i => [i] | None => [] end) es))
  (Hc : forall i f x, nth_error fs i = Some f -> look i (name_of f) = Some x -> exists e, In e es /\ r e = Some i).

Local Notation known := (flat_map (fun e => match r e with Some i => [i] | None => [] end)).
Lemma by_key_entries : (length l = length fs) -> forall es', incl es' es -> NoDup (known es') -> forall got, length got = length fs ->
  (forall i, In i (known es') -> nth_error got i = Some None) ->
  entries names qs got (zlen es') (flat_map (fun e => B (fst e) ++ B (snd e)) es') (mark l r es' got).
Proof.
  intros L2. destruct (fits_fields_nth _ _ _ _ _ _ Hf) as (L1 & _ & Hn). induction es' as [|e es' IH]; intros Hi N got Lg H; [constructor|].
  assert (He : In e es) by (apply Hi; left; auto). assert (Hi' : incl es' es) by (intros x Hx; apply Hi; right; auto).
  rewrite zlen_cons. cbn [flat_map]. rewrite <- app_assoc. change (mark l r (e :: es') got) with (mark l r es' (match r e with Some i => set_nth got i (nth_error l i) | None => got end)).
  cbn [flat_map] in N, H. rewrite Forall_forall in Hg. destruct (Hg e He) as [_ G].
  destruct (r e) as [i|] eqn:R.
  - destruct (Hk e i He R) as (f & Ef & Hid & Hlk). assert (Hlt : (i < length fs)%nat) by (apply nth_error_Some; congruence).
    destruct (nth_error l i) as [v|] eqn:Ev; [|apply nth_error_None in Ev; lia].
    destruct (nth_error ps i) as [p|] eqn:Ep; [|apply nth_error_None in Ep; lia].
    destruct (nth_error qs i) as [q|] eqn:Eq; [|apply nth_error_None in Eq; lia].
    specialize (Hn i f p v Ef Ep Ev). cbn [Nat.add] in Hn. rewrite Hlk in Hn. cbn [app] in N, H. inversion N as [|? ? N1 N2]; subst.
    eapply EN_field; [apply H; left; auto|exact Eq|exact Hid|eapply Hp; eauto|].
    apply IH; auto; [rewrite set_nth_len; auto|]. intros j Hj. rewrite nth_set_nth. destruct (Nat.eqb_spec i j) as [->|D]; [tauto|]. apply H. right. auto.
  - destruct (bytes_fmt _ G) as (m & _ & F). eapply EN_unknown; eauto.
Qed.
Lemma by_key : exists got, entries names qs (map (fun _ => None) fs) (zlen es) (flat_map (fun e => B (fst e) ++ B (snd e)) es) got /\ all_fields fs got l.
Proof.
  destruct (fits_fields_nth _ _ _ _ _ _ Hf) as (L1 & L2 & Hn). exists (mark l r es (map (fun _ => None) fs)). split.
  - apply by_key_entries; auto; [intros x Hx; auto|apply map_length|]. intros i Hi. apply in_flat_map in Hi. destruct Hi as (e & He & Hi).
    destruct (r e) as [j|] eqn:R; [|destruct Hi]. destruct Hi as [->|[]]. destruct (Hk e i He R) as (f & E & _). rewrite nth_error_map, E. auto.
  - apply all_fields_nth; [rewrite mark_len; apply map_length|auto|]. intros i f g v Ef Eg Ev.
    assert (Hlt : (i < length fs)%nat) by (apply nth_error_Some; congruence).
    destruct (nth_error ps i) as [p|] eqn:Ep; [|apply nth_error_None in Ep; lia]. specialize (Hn i f p v Ef Ep Ev). cbn [Nat.add] in Hn.
    apply mark_nth in Eg. destruct Eg as [(-> & e & He & R)|[E1 E2]].
    + rewrite Ev. auto.
    + rewrite nth_error_map, Ef in E1. injection E1 as <-. destruct (look i (name_of f)) as [x|] eqn:Lk; auto.
      destruct (Hc i f x Ef Lk) as (e & He & R). destruct (E2 e He R).
Qed.
End ByKey.

(** Keys that are positions. *)
Lemma by_index fs ps (qs : list (val -> bytes -> Prop)) l its : names_ok (map name_of fs) -> fits_fields (field_at its) absent_ok 0 fs ps l -> length qs = length fs -> zlen its < 2 ^ 32 ->
  (forall i p q v e, nth_error ps i = Some p -> nth_error qs i = Some q -> In e (indexed 0 its) -> p v (snd e) -> q v (B (snd e))) ->
  Forall (fun e => good (fst e) /\ good (snd e)) (indexed 0 its) ->
  exists got, entries (map name_of fs) qs (map (fun _ => None) fs) (zlen (indexed 0 its)) (flat_map (fun e => B (fst e) ++ B (snd e)) (indexed 0 its)) got /\ all_fields fs got l.
Proof.
  intros Hn Hf Hq Hz Hp Hg. set (r := fun e : sval * sval => match fst e with SInt _ z => if z <? zlen fs then Some (Z.to_nat z) else None | _ => None end).
  assert (Hin : forall e, In e (indexed 0 its) -> exists k n x, nth_error its k = Some (n, Some x) /\ e = (SInt U32 (Z.of_nat k), x) /\ 0 <= Z.of_nat k < 2 ^ 32).
  { intros e He. apply indexed_in in He. destruct He as (k & n & x & E & ->). exists k, n, x. split; auto. split; auto.
    assert (k < length its)%nat by (apply nth_error_Some; congruence). unfold zlen in Hz. lia. }
  apply (by_key fs ps qs l (field_at its) (indexed 0 its) r Hf Hq Hp Hg).
  - intros e i He R. destruct (Hin e He) as (k & n & x & E & -> & Hk). unfold r in R. cbn [fst] in R. destruct (_ <? _) eqn:L; [|discriminate]. injection R as <-.
    rewrite Nat2Z.id. destruct (nth_error fs k) as [f|] eqn:Ef; [|apply nth_error_None in Ef; unfold zlen in L; lia]. exists f. split; auto. split.
    + right. rewrite map_length. split; [apply nth_error_Some; congruence|]. apply (index_ok (Z.of_nat k)); auto.
    + unfold field_at. rewrite E. auto.
  - intros e He R. destruct (Hin e He) as (k & n & x & E & -> & Hk). unfold r in R. cbn [fst] in R. destruct (_ <? _) eqn:L; [discriminate|].
    right. exists (Z.of_nat k). split; [unfold zlen in *; rewrite map_length; lia|]. apply (index_ok (Z.of_nat k)); auto.
  - clear. assert (forall i, 0 <= i -> NoDup (flat_map (fun e => match r e with Some i => [i] | None => [] end) (indexed i its)) /\
        forall j, In j (flat_map (fun e => match r e with Some i => [i] | None => [] end) (indexed i its)) -> i <= Z.of_nat j) as X; [|apply (X 0); lia].
    induction its as [|[n [x|]] its IH]; intros i Hi; cbn [indexed flat_map]; [split; [constructor|intros j []]| |].
    + destruct (IH (i + 1) ltac:(lia)) as [A1 A2]. unfold r at 1 3. cbn [fst]. destruct (i <? zlen fs); cbn [app].
      * split; [constructor; auto; intros H; apply A2 in H; lia|]. intros j [<-|H]; [lia|]. apply A2 in H. lia.
      * split; auto. intros j H. apply A2 in H. lia.
    + destruct (IH (i + 1) ltac:(lia)) as [A1 A2]. split; auto. intros j H. apply A2 in H. lia.
  - intros i f x Ef Hl. unfold field_at in Hl. destruct (nth_error its i) as [[n y]|] eqn:E; [|discriminate]. subst y.
    exists (SInt U32 (Z.of_nat i), x). split; [apply (indexed_of its 0 i n x E)|]. unfold r. cbn [fst]. assert (i < length fs)%nat by (apply nth_error_Some; congruence).
    replace (Z.of_nat i <? zlen fs) with true by (unfold zlen; lia). f_equal. lia.
Qed.

(** Keys that are names. *)
Lemma by_name fs ps (qs : list (val -> bytes -> Prop)) l es ms : names_ok (map name_of fs) -> fits_fields (field_named ms) absent_ok 0 fs ps l -> length qs = length fs ->
  Forall2 (fun e m => mp_text st (bare (fst e)) = Some (fst m) /\ snd e = snd m) es ms -> NoDup (map fst ms) ->
  (forall i p q v e, nth_error ps i = Some p -> nth_error qs i = Some q -> In e es -> p v (snd e) -> q v (B (snd e))) ->
  Forall (fun e => good (fst e) /\ good (snd e)) es ->
  exists got, entries (map name_of fs) qs (map (fun _ => None) fs) (zlen es) (flat_map (fun e => B (fst e) ++ B (snd e)) es) got /\ all_fields fs got l.
Proof.
  intros (Hnd & Hu & _) Hf Hq H2 Hms Hp Hg.
  set (r := fun e : sval * sval => match mp_text st (bare (fst e)) with Some n => find_name n (map name_of fs) 0 | None => None end).
  assert (Hin : forall e, In e es -> exists n, mp_text st (bare (fst e)) = Some n /\ In (n, snd e) ms).
  { clear - H2. induction H2 as [|e m es ms [H H'] _ IH]; intros e' []; [subst|].
    - exists (fst m). split; auto. left. rewrite H'. destruct m; auto.
    - destruct (IH e' H0) as (n & ? & ?). exists n. cbn. auto. }
  assert (Htx : forall e n, In e es -> mp_text st (bare (fst e)) = Some n -> valid_utf8 n /\ str_enc n (B (fst e))).
  { intros e n He Ht. rewrite Forall_forall in Hg. destruct (Hg e He) as [G _]. apply bare_good in G. destruct (text_bytes _ _ Ht G) as (V & Eb & Ez).
    rewrite bare_bytes in Eb. split; auto. rewrite Eb. apply str_bytes_ok. auto. }
  apply (by_key fs ps qs l (field_named ms) es r Hf Hq Hp Hg).
  - intros e i He R. destruct (Hin e He) as (n & Ht & Hm). unfold r in R. rewrite Ht in R. apply find_name_nth in R; auto.
    pose proof R as R'. rewrite nth_error_map in R'. destruct (nth_error fs i) as [f|] eqn:Ef; [|discriminate]. injection R' as Enm. exists f. split; auto. split.
    + left. exists n. split; auto. apply Htx; auto.
    + rewrite Enm. apply field_named_of; auto.
  - intros e He R. destruct (Hin e He) as (n & Ht & Hm). unfold r in R. rewrite Ht in R. apply find_name_out in R; auto. left. exists n.
    destruct (Htx e n He Ht). auto.
  - clear - H2 Hms Hnd. induction H2 as [|e m es ms [H H'] H2 IH]; [constructor|]. cbn [map] in Hms. inversion Hms as [|? ? N1 N2]; subst.
    cbn [flat_map]. unfold r at 1. rewrite H. destruct (find_name (fst m) (map name_of fs) 0) as [i|] eqn:F; cbn [app]; [|auto]. constructor; auto.
    intros I. apply in_flat_map in I. destruct I as (e' & I1 & I2). unfold r in I2. destruct (mp_text st (bare (fst e'))) as [n'|] eqn:T'; [|destruct I2].
    destruct (find_name n' (map name_of fs) 0) as [j|] eqn:F'; [|destruct I2]. destruct I2 as [->|[]].
    apply find_name_nth in F; auto. apply find_name_nth in F'; auto. assert (n' = fst m) by congruence. subst n'. apply N1.
    clear - H2 I1 T'. induction H2 as [|e m' es ms [H H'] _ IH]; destruct I1; [subst|]; cbn; [left; congruence|right; auto].
  - intros i f x Ef Hl. apply field_named_in in Hl. assert (exists e, In e es /\ mp_text st (bare (fst e)) = Some (name_of f)) as (e & He & Ht).
    { clear - H2 Hl. induction H2 as [|e m es ms [H H'] _ IH]; destruct Hl; [subst m; exists e; cbn; auto|]. destruct (IH H0) as (e' & ? & ?). exists e'. cbn. auto. }
    exists e. split; auto. unfold r. rewrite Ht. apply find_name_nth; auto. rewrite nth_error_map, Ef. auto.
Qed.

(** ** Every type *)
Local Notation F := (mp_fits fo st).
Definition reads t : Prop := forall v x, F t v x -> good x -> adm fo t v (B x).

Lemma items_all t l xs : reads t -> Forall2 (F t) l xs -> Forall good xs -> seq_enc (map (adm fo t) l) (flat_map B xs) /\ zlen l = zlen xs.
Proof.
  intros Ht. induction 1 as [|v x l xs H _ IH]; intros G; inversion G; subst; cbn; [auto|]. destruct IH as [A1 A2]; auto. rewrite !zlen_cons. split; [|lia].
  exists (B x), (flat_map B xs). auto.
Qed.
Lemma tuple_all ts : Forall (fun t => wf t -> reads t) ts -> all_list wf ts -> forall l xs, all3 (fun p v x => p v x) (map F ts) l xs -> Forall good xs ->
  all3 (fun p v x => p v (B x)) (map (adm fo) ts) l xs.
Proof.
  induction 1 as [|t ts Ht _ IH]; intros W [|v l] [|x xs] H G; cbn in H; try tauto; cbn; auto. destruct W as [W1 W2]. inversion G; subst. split; [apply Ht; tauto|]. apply IH; tauto.
Qed.
Lemma variant_ident ns i j n : same_variant st ns i j n -> is_u32 j -> doc_variant st j n <> None -> ident_enc ns i (tag_bytes st j n).
Proof.
  unfold same_variant, tag_bytes, doc_variant, is_u32. intros H Hj D. destruct st.
  - destruct H as [-> H]. right. split; auto. apply index_ok. lia.
  - destruct H as [-> H]. right. split; auto. apply index_ok. lia.
  - left. exists n. split; auto. apply str_bytes_ok, doc_str_some, D.
Qed.
Lemma struct_all fs l x : Forall (fun f => wf (snd f) -> reads (snd f)) fs -> wf (TStruct fs) -> F (TStruct fs) (USeq l) x -> good x -> adm fo (TStruct fs) (USeq l) (B x).
Proof.
  intros IH [Hn Hw] H G. assert (Hp : forall i p q v y, nth_error (map (fun f => F (snd f)) fs) i = Some p -> nth_error (map (fun f => adm fo (snd f)) fs) i = Some q ->
     good y -> p v y -> q v (B y)).
  { intros i p q v y E1 E2. rewrite nth_error_map in E1, E2. destruct (nth_error fs i) as [f|] eqn:Ef; [|discriminate]. injection E1 as <-. injection E2 as <-. intros Gy Hy.
    apply nth_error_In in Ef. rewrite Forall_forall in IH. apply IH; auto. apply all_list_Forall in Hw. rewrite Forall_forall in Hw. apply Hw; auto. }
  assert (Hq : length (map (fun f => adm fo (snd f)) fs) = length fs) by apply map_length.
  unfold mp_fits in H. cbn [fits] in H. fold F in H. rewrite <- bare_bytes. apply bare_good in G. pose proof (bare_bare x) as Hb.
  change (struct_enc fs (map (fun f => adm fo (snd f)) fs) l (B (bare x))).
  assert (ARR : forall xs look, fits_fields look has_default 0 fs (map (fun f => F (snd f)) fs) l -> (forall i n, look i n = nth_error xs i) -> (length xs <= length fs)%nat ->
     Forall good xs -> zlen xs < 2 ^ 32 -> B (bare x) = arr_head (zlen xs) ++ flat_map B xs -> struct_enc fs (map (fun f => adm fo (snd f)) fs) l (B (bare x))).
  { intros xs look Hf Hl Hx Gx Hz ->. left. exists (length xs), (arr_head (zlen xs)), (flat_map B xs).
    destruct (fields_array look fs (map (fun f => F (snd f)) fs) (map (fun f => adm fo (snd f)) fs) l xs 0 Hf Hq) as (A1 & A2 & A3); auto.
    { intros i p q v y E1 E2 Hy. apply (Hp i); auto. rewrite Forall_forall in Gx. auto. }
    split; [auto|]. split; [auto|]. split; [apply arr_head_ok; pose proof (zlen_nonneg xs); unfold zlen in *; lia|]. split; [auto|]. split; [apply seq_enc_of; auto|auto]. }
  assert (MAP : forall es got, B (bare x) = map_head (zlen es) ++ flat_map (fun e => B (fst e) ++ B (snd e)) es -> zlen es < 2 ^ 32 ->
     entries (map name_of fs) (map (fun f => adm fo (snd f)) fs) (map (fun _ => None) fs) (zlen es) (flat_map (fun e => B (fst e) ++ B (snd e)) es) got -> all_fields fs got l ->
     struct_enc fs (map (fun f => adm fo (snd f)) fs) l (B (bare x))).
  { intros es got -> Hz He Ha. right. exists (zlen es), (map_head (zlen es)), (flat_map (fun e => B (fst e) ++ B (snd e)) es), got.
    split; auto. split; [apply map_head_ok; pose proof (zlen_nonneg es); lia|]. auto. }
  assert (Hpe : forall es, Forall (fun e => good (fst e) /\ good (snd e)) es ->
     forall i p q v e, nth_error (map (fun f => F (snd f)) fs) i = Some p -> nth_error (map (fun f => adm fo (snd f)) fs) i = Some q -> In e es -> p v (snd e) -> q v (B (snd e))).
  { intros es Ge i p q v e E1 E2 He. apply (Hp i); auto. rewrite Forall_forall in Ge. apply Ge. auto. }
  destruct (bare x) as [ | | | | | | | | | | | | | | |len its|len its|len its| |len ops|len its| | | ] eqn:Hx;
    try (destruct H as (xs & I & _); discriminate I).
  - destruct H as (xs & I & Hl & Hf). destruct (items_good _ _ I G) as (Gx & Hz & Eb). eapply ARR; eauto.
  - destruct H as (xs & I & Hl & Hf). destruct (items_good _ _ I G) as (Gx & Hz & Eb). eapply ARR; eauto.
  - destruct H as (xs & I & Hl & Hf). destruct (items_good _ _ I G) as (Gx & Hz & Eb). eapply ARR; eauto.
  - destruct H as (ms & M & Hd & Hf). cbn [members_of] in M. destruct (pair_up ops) as [es|] eqn:P; [|discriminate].
    destruct (entries_good (SMap len ops) es P G) as (Ge & Hz & Eb).
    destruct (by_name fs (map (fun f => F (snd f)) fs) (map (fun f => adm fo (snd f)) fs) l es ms Hn Hf Hq) as (got & A1 & A2); auto; [|apply (Hpe es Ge)|eapply MAP; eauto].
    clear - M. revert ms M. induction es as [|e es IH]; intros ms M; [injection M as <-; constructor|]. apply omap_cons in M. destruct M as (y & zs & E1 & M & ->).
    destruct (mp_text st (bare (fst e))) as [n|] eqn:T; [|discriminate]. injection E1 as <-. constructor; auto.
  - assert (Hi : st = SArray \/ st = SIndexMap \/ st = SNameMap) by (destruct st; auto). destruct Hi as [Hs|[Hs|Hs]].
    + destruct (array_struct_good len its Hs G) as (Gx & Hz & Eb & Hl).
      assert (H' : (length (written its) <= length fs)%nat /\ fits_fields (field_at its) has_default 0 fs (map (fun f => F (snd f)) fs) l) by (clear - H Hs; destruct st; try discriminate; exact H).
      destruct H' as [Hlen Hf]. eapply ARR; eauto. rewrite map_length. auto.
    + assert (H' : fits_fields (field_at its) absent_ok 0 fs (map (fun f => F (snd f)) fs) l) by (clear - H Hs; destruct st; try discriminate; exact H).
      assert (E1 : entries_of st (SStruct len its) = Some (indexed 0 its)) by (cbn; rewrite Hs; auto).
      destruct (entries_good _ _ E1 G) as (Ge & Hz & Eb).
      destruct (by_index fs (map (fun f => F (snd f)) fs) (map (fun f => adm fo (snd f)) fs) l its Hn H' Hq) as (got & A1 & A2); auto; [|apply (Hpe _ Ge)|eapply MAP; eauto].
      destruct G as [Hok _]. cbn in Hok. tauto.
    + assert (H' : NoDup (map fst (written its)) /\ fits_fields (field_named (written its)) absent_ok 0 fs (map (fun f => F (snd f)) fs) l) by (clear - H Hs; destruct st; try discriminate; exact H).
      destruct H' as [Hnd Hf]. assert (E1 : entries_of st (SStruct len its) = Some (map (fun f => (SStr (fst f), snd f)) (written its))) by (cbn; rewrite Hs; auto).
      destruct (entries_good _ _ E1 G) as (Ge & Hz & Eb).
      destruct (by_name fs (map (fun f => F (snd f)) fs) (map (fun f => adm fo (snd f)) fs) l (map (fun f => (SStr (fst f), snd f)) (written its)) (written its) Hn Hf Hq) as (got & A1 & A2);
        [|exact Hnd|apply (Hpe _ Ge)|exact Ge|eapply MAP; eauto].
      clear. induction (written its); cbn [map]; constructor; auto.
Qed.

Theorem fits_adm t : wf t -> reads t.
Proof.
  unfold reads. induction t as [ |k| | | | | | | |t IH|t IH|t IH|l IH|l IH|k v IHk IHv|fs IH|vs IH] using ty_ind'; intros Hw u x H G;
    try (destruct u; unfold mp_fits in H; cbn [fits] in H; try contradiction; [idtac]); try (destruct u; contradiction).
  - rewrite <- bare_bytes, H. reflexivity.
  - destruct H as [Hk [k' E]]. cbn [adm]. split; auto. apply bare_good in G. rewrite <- bare_bytes, E in *. apply int_bytes_fmt. apply G.
  - rewrite <- bare_bytes. apply bare_good in G. cbn [adm]. destruct (bare x) eqn:E; cbn [mp_f32_as] in H; try match type of H with _ /\ _ => destruct H as [H ->] end; try discriminate;
      try (right; right; right; split; reflexivity).
    + subst. right. right. left. exists z. split; auto. apply int_bytes_fmt. apply G.
    + subst. left. eexists. split; [reflexivity|]. apply uint_be_bytes. destruct G as [G _]. cbn in G. change (256 ^ Z.of_nat 4) with (2 ^ 32). lia.
    + subst. right. left. eexists. eexists. split; [reflexivity|]. split; [|reflexivity]. apply uint_be_bytes. destruct G as [G _]. cbn in G. change (256 ^ Z.of_nat 8) with (2 ^ 64). lia.
  - rewrite <- bare_bytes. apply bare_good in G. cbn [adm]. destruct (bare x) eqn:E; cbn [mp_f64_as] in H; try match type of H with _ /\ _ => destruct H as [H ->] end; try discriminate;
      try (right; right; right; split; reflexivity).
    + subst. right. right. left. exists z. split; auto. apply int_bytes_fmt. apply G.
    + subst. right. left. eexists. eexists. split; [reflexivity|]. split; [|reflexivity]. apply uint_be_bytes. destruct G as [G _]. cbn in G. change (256 ^ Z.of_nat 4) with (2 ^ 32). lia.
    + subst. left. eexists. split; [reflexivity|]. apply uint_be_bytes. destruct G as [G _]. cbn in G. change (256 ^ Z.of_nat 8) with (2 ^ 64). lia.
  - destruct H as [Hc Ht]. apply bare_good in G. destruct (text_bytes _ _ Ht G) as (_ & E & Hz). cbn [adm]. split; auto. rewrite <- bare_bytes, E. apply str_bytes_ok. auto.
  - apply bare_good in G. destruct (text_bytes _ _ H G) as (V & E & Hz). cbn [adm]. split; auto. rewrite <- bare_bytes, E. apply str_bytes_ok. auto.
  - apply bare_good in G. rewrite H in G. destruct G as [Gv Gd]. cbn [adm]. split; [exact Gv|]. rewrite <- bare_bytes, H. exists (bin_head (zlen b)). split; auto.
    cbn [mp_doc] in Gd. destruct (lt32 (zlen b)) eqn:L; [|congruence]. apply lt32_spec in L. apply bin_head_ok. auto.
  - cbn [adm]. rewrite <- bare_bytes. apply nil_bytes. auto.
  - cbn [adm]. rewrite <- bare_bytes. apply nil_bytes. auto.
  - destruct u; unfold mp_fits in H; cbn [fits] in H; try contradiction.
    + cbn [adm]. rewrite <- bare_bytes. apply nil_bytes. auto.
    + destruct H as [N H]. cbn [adm]. split; [apply IH; auto|]. apply not_nil; auto.
  - assert (H' : F t u x) by (destruct u; exact H). replace (adm fo (TNewtype t) u (B x)) with (adm fo t u (B x)) by (destruct u; reflexivity). apply IH; auto.
  - destruct H as (xs & I & H). apply bare_good in G. destruct (items_good _ _ I G) as (Gx & Hz & Eb). rewrite <- bare_bytes, Eb.
    destruct (items_all t l xs (IH Hw) H Gx) as [A1 A2]. cbn [adm]. exists (arr_head (zlen xs)), (flat_map B xs). split; auto. split; auto. rewrite A2. apply arr_head_ok. pose proof (zlen_nonneg xs). lia.
  - destruct H as (xs & I & H). apply bare_good in G. destruct (items_good _ _ I G) as (Gx & Hz & Eb). rewrite <- bare_bytes, Eb.
    destruct Hw as [Hw _]. apply (tuple_all l IH Hw) in H; auto. pose proof (all3_len _ _ _ _ H) as [L1 L2]. rewrite map_length in L1, L2. cbn [adm].
    exists (arr_head (zlen xs)), (flat_map B xs). split; auto. split; [|split; [auto|apply seq_enc_of; auto]].
    replace (zlen l) with (zlen xs) by (unfold zlen; lia). apply arr_head_ok. pose proof (zlen_nonneg xs). lia.
  - destruct H as (xs & I & H). apply bare_good in G. destruct (items_good _ _ I G) as (Gx & Hz & Eb). rewrite <- bare_bytes, Eb.
    destruct Hw as [Hw _]. apply (tuple_all l IH Hw) in H; auto. pose proof (all3_len _ _ _ _ H) as [L1 L2]. rewrite map_length in L1, L2. cbn [adm].
    exists (arr_head (zlen xs)), (flat_map B xs). split; auto. split; [|split; [auto|apply seq_enc_of; auto]].
    replace (zlen l) with (zlen xs) by (unfold zlen; lia). apply arr_head_ok. pose proof (zlen_nonneg xs). lia.
  - destruct H as (es & I & H). apply bare_good in G. destruct (entries_good _ _ I G) as (Ge & Hz & Eb). rewrite <- bare_bytes, Eb. destruct Hw as [Wk Wv].
    cbn [adm]. exists (map_head (zlen es)), (flat_map (fun e => B (fst e) ++ B (snd e)) es). split; auto.
    assert (A : zlen l = zlen es /\ seq_enc (map (fun e b => exists x y, b = x ++ y /\ adm fo k (fst e) x /\ adm fo v (snd e) y) l) (flat_map (fun e => B (fst e) ++ B (snd e)) es)).
    { clear - H Ge IHk IHv Wk Wv. induction H as [|e f l es [H1 H2] _ IH]; [split; reflexivity|]. inversion Ge as [|? ? [G1 G2] Ge']; subst. destruct (IH Ge') as [A1 A2].
      rewrite !zlen_cons. split; [lia|]. cbn [flat_map map seq_enc]. exists (B (fst f) ++ B (snd f)), (flat_map (fun e => B (fst e) ++ B (snd e)) es). split; auto. split; auto.
      exists (B (fst f)), (B (snd f)). split; auto. }
    destruct A as [A1 A2]. split; auto. rewrite A1. apply map_head_ok. pose proof (zlen_nonneg es). lia.
  - apply struct_all; auto.
  - cbn [adm]. rewrite nth_error_map in *. destruct (nth_error vs i) as [f|] eqn:Ef; [|contradiction]. cbn [option_map] in *.
    rewrite <- bare_bytes. apply bare_good in G. destruct Hw as [_ Hw].
    assert (Hc : forall c, F (snd f) u c -> good c -> adm fo (snd f) u (B c)).
    { intros c Hc Gc. apply nth_error_In in Ef. rewrite Forall_forall in IH. apply IH; auto. apply all_list_Forall in Hw. rewrite Forall_forall in Hw. apply Hw in Ef. tauto. }
    assert (Hv : forall j n c, variant_of (bare x) = Some (j, n, c) -> same_variant st (map name_of vs) i j n -> F (snd f) u c ->
       exists k b, B (bare x) = 0x81 :: k ++ b /\ ident_enc (map name_of vs) i k /\ adm fo (snd f) u b).
    { intros j n c V S1 Hf. destruct (variant_good _ _ _ _ V G) as (Gc & Hj & _ & D & Eb). exists (tag_bytes st j n), (B c). split; auto. split; auto. apply variant_ident; auto. }
    destruct (attr_of f); try (destruct H as (j & n & c & V & S1 & Hf); eapply Hv; eauto).
    destruct H as [-> H]. split; auto. destruct (bare x) eqn:Ex;
      try (destruct H as (n & T & Hn); destruct (text_bytes _ _ T G) as (_ & E & Hz); rewrite E; left; exists n; split; [auto|apply str_bytes_ok; auto]).
    destruct G as [[Hj _] D]. apply variant_ident; auto.
Qed.
End E.

(** The value read is the one that fits. *)
Theorem evolves ar fo cfg fl t v x out tail : arch32up ar -> wf t -> sval_ok x -> 2 ^ 32 - 1 <= cfg_usize_max cfg ->
  mp_to_vec cfg fl x = Ok out -> mp_fits fo (style_of fl) t v x -> slice_of ar (out ++ tail) ->
  exists N, forall fuel, (N <= fuel)%nat -> exists s, mp_from_slice ar fo fuel (prog t) (out ++ tail) = Done s (Ok (v, zlen out)).
Proof.
  intros A32 W Hv Hc Ho Hf Hs. apply (to_vec_bytes cfg fl x Hv Hc) in Ho. destruct Ho as [Hd ->]. apply typed_accepts; auto.
  apply (fits_adm (style_of fl) fo t W v x Hf). split; auto.
Qed.

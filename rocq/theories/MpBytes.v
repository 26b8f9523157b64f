(** The serializers write exactly the bytes of [MpBytesSpec] (C08). *)
From Verif Require Import Prelude PreludeFacts Utf8Spec Utf8 Utf8Facts Writer SerMonad SerdeSer
  MpSpec MpBytesSpec MpSer MpErrMap MpSerSim MpSerProofs MpSerFacts.
Ltac Zify.zify_post_hook ::= Z.div_mod_to_equations.

Section P.
Context {E : Type}.
Local Notation X := (mp_ser_error E).
Local Notation VW := (@VecWriter E).
Local Notation emits := (@emits E).
Local Notation errs := (@errs E).
Ltac tf_case k n E :=
  let H := fresh "R" in
  destruct (try_from k n) eqn:E;
    [apply try_from_some in E; destruct E as [-> H]; unfold in_ikind in H; cbn [imin imax] in H
    |apply try_from_none in E; unfold in_ikind in E; cbn [imin imax] in E].

Lemma emits_ext {A} (m m' : SM bytes X A) o r : (forall w, m w = m' w) -> emits m o r -> emits m' o r.
Proof. intros H He w. rewrite <- H. apply He. Qed.
Lemma be1 x : is_byte x -> be_bytes 1 x = [x].
Proof. unfold is_byte. intros H. cbn [be_bytes]. change (256 ^ Z.of_nat 0) with 1. rewrite Z.div_1_r, Z.mod_small by lia. auto. Qed.

Lemma str_head_emits n : 0 <= n < 2 ^ 32 -> emits (write_str_len VW n) (str_head n) (Ok tt).
Proof.
  intros H. unfold write_str_len, MAX_FIXSTR_SIZE, FIXSTR, str_head, head.
  change (256 ^ Z.of_nat 1) with 256. change (256 ^ Z.of_nat 2) with 65536. change (256 ^ Z.of_nat 4) with (2 ^ 32).
  destruct (n <=? 0x1f) eqn:L.
  { rewrite lor_fix; [|auto|cbn; lia]. replace (n <? 32) with true by lia. apply emits_wb. }
  replace (n <? 32) with false by lia.
  tf_case U8 n E1. { replace (n <? 256) with true by lia. rewrite be1 by (unfold is_byte; lia). apply emits_wbwb. }
  replace (n <? 256) with false by lia.
  tf_case U16 n E2. { replace (n <? 65536) with true by lia. apply emits_wbw. }
  replace (n <? 65536) with false by lia.
  tf_case U32 n E3; [|lia]. replace (n <? 2 ^ 32) with true by lia. apply emits_wbw.
Qed.
Lemma arr_head_emits n : 0 <= n < 2 ^ 32 -> emits (write_array_len VW n) (arr_head n) (Ok tt).
Proof.
  intros H. unfold write_array_len, MAX_FIXARRAY_SIZE, FIXARRAY, arr_head, head.
  change (256 ^ Z.of_nat 2) with 65536. change (256 ^ Z.of_nat 4) with (2 ^ 32).
  destruct (n <=? 0xf) eqn:L.
  { rewrite lor_fix; [|auto|cbn; lia]. replace (n <? 16) with true by lia. apply emits_wb. }
  replace (n <? 16) with false by lia.
  tf_case U16 n E2. { replace (n <? 65536) with true by lia. apply emits_wbw. }
  replace (n <? 65536) with false by lia.
  tf_case U32 n E3; [|lia]. replace (n <? 2 ^ 32) with true by lia. apply emits_wbw.
Qed.
Lemma map_head_emits n : 0 <= n < 2 ^ 32 -> emits (write_map_len VW n) (map_head n) (Ok tt).
Proof.
  intros H. unfold write_map_len, MAX_FIXMAP_SIZE, FIXMAP, map_head, head.
  change (256 ^ Z.of_nat 2) with 65536. change (256 ^ Z.of_nat 4) with (2 ^ 32).
  destruct (n <=? 0xf) eqn:L.
  { rewrite lor_fix; [|auto|cbn; lia]. replace (n <? 16) with true by lia. apply emits_wb. }
  replace (n <? 16) with false by lia.
  tf_case U16 n E2. { replace (n <? 65536) with true by lia. apply emits_wbw. }
  replace (n <? 65536) with false by lia.
  tf_case U32 n E3; [|lia]. replace (n <? 2 ^ 32) with true by lia. apply emits_wbw.
Qed.
Lemma str_emits s : zlen s < 2 ^ 32 -> emits (write_str VW s) (str_bytes s) (Ok tt).
Proof. intros H. eapply emits_bind; [apply str_head_emits; unfold zlen in *; lia|apply emits_ws]. Qed.
Lemma bytes_emits s : zlen s < 2 ^ 32 -> emits (serialize_bytes VW s) (bin_head (zlen s) ++ s) (Ok tt).
Proof.
  intros H. unfold serialize_bytes. eapply emits_bind; [|apply emits_w]. assert (0 <= zlen s) by (unfold zlen; lia).
  set (n := zlen s) in *. clearbody n. clear s. unfold bin_head, head.
  change (256 ^ Z.of_nat 1) with 256. change (256 ^ Z.of_nat 2) with 65536. change (256 ^ Z.of_nat 4) with (2 ^ 32).
  replace (n <? 0) with false by lia.
  tf_case U8 n E1. { replace (n <? 256) with true by lia. rewrite be1 by (unfold is_byte; lia). apply emits_wbwb. }
  replace (n <? 256) with false by lia.
  tf_case U16 n E2. { replace (n <? 65536) with true by lia. apply emits_wbw. }
  replace (n <? 65536) with false by lia.
  tf_case U32 n E3; [|lia]. replace (n <? 2 ^ 32) with true by lia. apply emits_wbw.
Qed.

Lemma int_emits k z : in_ikind k z -> emits (serialize_int VW k z) (int_bytes (signed_kind k) z) (Ok tt).
Proof.
  intros R. unfold in_ikind in R. cbn [imin imax] in R. unfold int_bytes, signed_in, unsigned_in, signed_be.
  repeat match goal with
  | |- context [2 ^ (8 * Z.of_nat ?n - 1)] => let v := eval vm_compute in (2 ^ (8 * Z.of_nat n - 1)) in change (2 ^ (8 * Z.of_nat n - 1)) with v
  | |- context [2 ^ (8 * Z.of_nat ?n)] => let v := eval vm_compute in (2 ^ (8 * Z.of_nat n)) in change (2 ^ (8 * Z.of_nat n)) with v
  end.
  destruct k; cbn [serialize_int imin imax signed_kind] in *;
    unfold serialize_i8, serialize_i16, serialize_i32, serialize_i64,
           serialize_u8, serialize_u16, serialize_u32, serialize_u64, write_u32,
           fixint_contains, MIN_NEGFIXINT, MAX_POSFIXINT.
  all: match goal with |- emits (if ?b then _ else _) (if ?c then _ else _) _ => replace c with b by lia; destruct b eqn:L end;
    [first [apply emits_wb | replace (z mod 256) with z by lia; apply emits_wb]|].
  all: repeat match goal with |- context [match try_from ?k ?v with _ => _ end] =>
         let EE := fresh "EE" in tf_case k v EE end.
  all: repeat match goal with |- context [if (?b && ?c)%bool then _ else _] =>
         first [replace (b && c)%bool with true by lia | replace (b && c)%bool with false by lia] end.
  all: first [apply emits_wbw | rewrite be1 by (unfold is_byte; lia); apply emits_wbwb].
Qed.
Lemma tag_emits fl i n m : is_u32 i -> doc_variant (style_of fl) i n = Some m ->
  emits (serialize_variant VW fl i n) (tag_bytes (style_of fl) i n) (Ok tt).
Proof.
  intros Hi D. unfold serialize_variant, tag_bytes. unfold doc_variant, doc_str, lt32 in D. destruct fl; cbn [style_of] in *.
  1-2: apply (int_emits U32); unfold in_ikind, is_u32 in *; cbn; lia.
  destruct (_ && _) eqn:L; [|discriminate]. apply str_emits. lia.
Qed.

(** ** Sequences, maps and structs *)
Context (cfg : mp_cfg) (fl : flavour).
Local Notation st := (style_of fl).

Lemma omap_cons {A B} (f : A -> option B) x l ys : omap f (x :: l) = Some ys -> exists y zs, f x = Some y /\ omap f l = Some zs /\ ys = y :: zs.
Proof.
  cbn [omap]. fold (omap f l). destruct (f x) as [y|]; [|discriminate]. destruct (omap f l) as [zs|]; [|discriminate]. intros [= <-]. eauto.
Qed.
Lemma element_emits (m : SM bytes X unit) o n : emits m o (Ok tt) -> 1 <= n -> emits (seq_serialize_element m n) o (Ok (n - 1)).
Proof.
  intros H Hn. unfold seq_serialize_element. rewrite <- (app_nil_l o), <- (app_nil_r o).
  eapply emits_bind; [apply dec_ok; auto|]. eapply emits_bind; eauto using emits_ret.
Qed.
Lemma items_emits (f : sval -> SM bytes X unit) (g : sval -> option mpv) (o : sval -> bytes) l :
  Forall (fun x => forall m, g x = Some m -> emits (f x) (o x) (Ok tt)) l -> forall vs n, omap g l = Some vs -> zlen l <= n ->
  emits (ser_items f l n) (flat_map o l) (Ok (n - zlen l)) /\ zlen vs = zlen l.
Proof.
  induction 1 as [|x l Hx Hl IH]; intros vs n Ho Hn.
  { injection Ho as <-. split; [|auto]. change (zlen []) with 0. rewrite Z.sub_0_r. apply emits_ret. }
  apply omap_cons in Ho. destruct Ho as (y & zs & Gx & Ho & ->). rewrite !zlen_cons in *. assert (0 <= zlen l) by apply zlen_nonneg.
  destruct (IH zs (n - 1) Ho ltac:(lia)) as [IH1 IH2]. split; [|lia].
  cbn [ser_items flat_map]. eapply emits_bind; [apply element_emits; [eauto|lia]|].
  replace (n - (1 + zlen l)) with (n - 1 - zlen l) by lia. exact IH1.
Qed.
Lemma array_emits f g o l len m : Forall (fun x => forall m, g x = Some m -> emits (f x) (o x) (Ok tt)) l ->
  doc_array len (omap g l) = Some m ->
  emits (sbind (sbind (write_array_len VW len) (fun _ => sret len)) (fun n => sbind (ser_items f l n) (fun n => seq_end n)))
    (arr_head (zlen l) ++ flat_map o l) (Ok tt).
Proof.
  intros HF H. unfold doc_array, lt32 in H. destruct (omap g l) as [vs|] eqn:Ho; [|discriminate].
  destruct (_ && _) eqn:L; [|discriminate]. destruct (items_emits f g o l HF vs (zlen l) Ho (Z.le_refl _)) as [HI HL].
  replace len with (zlen l) in * by lia. eapply emits_bind.
  { rewrite <- (app_nil_r (arr_head _)). eapply emits_bind; [apply arr_head_emits; lia|apply emits_ret]. }
  rewrite <- (app_nil_r (flat_map o l)). eapply emits_bind; [exact HI|]. unfold seq_end. replace (_ =? 0) with true by lia. apply emits_ret.
Qed.

Lemma entries_emits (f : sval -> SM bytes X unit) (g : sval -> option mpv) (o : sval -> bytes) l :
  Forall (fun x => forall m, g (snd x) = Some m -> emits (f (snd x)) (o (snd x)) (Ok tt)) l ->
  forall ps vs kvs n, pair_up l = Some ps -> omap (fun o => option_map (pair (fst o)) (g (snd o))) l = Some vs -> pair_up vs = Some kvs ->
  zlen (filter fst l) <= n ->
  emits (ser_entries f l n) (flat_map (fun x => o (snd x)) l) (Ok (n - zlen (filter fst l))) /\ zlen kvs = zlen (filter fst l).
Proof.
  induction l as [l IH] using list_ind_strong. intros HF ps vs kvs n HP Ho HK Hn.
  destruct l as [|[[] k] l]; cbn in HP; try discriminate.
  { injection Ho as <-. injection HK as <-. cbn. rewrite Z.sub_0_r. split; auto using emits_ret. }
  destruct l as [|[[] v] l]; try discriminate. destruct (pair_up l) as [ps'|] eqn:PU; try discriminate.
  apply omap_cons in Ho. destruct Ho as (y & zs & Gk & Ho & ->). apply omap_cons in Ho. destruct Ho as (y' & zs' & Gv & Ho & ->).
  cbn [fst snd] in Gk, Gv. destruct (g k) as [mk|] eqn:Ek; [|discriminate]. injection Gk as <-.
  destruct (g v) as [mv|] eqn:Ev; [|discriminate]. injection Gv as <-. cbn [pair_up] in HK.
  destruct (pair_up zs') as [kvs'|] eqn:PZ; [|discriminate]. injection HK as <-.
  inversion HF as [|? ? Hk HF']; subst. inversion HF' as [|? ? Hv HF'']; subst. cbn [snd] in Hk, Hv.
  cbn [filter fst] in *. rewrite !zlen_cons in *. assert (0 <= zlen (filter fst l)) by apply zlen_nonneg.
  destruct (IH l ltac:(cbn; lia) HF'' ps' zs' kvs' (n - 1) PU Ho PZ ltac:(lia)) as [I1 I2]. split; [|lia].
  cbn [ser_entries flat_map snd]. eapply emits_bind.
  { unfold map_serialize_key. rewrite <- (app_nil_l (o k)), <- (app_nil_r (o k)).
    eapply emits_bind; [apply dec_ok; lia|]. eapply emits_bind; [eauto|apply emits_ret]. }
  eapply emits_bind.
  { unfold map_serialize_value. rewrite <- (app_nil_r (o v)). eapply emits_bind; [eauto|apply emits_ret]. }
  replace (n - (1 + zlen (filter fst l))) with (n - 1 - zlen (filter fst l)) by lia. exact I1.
Qed.

Definition femits (f : sval -> SM bytes X unit) (g : sval -> option mpv) (o : sval -> bytes) (x : bytes * option sval) : Prop :=
  forall v m, snd x = Some v -> g v = Some m -> emits (f v) (o v) (Ok tt).
Lemma present_cons_some n x (l : list (bytes * option sval)) : present ((n, Some x) :: l) = 1 + present l.
Proof. unfold present, zlen. cbn [filter snd length]. lia. Qed.
Lemma present_cons_none n (l : list (bytes * option sval)) : present ((n, None) :: l) = present l.
Proof. reflexivity. Qed.
Lemma present_nonneg (l : list (bytes * option sval)) : 0 <= present l <= zlen l.
Proof. unfold present, zlen. induction l as [|[a [b|]] l IH]; cbn [filter snd length]; lia. Qed.

Lemma fields_emits_idx f g o l : fl = StructMapIdx -> Forall (femits f g o) l -> forall vs i n,
  omap (fdoc g) l = Some vs -> present l <= n -> 0 <= i -> i + zlen l < 2 ^ 32 ->
  (exists j, emits (ser_fields VW fl f l (n, i)) (field_bytes st o i l) (Ok (n - present l, j))) /\ zlen (doc_fields_index i vs) = present l.
Proof.
  intros Hfl. induction 1 as [|[k x] l Hx Hl IH]; intros vs i n Ho Hn Hi Hb.
  { injection Ho as <-. split; [|auto]. exists i. cbn. rewrite Z.sub_0_r. apply emits_ret. }
  apply omap_cons in Ho. destruct Ho as (y & zs & Gx & Ho & ->). rewrite zlen_cons in Hb. assert (0 <= zlen l) by apply zlen_nonneg.
  pose proof (present_nonneg l).
  destruct x as [x|]; unfold fdoc in Gx; cbn [fst snd] in Gx.
  - destruct (g x) as [m|] eqn:Ex; [|discriminate]. injection Gx as <-. rewrite present_cons_some in *.
    destruct (IH zs (i + 1) (n - 1) Ho ltac:(lia) ltac:(lia) ltac:(lia)) as [[j I1] I2].
    cbn [doc_fields_index]. rewrite zlen_cons. split; [|lia]. exists j.
    cbn [ser_fields field_bytes]. rewrite Hfl in *. cbn [style_of] in *. rewrite app_assoc. eapply emits_bind.
    + unfold struct_serialize_field. rewrite <- (app_nil_l (int_bytes _ _ ++ _)). eapply emits_bind; [apply dec_ok; lia|].
      eapply emits_bind; [apply (int_emits U32); unfold in_ikind; cbn; lia|].
      rewrite <- (app_nil_r (o x)). eapply emits_bind; [eapply Hx; cbn; eauto|].
      rewrite Z.mod_small by lia. apply emits_ret.
    + replace (n - (1 + present l)) with (n - 1 - present l) by lia. exact I1.
  - injection Gx as <-. rewrite present_cons_none in *. cbn [doc_fields_index].
    destruct (IH zs (i + 1) n Ho ltac:(lia) ltac:(lia) ltac:(lia)) as [[j I1] I2]. split; [|lia]. exists j.
    cbn [ser_fields field_bytes]. rewrite <- (app_nil_l (field_bytes _ _ _ _)). eapply emits_bind; [|exact I1].
    rewrite Hfl. cbn [struct_skip_field]. rewrite Z.mod_small by lia. apply emits_ret.
Qed.
Lemma fields_emits_name f g o l : fl = StructMapStr -> Forall (femits f g o) l -> forall vs kvs i n i',
  omap (fdoc g) l = Some vs -> doc_fields_name vs = Some kvs -> present l <= n ->
  (exists j, emits (ser_fields VW fl f l (n, i)) (field_bytes st o i' l) (Ok (n - present l, j))) /\ zlen kvs = present l.
Proof.
  intros Hfl. induction 1 as [|[k x] l Hx Hl IH]; intros vs kvs i n i' Ho Hk Hn.
  { injection Ho as <-. injection Hk as <-. split; [|auto]. exists i. cbn. rewrite Z.sub_0_r. apply emits_ret. }
  apply omap_cons in Ho. destruct Ho as (y & zs & Gx & Ho & ->). pose proof (present_nonneg l).
  destruct x as [x|]; unfold fdoc in Gx; cbn [fst snd] in Gx.
  - destruct (g x) as [m|] eqn:Ex; [|discriminate]. injection Gx as <-. rewrite present_cons_some in *. cbn [doc_fields_name] in Hk.
    unfold doc_str, lt32 in Hk. destruct (_ && _) eqn:L; [|discriminate]. destruct (doc_fields_name zs) as [kvs'|] eqn:Ez; [|discriminate].
    injection Hk as <-. destruct (IH zs kvs' i (n - 1) (i' + 1) Ho Ez ltac:(lia)) as [[j I1] I2]. rewrite zlen_cons. split; [|lia]. exists j.
    cbn [ser_fields field_bytes]. rewrite Hfl in *. cbn [style_of] in *. rewrite app_assoc. eapply emits_bind.
    + unfold struct_serialize_field. rewrite <- (app_nil_l (str_bytes _ ++ _)). eapply emits_bind; [apply dec_ok; lia|].
      eapply emits_bind; [apply str_emits; lia|].
      rewrite <- (app_nil_r (o x)). eapply emits_bind; [eapply Hx; cbn; eauto|apply emits_ret].
    + replace (n - (1 + present l)) with (n - 1 - present l) by lia. exact I1.
  - injection Gx as <-. rewrite present_cons_none in *. cbn [doc_fields_name] in Hk.
    destruct (IH zs kvs i n (i' + 1) Ho Hk ltac:(lia)) as [[j I1] I2]. split; [|lia]. exists j.
    cbn [ser_fields field_bytes]. rewrite <- (app_nil_l (field_bytes _ _ _ _)). eapply emits_bind; [|exact I1].
    rewrite Hfl. cbn [struct_skip_field]. apply emits_ret.
Qed.
Lemma none_present g l vs : omap (fdoc g) l = Some vs -> forallb (fun f => match snd f with None => true | Some _ => false end) vs = true ->
  present l = 0 /\ forall f i n, fl = Compact -> n = 0 -> emits (ser_fields VW fl f l (n, i)) [] (Ok (n, i)).
Proof.
  revert vs. induction l as [|[k x] l IH]; intros vs Ho Hv.
  { split; [auto|]. intros. apply emits_ret. }
  apply omap_cons in Ho. destruct Ho as (y & zs & Gx & Ho & ->). cbn [forallb] in Hv. apply andb_prop in Hv. destruct Hv as [V1 V2].
  destruct x as [x|]; unfold fdoc in Gx; cbn [fst snd] in Gx.
  { destruct (g x); [|discriminate]. injection Gx as <-. discriminate. }
  destruct (IH zs Ho V2) as [I1 I2]. split; [exact I1|]. intros f i n Hfl ->. cbn [ser_fields].
  rewrite <- (app_nil_l []). eapply emits_bind; [|apply I2; auto]. rewrite Hfl. apply emits_ret.
Qed.
Lemma fields_emits_arr f g o l : fl = Compact -> Forall (femits f g o) l -> forall vs xs i n i',
  omap (fdoc g) l = Some vs -> doc_fields_array vs = Some xs -> present l = n ->
  emits (ser_fields VW fl f l (n, i)) (field_bytes st o i' l) (Ok (0, i)) /\ zlen xs = present l.
Proof.
  intros Hfl. induction 1 as [|[k x] l Hx Hl IH]; intros vs xs i n i' Ho Hk Hn.
  { injection Ho as <-. injection Hk as <-. cbn in Hn. subst n. split; [apply emits_ret|auto]. }
  apply omap_cons in Ho. destruct Ho as (y & zs & Gx & Ho & ->). pose proof (present_nonneg l).
  destruct x as [x|]; unfold fdoc in Gx; cbn [fst snd] in Gx.
  - destruct (g x) as [m|] eqn:Ex; [|discriminate]. injection Gx as <-. rewrite present_cons_some in *. cbn [doc_fields_array] in Hk.
    destruct (doc_fields_array zs) as [xs'|] eqn:Ez; [|discriminate]. injection Hk as <-.
    destruct (IH zs xs' i (n - 1) (i' + 1) Ho Ez ltac:(lia)) as [I1 I2]. rewrite zlen_cons. split; [|lia].
    cbn [ser_fields field_bytes]. rewrite Hfl in *. cbn [style_of app] in *. eapply emits_bind; [|exact I1].
    unfold struct_serialize_field. rewrite <- (app_nil_l (o x)). eapply emits_bind; [apply dec_ok; lia|].
    rewrite <- (app_nil_r (o x)). eapply emits_bind; [eapply Hx; cbn; eauto|apply emits_ret].
  - injection Gx as <-. rewrite present_cons_none in *. cbn [doc_fields_array] in Hk.
    destruct (forallb _ zs) eqn:Fz; [|discriminate]. injection Hk as <-.
    destruct (none_present g l zs Ho Fz) as [I1 I2]. split; [|rewrite I1; reflexivity]. assert (n = 0) as -> by lia.
    cbn [ser_fields field_bytes]. rewrite <- (app_nil_l (field_bytes _ _ _ _)). eapply emits_bind.
    { rewrite Hfl. cbn [struct_skip_field]. change (0 =? 0) with true. cbn iota. apply emits_ret. }
    replace (field_bytes st o (i' + 1) l) with (@nil Z); [apply I2; auto|].
    clear - Hl I1. generalize (i' + 1). revert I1. induction l as [|[k [x|]] l IH]; intros I1 j; auto.
    { rewrite present_cons_some in I1. pose proof (present_nonneg l). lia. }
    cbn [field_bytes]. rewrite present_cons_none in I1. inversion Hl; subst. apply IH; auto.
Qed.
Lemma struct_emits f g o l len m : Forall (femits f g o) l -> zlen l < 2 ^ 32 -> doc_struct st len (omap (fdoc g) l) = Some m ->
  emits (sbind (inherent_serialize_struct VW fl len) (fun s => sbind (ser_fields VW fl f l s) (fun s => struct_end fl s)))
    (struct_bytes st o l) (Ok tt).
Proof.
  intros HF Hn H. unfold doc_struct in H. destruct (omap (fdoc g) l) as [vs|] eqn:Ho; [|discriminate]. unfold struct_bytes, inherent_serialize_struct, struct_end.
  pose proof (present_nonneg l).
  destruct fl eqn:Efl; cbn [style_of] in *; rewrite <- Efl in *.
  - unfold doc_array, lt32 in H. destruct (doc_fields_array vs) as [xs|] eqn:Ex; [|discriminate]. destruct (_ && _) eqn:L; [|discriminate].
    destruct (fields_emits_arr f g o l Efl HF vs xs 0 (present l) 0 Ho Ex eq_refl) as [HI HL]. replace len with (present l) by lia.
    rewrite Efl in *. eapply emits_bind.
    { rewrite <- (app_nil_r (arr_head _)). eapply emits_bind; [apply arr_head_emits; lia|apply emits_ret]. }
    rewrite <- (app_nil_r (field_bytes _ _ _ _)). eapply emits_bind; [exact HI|]. apply emits_ret.
  - unfold doc_map, lt32 in H. destruct (_ && _) eqn:L; [|discriminate].
    destruct (fields_emits_idx f g o l Efl HF vs 0 (present l) Ho ltac:(lia) ltac:(lia) ltac:(lia)) as [[j HI] HL].
    replace len with (present l) by lia. rewrite Efl in *. eapply emits_bind.
    { rewrite <- (app_nil_r (map_head _)). eapply emits_bind; [apply map_head_emits; lia|apply emits_ret]. }
    rewrite <- (app_nil_r (field_bytes _ _ _ _)). eapply emits_bind; [exact HI|]. cbn [fst]. replace (_ =? 0) with true by lia. apply emits_ret.
  - unfold doc_map, lt32 in H. destruct (doc_fields_name vs) as [xs|] eqn:Ex; [|discriminate]. destruct (_ && _) eqn:L; [|discriminate].
    destruct (fields_emits_name f g o l Efl HF vs xs 0 (present l) 0 Ho Ex ltac:(lia)) as [[j HI] HL].
    replace len with (present l) by lia. rewrite Efl in *. eapply emits_bind.
    { rewrite <- (app_nil_r (map_head _)). eapply emits_bind; [apply map_head_emits; lia|apply emits_ret]. }
    rewrite <- (app_nil_r (field_bytes _ _ _ _)). eapply emits_bind; [exact HI|]. cbn [fst]. replace (_ =? 0) with true by lia. apply emits_ret.
Qed.
Lemma variant_map_emits (mv mc : SM bytes X unit) a b : emits mv a (Ok tt) -> emits mc b (Ok tt) ->
  emits (sbind (write_byte VW (Z.lor FIXMAP 1)) (fun _ => sbind mv (fun _ => mc))) (map_head 1 ++ a ++ b) (Ok tt).
Proof. intros Ha Hb. eapply emits_bind; [apply emits_wb|]. eapply emits_bind; eauto. Qed.


Lemma collect_emits p1 p2 m : fmt_consistent p1 p2 -> 2 ^ 32 - 1 <= cfg_usize_max cfg ->
  match fmt_text p1 with Some t => doc_str t | None => None end = Some m ->
  emits (collect_str VW cfg p1 p2) (match fmt_text p1 with Some t => str_bytes t | None => [] end) (Ok tt).
Proof.
  intros (He & Hp1 & Hp2 & Ha1 & _) Hc H. unfold collect_str. destruct (fmt_text p1) as [t|] eqn:Ft; [|discriminate].
  unfold doc_str, lt32 in H. destruct (_ && _) eqn:L; [|discriminate]. assert (0 <= zlen t) by apply zlen_nonneg.
  destruct (cfg_alloc cfg).
  - destruct (string_run p1 []) as (t0 & E1 & E2 & E3).
    destruct (run_fmt string_write_str p1 []) as [t' ok]. cbn [fst snd] in *. cbn in E1. subst t' ok. rewrite Ft.
    rewrite (E3 t Ft). apply str_emits. lia.
  - pose proof (counter_run cfg p1 Hp1 0) as HC. rewrite Ft, Z.add_0_l in HC. replace (zlen t <=? _) with true in HC by lia. rewrite HC.
    eapply emits_bind; [apply str_head_emits; lia|]. apply pass2_ok. congruence.
Qed.

Theorem mp_ser_bytes v : sval_ok v -> 2 ^ 32 - 1 <= cfg_usize_max cfg -> forall m, mp_doc st v = Some m ->
  emits (mp_ser VW cfg fl v) (mp_bytes st v) (Ok tt).
Proof.
  intros Hv Hc. revert Hv. induction v using sval_ind'; intros Hv m D; cbn [mp_ser mp_doc mp_bytes sval_ok] in *; try discriminate.
  - unfold serialize_bool. destruct b; apply emits_wb.
  - apply int_emits; auto.
  - apply emits_wbw.
  - apply emits_wbw.
  - unfold serialize_char, serialize_str. rewrite encode_utf8_spec by auto. apply str_emits.
    unfold utf8_char. repeat match goal with |- context [if ?b then _ else _] => destruct b end; reflexivity.
  - unfold doc_str, lt32 in D. destruct (_ && _) eqn:L; [|discriminate]. apply str_emits. lia.
  - unfold lt32 in D. destruct (_ && _) eqn:L; [|discriminate]. apply bytes_emits. lia.
  - apply emits_wb.
  - eauto.
  - apply emits_wb.
  - apply emits_wb.
  - eapply tag_emits; [tauto|exact D].
  - eauto.
  - unfold variant_map in D. destruct (doc_variant _ _ _) as [d|] eqn:Dt; [|discriminate]. destruct (mp_doc st v) as [c|] eqn:Dc; [|discriminate].
    apply variant_map_emits; [eapply tag_emits; [tauto|exact Dt]|eapply IHv; [tauto|reflexivity]].
  - destruct Hv as [Hl Hv]. rewrite all_list_Forall in Hv. destruct l as [len|]; [|discriminate].
    eapply array_emits; [|exact D]. eapply Forall_impl2; [|exact H|exact Hv]. cbn; eauto.
  - destruct Hv as [Hl Hv]. rewrite all_list_Forall in Hv. eapply array_emits; [|exact D]. eapply Forall_impl2; [|exact H|exact Hv]. cbn; eauto.
  - destruct Hv as [Hl Hv]. rewrite all_list_Forall in Hv. eapply array_emits; [|exact D]. eapply Forall_impl2; [|exact H|exact Hv]. cbn; eauto.
  - destruct Hv as (Hi & Hn & Hl & Hv). rewrite all_list_Forall in Hv.
    unfold variant_map in D. destruct (doc_variant _ _ _) as [d|] eqn:Dt; [|discriminate]. destruct (doc_array _ _) as [c|] eqn:Dc; [|discriminate].
    apply emits_ext with (sbind (write_byte VW (Z.lor FIXMAP 1)) (fun _ => sbind (serialize_variant VW fl i n) (fun _ =>
       sbind (serialize_tuple VW l) (fun n => sbind (ser_items (mp_ser VW cfg fl) items n) (fun n => seq_end n))))).
    { intros w. unfold serialize_tuple_variant, sbind. destruct (write_byte _ _ w) as [? []]; auto.
      destruct (serialize_variant _ _ _ _ _) as [? []]; auto. }
    apply variant_map_emits; [eapply tag_emits; [auto|exact Dt]|].
    eapply array_emits; [|exact Dc]. eapply Forall_impl2; [|exact H|exact Hv]. cbn; eauto.
  - destruct Hv as (Hl & Hp & Hv). rewrite all_list_Forall in Hv. destruct l as [len|]; [|discriminate].
    destruct (omap _ ops) as [vs|] eqn:Ho; [|discriminate]. unfold doc_map, lt32 in D. destruct (pair_up vs) as [kvs|] eqn:PV; [|discriminate].
    destruct (_ && _) eqn:L; [|discriminate]. destruct (pair_up ops) as [ps|] eqn:PU; [|congruence].
    assert (F : Forall (fun x => forall m, mp_doc st (snd x) = Some m -> emits (mp_ser VW cfg fl (snd x)) (mp_bytes st (snd x)) (Ok tt)) ops)
      by (eapply Forall_impl2; [|exact H|exact Hv]; cbn; eauto).
    destruct (entries_emits _ _ _ ops F ps vs kvs (zlen (filter fst ops)) PU Ho PV (Z.le_refl _)) as [HI HL].
    replace len with (zlen (filter fst ops)) by lia. cbn [serialize_map]. eapply emits_bind.
    { rewrite <- (app_nil_r (map_head _)). eapply emits_bind; [apply map_head_emits; lia|apply emits_ret]. }
    rewrite <- (app_nil_r (flat_map _ _)). eapply emits_bind; [exact HI|]. unfold map_end. replace (_ =? 0) with true by lia. apply emits_ret.
  - destruct Hv as (Hl & Hn & Hv). rewrite all_list_Forall in Hv. eapply struct_emits; [|exact Hn|exact D].
    eapply Forall_impl2; [|exact H|exact Hv]. intros [k x] Hx [Hk Hs] v' m' E1 E2. cbn [snd] in *. subst x. eauto.
  - destruct Hv as (Hi & Hnm & Hl & Hn & Hv). rewrite all_list_Forall in Hv.
    unfold variant_map in D. destruct (doc_variant _ _ _) as [d|] eqn:Dt; [|discriminate]. destruct (doc_struct _ _ _) as [c|] eqn:Dc; [|discriminate].
    apply emits_ext with (sbind (write_byte VW (Z.lor FIXMAP 1)) (fun _ => sbind (serialize_variant VW fl i n) (fun _ =>
       sbind (inherent_serialize_struct VW fl l) (fun s => sbind (ser_fields VW fl (mp_ser VW cfg fl) fs s) (fun s => struct_end fl s))))).
    { intros w. unfold serialize_struct_variant, sbind. destruct (write_byte _ _ w) as [? []]; auto.
      destruct (serialize_variant _ _ _ _ _) as [? []]; auto. }
    apply variant_map_emits; [eapply tag_emits; [auto|exact Dt]|].
    eapply struct_emits; [|exact Hn|exact Dc].
    eapply Forall_impl2; [|exact H|exact Hv]. intros [k x] Hx [Hk Hs] v' m' E1 E2. cbn [snd] in *. subst x. eauto.
  - eapply collect_emits; eauto.
Qed.
End P.

Theorem to_vec_bytes cfg fl v : sval_ok v -> 2 ^ 32 - 1 <= cfg_usize_max cfg ->
  forall out, mp_to_vec cfg fl v = Ok out <-> mp_doc (style_of fl) v <> None /\ out = mp_bytes (style_of fl) v.
Proof.
  intros Hv Hc out. pose proof (to_vec_documented cfg fl v Hv Hc) as D. destruct (mp_doc (style_of fl) v) as [m|] eqn:Em.
  - pose proof (@mp_ser_bytes ser_error cfg fl v Hv Hc m Em) as B. apply to_vec_emits in B. rewrite B. split; [intros [= <-]; split; congruence|intros [_ ->]; auto].
  - destruct D as [e D]. rewrite D. split; [discriminate|tauto].
Qed.

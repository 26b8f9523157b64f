(** Every error of a self-describing decode is explained by a fault of the input (C59). *)
From Verif Require Import Prelude PreludeFacts Utf8 Utf8Spec Utf8Facts SerdeSer SerdeDe MpMagick MpSpec MpDe MpDeView MpDeReads MpDeEat
  MpDeTop FloatOps Types TypesFacts TypeSize MpTypeSpec MpTyped MpAny MpTypedTop MpSound MpAnySound MpFaultSpec MpBlame MpAnyFaultSpec.
From Verif Require MpFuel MpSerProofs.
Ltac Zify.zify_post_hook ::= Z.div_mod_to_equations.

Section AnyFault.
Context (ar : arch) (fo : float_ops).
Local Notation M := (DM mpde mp_de_error).
Local Notation run := (@mp_run ar fo val).
Local Notation blame := (blame ar).
Local Notation blamec := (blamec ar).
Local Notation sound := (sound ar).
Local Notation any := (any DeserializeError).
Local Notation any_seq := (any_seq DeserializeError).
Local Notation any_map := (any_map DeserializeError).
Local Notation rde := (rde ar fo).
Local Notation fde := (fde ar fo).
Local Notation fsq := (fsq ar fo).
Local Notation fmp := (fmp ar fo).
Local Notation fme := (fme ar fo).

(** ** A fault is named *)
Lemma fme_family_ext c : is_byte c -> family_of c = FExt -> fme DAny any_visitor [c] UnsupportedExt.
Proof.
  intros Hc Hf. apply ev_all. intros f. cbn [mp_method]. unfold deserialize_any. apply fails_peek. unfold is_byte in Hc.
  assert (Hr : 0xc7 <= c <= 0xc9 \/ 0xd4 <= c <= 0xd8).
  { revert Hf. unfold family_of. repeat match goal with |- context [if ?b then _ else _] => destruct b eqn:? end; try discriminate; lia. }
  clear Hf. consts. unfold between.
  repeat match goal with |- context [if ?b then _ else _] => destruct b eqn:? end; first [apply fails_fail|exfalso; lia].
Qed.
Lemma reads_of m bs v : mp_fmt m bs -> denotes m (inl v) -> rde any bs (Ok v).
Proof. intros H D. exact (proj1 (proj1 (any_reads ar fo) m bs H) v D). Qed.

Lemma fsq_elem b e : fde any b e -> forall l bs, mp_fmt_list l bs -> forall vs acc n, denotes_list l (inl vs) -> zlen l < n ->
  fsq (any_seq acc) n (bs ++ b) e.
Proof.
  intros Hb l bs H. induction H as [|m l a bs Hm Hl IH]; intros vs acc n D Hn; rewrite any_seq_eq.
  - cbn [app]. rewrite <- (app_nil_r b). apply fsq_here; [change (zlen (@nil mpv)) with 0 in Hn; lia|reflexivity|exact Hb].
  - rewrite zlen_cons in Hn. pose proof (zlen_nonneg l). inversion D; subst. rewrite <- app_assoc.
    eapply fsq_later; [lia|eapply reads_of; eauto|]. cbv beta iota. eapply IH; [eauto|lia].
Qed.
Lemma fmp_pairs b e : (forall acc n, 0 < n -> fmp (any_map acc) n b e) -> forall l bs, mp_fmt_pairs l bs -> forall vs acc n, denotes_pairs l (inl vs) -> zlen l < n ->
  fmp (any_map acc) n (bs ++ b) e.
Proof.
  intros Hb l bs H. induction H as [|k m l a c bs Hk Hm Hl IH]; intros vs acc n D Hn.
  - cbn [app]. apply Hb. change (zlen (@nil (mpv * mpv))) with 0 in Hn. lia.
  - rewrite zlen_cons in Hn. pose proof (zlen_nonneg l). inversion D; subst. rewrite <- !app_assoc. rewrite any_map_eq.
    eapply fmp_later; [lia|eapply reads_of; eauto|]. cbv beta iota.
    eapply fmp_val_later; [eapply reads_of; eauto|]. cbv beta iota. eapply IH; [eauto|lia].
Qed.

Lemma any_fails bs e : any_fault bs e -> fde any bs e.
Proof.
  intros H. induction H as [|c Hc Hf|s bs Hs Hu (h & Hh & ->)|n h l vs bs b e Hh Hn Hl Hd Hb IH|n h l vs bs b e Hh Hn Hl Hd Hb IH|n h l vs bs m v a b e Hh Hn Hl Hd Hm Hv Hb IH].
  - apply any_reserved.
  - apply fde_any, fme_family_ext; auto.
  - apply fde_any, fme_str; auto.
  - apply fde_any. eapply fme_seq; [exact Hh|]. eapply fsq_elem; eauto.
  - apply fde_any. eapply fme_map; [exact Hh|]. eapply fmp_pairs; eauto. intros acc k Hk. rewrite any_map_eq.
    rewrite <- (app_nil_r b). apply fmp_here; [exact Hk|reflexivity|exact IH].
  - apply fde_any. eapply fme_map; [exact Hh|]. eapply fmp_pairs; eauto. intros acc k Hk. rewrite any_map_eq.
    eapply fmp_later; [exact Hk|eapply reads_of; eauto|]. cbv beta iota.
    rewrite <- (app_nil_r b). apply fmp_val_here; [reflexivity|exact IH].
Qed.
Lemma any_fault_err bs e : any_fault bs e -> e <> UnexpectedEof.
Proof. intros H. induction H; auto; discriminate. Qed.

(** ** An error is a fault *)
Definition F (e : mp_de_error) (b : bytes) : Prop := any_fault b e.

Lemma int_range z c l k : int_fmt z (c :: l) -> is_byte c ->
  (c <= 0x7f /\ k = U8 \/ 0xe0 <= c /\ k = I8 \/ c = 0xcc /\ k = U8 \/ c = 0xcd /\ k = U16 \/ c = 0xce /\ k = U32 \/ c = 0xcf /\ k = U64 \/
   c = 0xd0 /\ k = I8 \/ c = 0xd1 /\ k = I16 \/ c = 0xd2 /\ k = I32 \/ c = 0xd3 /\ k = I64) -> in_ikind k z.
Proof.
  intros H Hc Hk. unfold is_byte in Hc. remember (c :: l) as b eqn:E.
  destruct H; apply cons_inj in E; destruct E as [<- _];
    try match goal with U : uint_be _ _ _ |- _ => apply uint_be_range in U; match type of U with context [256 ^ ?x] => let y := eval vm_compute in (256 ^ x) in change (256 ^ x) with y in U end end;
    try match goal with U : int_be ?n _ _ |- _ => apply MpSerProofs.int_be_range in U; [|lia]; destruct U as [U _]; match type of U with context [2 ^ (?x)] => let y := eval vm_compute in (2 ^ x) in change (2 ^ x) with y in U end end;
    repeat (destruct Hk as [[Hk1 ->]|Hk]; [first [exfalso; lia|unfold in_ikind; cbn [imin imax]; lia]|]);
    destruct Hk as [Hk1 ->]; first [exfalso; lia|unfold in_ikind; cbn [imin imax]; lia].
Qed.
Lemma blame_any_int c k : is_byte c ->
  (c <= 0x7f /\ k = U8 \/ 0xe0 <= c /\ k = I8 \/ c = 0xcc /\ k = U8 \/ c = 0xcd /\ k = U16 \/ c = 0xce /\ k = U32 \/ c = 0xcf /\ k = U64 \/
   c = 0xd0 /\ k = I8 \/ c = 0xd1 /\ k = I16 \/ c = 0xd2 /\ k = I32 \/ c = 0xd3 /\ k = I64) ->
  blamec c (deserialize_int ar k any_visitor) F.
Proof.
  intros Hc Hk.
  apply blamec_of with (F := fun e b => (exists d, b = [d] /\ family_of d <> FInt) \/ exists z, int_fmt z b /\ ~ in_ikind k z).
  - apply blame_bind_ok; [apply blame_integer; [left|right]; eauto|]. intros; discriminate.
  - intros e bs [(d & -> & Hd)|(z & Hz & Hn)] Hb; exfalso.
    + destruct Hb as [|(l & [= -> _])]; [discriminate|]. apply Hd. unfold is_byte in Hc. unfold family_of.
      repeat match goal with |- context [if ?b then _ else _] => destruct b eqn:? end; try reflexivity; lia.
    + destruct Hb as [->|(l & ->)]; [inversion Hz|]. apply Hn. eapply int_range; eauto.
Qed.
Lemma blame_any_str c : is_byte c -> family_of c = FStr -> blamec c (deserialize_str ar any_visitor) F.
Proof.
  intros Hc Hf. apply blamec_of with (F := fun e b => (exists d, b = [d] /\ family_of d <> FStr) \/ F e b).
  - apply blame_bind_ok; [apply blame_str|].
    + intros d Hd H. left. eauto.
    + intros s bs Hs Hu Hb. right. eapply Y_utf8; eauto.
    + intros a s s' e D. discriminate D.
  - intros e bs [(d & -> & Hd)|H] Hb; auto. destruct Hb as [|(l & [= -> _])]; [discriminate|]. congruence.
Qed.
Lemma blame_any_bin c : is_byte c -> family_of c = FBin -> blamec c (deserialize_bytes ar any_visitor) F.
Proof.
  intros Hc Hf. apply blamec_of with (F := fun e b => (exists d, b = [d] /\ family_of d <> FBin)).
  - apply blame_bind_ok; [apply blame_bin|].
    + intros d Hd H. eauto.
    + intros a s s' e D. discriminate D.
  - intros e bs (d & -> & Hd) Hb. destruct Hb as [|(l & [= -> _])]; [discriminate|]. congruence.
Qed.
Lemma blame_any_unit c : c = 0xc0 -> blamec c (deserialize_unit ar any_visitor) F.
Proof.
  intros ->. apply blamec_of with (F := fun e b => exists d, b = [d] /\ d <> 0xc0).
  - apply blame_byte. intros d Hd. apply blame_if; intros E; [apply blame_lift; discriminate|]. apply blame_fail. exists d. split; auto. consts. lia.
  - intros e bs (d & -> & Hd) Hb. destruct Hb as [|(l & [= -> _])]; [discriminate|]. congruence.
Qed.
Lemma blame_any_bool c : c = 0xc2 \/ c = 0xc3 -> blamec c (deserialize_bool ar any_visitor) F.
Proof.
  intros Hc. apply blamec_of with (F := fun e b => exists d, b = [d] /\ d <> 0xc2 /\ d <> 0xc3).
  - apply blame_byte. intros d Hd. consts. apply blame_if; intros E; [apply blame_lift; discriminate|].
    apply blame_if; intros E2; [apply blame_lift; discriminate|]. apply blame_fail. exists d. split; auto. lia.
  - intros e bs (d & -> & Hd) Hb. destruct Hb as [|(l & [= -> _])]; [discriminate|]. lia.
Qed.
Lemma blame_any_f32 c : c = 0xca -> blamec c (deserialize_f32 ar fo any_visitor) F.
Proof.
  intros ->. apply blamec_of with (F := fun e b => exists d, b = [d] /\ d <> 0xca).
  - apply blame_byte. intros d Hd. apply blame_bind_ok; [|discriminate].
    apply blame_if; intros E; [apply blame_unsigned; lia|].
    apply blame_if; intros E1; [apply blame_bind_ok; [apply blame_unsigned; lia|discriminate]|].
    apply blame_if; intros E2; [apply blame_ret|]. apply blame_fetch_num; auto. intros Hf. exists d. split; auto. consts. lia.
  - intros e bs (d & -> & Hd) Hb. destruct Hb as [|(l & [= -> _])]; [discriminate|]. lia.
Qed.
Lemma blame_any_f64 c : c = 0xcb -> blamec c (deserialize_f64 ar fo any_visitor) F.
Proof.
  intros ->. apply blamec_of with (F := fun e b => exists d, b = [d] /\ d <> 0xcb).
  - apply blame_byte. intros d Hd. apply blame_bind_ok; [|discriminate].
    apply blame_if; intros E; [apply blame_unsigned; lia|].
    apply blame_if; intros E1; [apply blame_bind_ok; [apply blame_unsigned; lia|discriminate]|].
    apply blame_if; intros E2; [apply blame_ret|]. apply blame_fetch_num; auto. intros Hf. exists d. split; auto. consts. lia.
  - intros e bs (d & -> & Hd) Hb. destruct Hb as [|(l & [= -> _])]; [discriminate|]. lia.
Qed.

Definition seq_fault (n : Z) (e : mp_de_error) (b : bytes) : Prop := exists l vs bs b',
  b = bs ++ b' /\ zlen l < n /\ mp_fmt_list l bs /\ denotes_list l (inl vs) /\ any_fault b' e.
Definition map_fault (n : Z) (e : mp_de_error) (b : bytes) : Prop := exists l vs bs b',
  b = bs ++ b' /\ zlen l < n /\ mp_fmt_pairs l bs /\ denotes_pairs l (inl vs) /\
  (any_fault b' e \/ exists m v a b'', b' = a ++ b'' /\ mp_fmt m a /\ denotes m (inl v) /\ any_fault b'' e).

Lemma hdr_ne_arr n h : arr_hdr n h -> exists c l, h = c :: l /\ family_of c = FArr.
Proof.
  intros H. inversion H; subst; eexists; eexists; (split; [reflexivity|]); try reflexivity. unfold family_of;
    repeat match goal with |- context [if ?b then _ else _] => destruct b eqn:? end; try reflexivity; lia.
Qed.
Lemma hdr_ne_map n h : map_hdr n h -> exists c l, h = c :: l /\ family_of c = FMap.
Proof.
  intros H. inversion H; subst; eexists; eexists; (split; [reflexivity|]); try reflexivity. unfold family_of;
    repeat match goal with |- context [if ?b then _ else _] => destruct b eqn:? end; try reflexivity; lia.
Qed.

Lemma blame_any_seq c f : family_of c = FArr -> (forall n, 0 <= n -> blame (r_seq (run f) (any_seq []) n) (seq_fault n)) ->
  blamec c (deserialize_seq ar (run f) any_visitor) F.
Proof.
  intros Hf H. apply blamec_of with (F := fun e b => (exists d, b = [d] /\ family_of d <> FArr) \/ F e b).
  - apply blame_seq with (P := fun n => seq_post [] n) (G := seq_fault).
    + intros n Hn. apply (proj1 (proj2 (any_sound ar fo f))); auto.
    + exact H.
    + intros d Hd Hg. left. eauto.
    + intros n h b e Hh (l & vs & bs & b' & -> & Hl & Hm & Hd & Hb). right. eapply Y_elem; eauto.
    + intros n u m h b Hh Hm (Hz & _). cbn in Hz. congruence.
  - intros e bs [(d & -> & Hd)|G] Hb; auto. destruct Hb as [|(l & [= -> _])]; [discriminate|]. congruence.
Qed.
Lemma blame_any_map c f : family_of c = FMap -> (forall n, 0 <= n -> blame (r_map (run f) (any_map []) n) (map_fault n)) ->
  blamec c (deserialize_map ar (run f) any_visitor) F.
Proof.
  intros Hf H. apply blamec_of with (F := fun e b => (exists d, b = [d] /\ family_of d <> FMap) \/ F e b).
  - apply blame_map with (P := fun n => map_post [] n) (G := map_fault).
    + intros n Hn. apply (proj2 (proj2 (any_sound ar fo f))); auto.
    + exact H.
    + intros d Hd Hg. left. eauto.
    + intros n h b e Hh (l & vs & bs & b' & -> & Hl & Hm & Hd & [Hb|(m & v & a & b'' & -> & H1 & H2 & Hb)]); right; [eapply Y_key; eauto|eapply Y_value; eauto].
    + intros n u m h b Hh Hm (Hz & _). cbn in Hz. congruence.
  - intros e bs [(d & -> & Hd)|G] Hb; auto. destruct Hb as [|(l & [= -> _])]; [discriminate|]. congruence.
Qed.

Ltac fam := unfold family_of; repeat match goal with |- context [if ?b then _ else _] => destruct b eqn:? end; try discriminate; try reflexivity; exfalso; lia.

Ltac pick := first [split; [lia|reflexivity]|left; split; [lia|reflexivity]|right; pick].

Lemma any_blame f : blame (r_de (run f) any) F /\
  (forall acc n, 0 <= n -> blame (r_seq (run f) (any_seq acc) n) (seq_fault n)) /\
  (forall acc n, 0 <= n -> blame (r_map (run f) (any_map acc) n) (map_fault n)).
Proof.
  induction f as [f IH] using (well_founded_induction lt_wf). destruct f as [|f]; [split; [|split]; intros; apply blame_fuel|].
  assert (IHd : forall g, (g < S f)%nat -> blame (r_de (run g) any) F) by (intros g Hg; apply (IH g Hg)).
  assert (IHs : forall g, (g < S f)%nat -> forall acc n, 0 <= n -> blame (r_seq (run g) (any_seq acc) n) (seq_fault n)) by (intros g Hg; apply (IH g Hg)).
  assert (IHm : forall g, (g < S f)%nat -> forall acc n, 0 <= n -> blame (r_map (run g) (any_map acc) n) (map_fault n)) by (intros g Hg; apply (IH g Hg)).
  clear IH. split; [|split].
  - rewrite any_eq. cbn [mp_run r_de step_de mp_method]. apply blame_post; [|reflexivity|discriminate].
    unfold deserialize_any. apply blame_peek. intros c Hc. pose proof Hc as Hc'. unfold is_byte in Hc'. consts. unfold between.
    repeat (apply blamec_if; intros ?).
    all: lazymatch goal with
      | |- blamec _ (deserialize_int _ _ _) _ => apply blame_any_int; [exact Hc|pick]
      | |- blamec _ (deserialize_map _ _ _) _ => apply blame_any_map; [fam|intros; apply IHm; lia]
      | |- blamec _ (deserialize_seq _ _ _) _ => apply blame_any_seq; [fam|intros; apply IHs; lia]
      | |- blamec _ (deserialize_str _ _) _ => apply blame_any_str; [exact Hc|fam]
      | |- blamec _ (deserialize_bytes _ _) _ => apply blame_any_bin; [exact Hc|fam]
      | |- blamec _ (deserialize_unit _ _) _ => apply blame_any_unit; lia
      | |- blamec _ (deserialize_bool _ _) _ => apply blame_any_bool; lia
      | |- blamec _ (deserialize_f32 _ _ _) _ => apply blame_any_f32; lia
      | |- blamec _ (deserialize_f64 _ _ _) _ => apply blame_any_f64; lia
      | |- blamec _ (dfail ReservedCode) _ => apply blamec_fail; assert (c = 0xc1) as -> by lia; apply Y_reserved
      | |- blamec _ (dfail UnsupportedExt) _ => apply blamec_fail, Y_ext; [exact Hc|fam]
      end.
  - intros acc n Hn. rewrite (sfrob_eq (any_seq acc)). cbn [sfrob Types.any_seq]. cbn [mp_run r_seq step_seq]. apply blame_if; intros E.
    + destruct f; [apply blame_fuel|]. apply blame_ret.
    + eapply blame_try; [apply (proj1 (any_sound ar fo f))|eapply blame_weaken; [apply IHd; lia|]|intros *; apply err_seq|].
      * intros e b Hb. exists [], [], [], b. split; auto. split; [change (zlen (@nil mpv)) with 0; lia|]. split; [constructor|]. split; [constructor|exact Hb].
      * intros v x (m & Hm & Hv). cbn [res_some]. eapply blame_weaken; [apply IHs; lia|].
        intros e b (l & vs & bs & b' & -> & Hl & Hf & Hd & Hb). exists (m :: l), (v :: vs), (x ++ bs), b'. rewrite app_assoc.
        split; auto. split; [rewrite zlen_cons; lia|]. split; [constructor; auto|]. split; [constructor; auto|exact Hb].
  - intros acc n Hn. rewrite (mfrob_eq (any_map acc)). cbn [mfrob Types.any_map]. cbn [mp_run r_map step_map]. apply blame_if; intros E.
    + destruct f; [apply blame_fuel|]. apply blame_ret.
    + assert (Z0 : zlen (@nil (mpv * mpv)) < n) by (change (zlen (@nil (mpv * mpv))) with 0; lia).
      eapply blame_try; [apply (proj1 (any_sound ar fo f))|eapply blame_weaken; [apply IHd; lia|]|intros *; apply err_map|].
      { intros e b Hb. exists [], [], [], b. split; auto. split; auto. split; [constructor|]. split; [constructor|left; exact Hb]. }
      intros k x (mk & Hmk & Hk). cbn [res_some].
      destruct f as [|f]; [apply blame_fuel|]. cbn [mp_run r_map step_map].
      eapply blame_try; [apply (proj1 (any_sound ar fo f))|eapply blame_weaken; [apply IHd; lia|]|intros *; apply err_map|].
      { intros e b Hb. exists [], [], [], (x ++ b). split; auto. split; auto. split; [constructor|]. split; [constructor|right].
        exists mk, k, x, b. auto. }
      intros v y (m & Hm & Hv). eapply blame_weaken; [apply IHm; lia|].
      intros e b (l & vs & bs & b' & -> & Hl & Hf & Hd & Hb). exists ((mk, m) :: l), ((k, v) :: vs), (x ++ y ++ bs), b'.
      rewrite <- !app_assoc. split; auto. split; [rewrite zlen_cons; lia|]. split; [constructor; auto|]. split; [constructor; auto|exact Hb].
Qed.

(** ** Whole inputs *)
Lemma any_fault_named (A32 : arch32up ar) bs e tail : any_fault bs e -> slice_of ar (bs ++ tail) ->
  exists N, forall fuel, (N <= fuel)%nat -> exists s, mp_from_slice ar fo fuel any (bs ++ tail) = Done s (Err e).
Proof.
  intros H Hs. destruct (any_fails bs e H) as [N HN]. exists N. intros fuel Hf. eapply from_slice_fails; eauto.
Qed.
Lemma any_read (A32 : arch32up ar) m bs v tail : mp_fmt m bs -> denotes m (inl v) -> slice_of ar (bs ++ tail) ->
  exists N, forall fuel, (N <= fuel)%nat -> exists s, mp_from_slice ar fo fuel any (bs ++ tail) = Done s (Ok (v, zlen bs)).
Proof.
  intros H D Hs. destruct (reads_of m bs v H D) as [N HN]. exists N. intros fuel Hf. eapply from_slice_reads; eauto.
Qed.

Context (A64 : arch64 ar).
Theorem any_decided input fuel : slice64 input -> (6 + 3 * length input <= fuel)%nat ->
  exists s r, mp_from_slice ar fo fuel any input = Done s r /\
  match r with
  | Ok (v, n) => exists m bs tail, input = bs ++ tail /\ zlen bs = n /\ mp_fmt m bs /\ denotes m (inl v)
  | Err UnexpectedEof => forall bs tail, input = bs ++ tail ->
      (forall m v, mp_fmt m bs -> ~ denotes m (inl v)) /\ (forall e, ~ any_fault bs e)
  | Err e => exists bs tail, input = bs ++ tail /\ any_fault bs e
  end.
Proof.
  intros Hs Hf. destruct (MpFuel.any_ends ar fo A64 input fuel Hs Hf) as (s & r & E). exists s, r. split; auto.
  pose proof (slice64_of ar _ A64 Hs) as Hs'. pose proof (arch64_up ar A64) as A32.
  destruct r as [[v n]|e]; [eapply any_sound_top; eauto|].
  assert (H : e = UnexpectedEof -> forall bs tail, input = bs ++ tail ->
    (forall m v, mp_fmt m bs -> ~ denotes m (inl v)) /\ (forall e, ~ any_fault bs e)).
  { intros -> bs tail ->. split.
    - intros m v Hm Hv. destruct (any_read A32 m bs v tail Hm Hv Hs') as [N HN].
      destruct (HN N (le_n _)) as [s' E']. destruct (MpFuel.budget_irrelevant ar fo _ _ _ _ _ _ _ _ E E'). discriminate.
    - intros e Ha. destruct (any_fault_named A32 bs e tail Ha Hs') as [N HN].
      destruct (HN N (le_n _)) as [s' E']. destruct (MpFuel.budget_irrelevant ar fo _ _ _ _ _ _ _ _ E E') as [_ D].
      injection D as <-. exact (any_fault_err _ _ Ha eq_refl). }
  assert (X : e = UnexpectedEof \/ exists bs tail, input = bs ++ tail /\ any_fault bs e).
  { assert (Hr : ready ar (de_from_slice input)) by (apply init_ready; auto).
    assert (Hb : all_bytes (rest (de_from_slice input))) by apply Hs.
    unfold mp_from_slice, dbind in E.
    destruct (r_de (run fuel) any (de_from_slice input)) as [s1 [a|e1]| |] eqn:E1; try discriminate.
    - exfalso. destruct (proj1 (any_sound ar fo fuel) _ _ _ Hr Hb E1) as (bs & A1 & P1).
      pose proof (ate_ready _ _ _ _ A1) as R1. unfold de_end in E. pose proof (rest_length _ _ R1) as L1.
      destruct (d_index s1 <=? zlen (sl_data (d_input s1))) eqn:E2; [|pose proof (zlen_nonneg (rest s1)); lia].
      match type of E with (if ?b then _ else _) _ = _ => destruct b end; discriminate.
    - injection E as _ <-. destruct (proj1 (any_blame fuel) _ _ _ Hr Hb E1) as [?|(bs & tl & H1 & H2)]; auto.
      right. exists bs, tl. auto. }
  destruct X as [->|X]; [exact (H eq_refl)|]. destruct e; try exact X. exact (H eq_refl).
Qed.
End AnyFault.

Theorem any_verdict_unique input bs e tail : slice64 input -> input = bs ++ tail -> any_fault bs e ->
  (forall bs' e' tail', input = bs' ++ tail' -> any_fault bs' e' -> e' = e) /\
  (forall m bs' v tail', input = bs' ++ tail' -> mp_fmt m bs' -> ~ denotes m (inl v)).
Proof.
  intros Hs Hi Hf. set (ar := {| usize_max := 2 ^ 64 - 1; overflow_checks := true |}). assert (A64 : arch64 ar) by reflexivity.
  set (fo := {| int_to_f32 := fun x => x; int_to_f64 := fun x => x; f64_to_f32 := fun x => x; f32_to_f64 := fun x => x |}).
  pose proof (arch64_up ar A64) as A32.
  pose proof (slice64_of ar _ A64 Hs) as Hs'. rewrite Hi in Hs'. destruct (any_fault_named ar fo A32 bs e tail Hf Hs') as [N HN].
  destruct (HN N (le_n _)) as [s E]. rewrite <- Hi in *. pose proof (slice64_of ar _ A64 Hs) as Hs2. split.
  - intros bs' e' tail' Hi' Hf'. rewrite Hi' in Hs2. destruct (any_fault_named ar fo A32 bs' e' tail' Hf' Hs2) as [N' HN'].
    destruct (HN' N' (le_n _)) as [s' E']. rewrite <- Hi' in *. destruct (MpFuel.budget_irrelevant ar fo _ _ _ _ _ _ _ _ E E') as [_ D]. congruence.
  - intros m bs' v tail' Hi' Hm Hv. rewrite Hi' in Hs2. destruct (any_read ar fo A32 m bs' v tail' Hm Hv Hs2) as [N' HN'].
    destruct (HN' N' (le_n _)) as [s' E']. rewrite <- Hi' in *. destruct (MpFuel.budget_irrelevant ar fo _ _ _ _ _ _ _ _ E E') as [_ D]. discriminate.
Qed.

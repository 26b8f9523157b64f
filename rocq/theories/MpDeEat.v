(** [eat_message] against the MessagePack format: completeness (C15, C17),
    soundness and termination (C16). *)
From Verif Require Import Prelude PreludeFacts Utf8 Utf8Spec Utf8Facts SerdeSer SerdeDe MpMagick MpSpec MpDe MpDeView MpDeReads.
Ltac Zify.zify_post_hook ::= Z.div_mod_to_equations.

Section Eat.
Context (ar : arch).
Local Notation M := (DM mpde mp_de_error).
Local Notation reads := (reads ar).

Ltac hdr := rewrite eat_message_S; unfold eat_header; apply reads_assoc; apply reads_cons; consts; ifs.

(** Codes followed by [n] payload bytes. *)
Lemma eat_plain f c bs n : zlen bs = n ->
  c = 0xc0 /\ n = 0 \/ c = 0xc2 /\ n = 0 \/ c = 0xc3 /\ n = 0 \/ 0 <= c < 128 /\ n = 0 \/ 0xe0 <= c < 256 /\ n = 0 \/
  c = 0xca /\ n = 4 \/ c = 0xcb /\ n = 8 \/ c = 0xcc /\ n = 1 \/ c = 0xcd /\ n = 2 \/ c = 0xce /\ n = 4 \/ c = 0xcf /\ n = 8 \/
  c = 0xd0 /\ n = 1 \/ c = 0xd1 /\ n = 2 \/ c = 0xd2 /\ n = 4 \/ c = 0xd3 /\ n = 8 \/
  c = 0xd4 /\ n = 2 \/ c = 0xd5 /\ n = 3 \/ c = 0xd6 /\ n = 5 \/ c = 0xd7 /\ n = 9 \/ c = 0xd8 /\ n = 17 ->
  reads (eat_message ar (S f)) (c :: bs) (Ok tt).
Proof.
  intros L H.
  assert (B : reads (eat_rest ar f (Single n)) bs (Ok tt)) by (subst n; apply reads_eat_single; lia).
  repeat match goal with H : _ \/ _ |- _ => destruct H as [H|H] end; destruct H as [Hc Hn];
  hdr; apply reads_ret_bind; rewrite Hn in B; exact B.
Qed.

Lemma eat_str f s h : str_hdr (zlen s) h -> reads (eat_message ar (S f)) (h ++ s) (Ok tt).
Proof.
  intros H. assert (L : zlen s < 2 ^ 32).
  { inversion H; subst; try lia; match goal with X : uint_be _ _ _ |- _ => apply uint_be_range in X; cbn in X; lia end. }
  assert (B : reads (eat_rest ar f (Single (zlen s))) s (Ok tt)) by (apply reads_eat_single; lia).
  inversion H; subst; cbn [app]; hdr.
  - rewrite land_31 by (auto; reflexivity). apply reads_ret_bind. exact B.
  - apply reads_assoc. eapply reads_bind; [apply reads_u8; eassumption|]. apply reads_ret_bind. exact B.
  - apply reads_assoc. eapply reads_bind; [apply reads_u16; eassumption|]. apply reads_ret_bind. exact B.
  - apply reads_assoc. eapply reads_bind; [apply reads_u32; eassumption|].
    apply reads_assoc. apply reads_try_usize; [lia|]. apply reads_ret_bind. exact B.
Qed.

Lemma eat_bin f s h : bin_hdr (zlen s) h -> reads (eat_message ar (S f)) (h ++ s) (Ok tt).
Proof.
  intros H. assert (L : zlen s < 2 ^ 32).
  { inversion H; subst; match goal with X : uint_be _ _ _ |- _ => apply uint_be_range in X; cbn in X; lia end. }
  assert (B : reads (eat_rest ar f (Single (zlen s))) s (Ok tt)) by (apply reads_eat_single; lia).
  inversion H; subst; cbn [app]; hdr.
  - apply reads_assoc. eapply reads_bind; [apply reads_u8; eassumption|]. apply reads_ret_bind. exact B.
  - apply reads_assoc. eapply reads_bind; [apply reads_u16; eassumption|]. apply reads_ret_bind. exact B.
  - apply reads_assoc. eapply reads_bind; [apply reads_u32; eassumption|].
    apply reads_assoc. apply reads_try_usize; [lia|]. apply reads_ret_bind. exact B.
Qed.

Lemma eat_ext f ty d h : ext_hdr (zlen d) h -> reads (eat_message ar (S f)) (h ++ ty :: d) (Ok tt).
Proof.
  intros H. apply reads_fits. intros F.
  assert (Lu : 1 + zlen d <= usize_max ar \/ wide ar).
  { destruct F as [F|F]; [auto|left]. rewrite zlen_app, zlen_cons in F. pose proof (zlen_nonneg h). pose proof (zlen_nonneg d). lia. }
  unfold wide in Lu. clear F. assert (L : zlen d < 2 ^ 32).
  { inversion H; subst; try lia; match goal with X : uint_be _ _ _ |- _ => apply uint_be_range in X; cbn in X; lia end. }
  assert (B : reads (eat_rest ar f (Single (1 + zlen d))) (ty :: d) (Ok tt)).
  { rewrite <- (zlen_cons ty d). apply reads_eat_single. rewrite zlen_cons. lia. }
  inversion H; subst; cbn [app].
  1-5: (eapply eat_plain; [reflexivity|rewrite zlen_cons; lia]).
  all: hdr.
  - apply reads_assoc. eapply reads_bind; [apply reads_u8; eassumption|].
    apply reads_assoc. apply reads_uadd; [lia|]. apply reads_ret_bind. exact B.
  - apply reads_assoc. eapply reads_bind; [apply reads_u16; eassumption|].
    apply reads_assoc. apply reads_uadd; [lia|]. apply reads_ret_bind. exact B.
  - apply reads_assoc. eapply reads_bind; [apply reads_u32; eassumption|].
    apply reads_assoc. apply reads_try_usize; [lia|].
    apply reads_assoc. apply reads_uadd; [lia|]. apply reads_ret_bind. exact B.
Qed.

Lemma eat_arr f n h bs : arr_hdr n h -> reads (eat_items ar f false n) bs (Ok tt) ->
  reads (eat_message ar (S f)) (h ++ bs) (Ok tt).
Proof.
  intros H B. change (reads (eat_rest ar f (Array n)) bs (Ok tt)) in B.
  inversion H; subst; cbn [app]; hdr.
  - rewrite land_15 by (auto; reflexivity). apply reads_ret_bind. exact B.
  - apply reads_assoc. eapply reads_bind; [apply reads_u16; eassumption|]. apply reads_ret_bind. exact B.
  - apply reads_assoc. eapply reads_bind; [apply reads_u32; eassumption|].
    apply reads_assoc. apply reads_try_usize; [|apply reads_ret_bind; exact B].
    match goal with X : uint_be _ _ _ |- _ => apply uint_be_range in X; cbn in X; lia end.
Qed.

Lemma eat_map f n h bs : map_hdr n h -> reads (eat_items ar f true n) bs (Ok tt) ->
  reads (eat_message ar (S f)) (h ++ bs) (Ok tt).
Proof.
  intros H B. change (reads (eat_rest ar f (Map n)) bs (Ok tt)) in B.
  inversion H; subst; cbn [app]; hdr.
  - rewrite land_15 by (auto; reflexivity). apply reads_ret_bind. exact B.
  - apply reads_assoc. eapply reads_bind; [apply reads_u16; eassumption|]. apply reads_ret_bind. exact B.
  - apply reads_assoc. eapply reads_bind; [apply reads_u32; eassumption|].
    apply reads_assoc. apply reads_try_usize; [|apply reads_ret_bind; exact B].
    match goal with X : uint_be _ _ _ |- _ => apply uint_be_range in X; cbn in X; lia end.
Qed.

Lemma eat_items_0 f pairs : reads (eat_items ar f pairs 0) [] (Ok tt).
Proof. destruct f; apply reads_ret. Qed.

Lemma eat_items_S f pairs n : 0 < n ->
  eat_items ar (S f) pairs n =
  dbind (eat_message ar f) (fun _ => dbind (if pairs then eat_message ar f else dret tt) (fun _ => eat_items ar f pairs (n - 1))).
Proof. intros H. cbn [eat_items]. destruct (n <=? 0) eqn:E; [lia|reflexivity]. Qed.

Lemma eat_items_le f pairs n : n <= 0 -> eat_items ar f pairs n = dret tt.
Proof. intros H. destruct f; cbn [eat_items]; (destruct (n <=? 0) eqn:E; [reflexivity|lia]). Qed.

Lemma mp_fmt_nonempty m bs : mp_fmt m bs -> bs <> [].
Proof.
  intros H. destruct H; try discriminate; try (destruct H; discriminate);
    try (destruct H0; discriminate).
  destruct H1; discriminate.
Qed.

(** Any well-formed message is eaten exactly; truncated ones are [UnexpectedEof].
    The budget needed is twice the length of the message. *)
Lemma eat_complete_budget :
  (forall m bs, mp_fmt m bs -> forall f, (2 * length bs <= f)%nat -> reads (eat_message ar f) bs (Ok tt)) /\
  (forall l bs, mp_fmt_list l bs -> forall f, (2 * length bs + 1 <= f)%nat -> reads (eat_items ar f false (zlen l)) bs (Ok tt)) /\
  (forall l bs, mp_fmt_pairs l bs -> forall f, (2 * length bs + 1 <= f)%nat -> reads (eat_items ar f true (zlen l)) bs (Ok tt)).
Proof.
  assert (S1 : forall bs, bs <> [] -> (forall f, reads (eat_message ar (S f)) bs (Ok tt)) ->
      forall f, (2 * length bs <= f)%nat -> reads (eat_message ar f) bs (Ok tt)).
  { intros [|b bs] Hne H; [congruence|]. intros [|f] Hf; [cbn [length] in Hf; lia|]. apply H. }
  assert (NE : forall m bs, mp_fmt m bs -> (1 <= length bs)%nat).
  { intros m bs H. apply mp_fmt_nonempty in H. destruct bs; [congruence|cbn [length]; lia]. }
  apply mp_fmt_mutind; intros.
  - apply S1; [discriminate| |auto]. intros g. eapply eat_plain; [reflexivity|]. change (zlen (@nil Z)) with 0. lia.
  - apply S1; [discriminate| |auto]. intros g. eapply eat_plain; [reflexivity|]. change (zlen (@nil Z)) with 0. lia.
  - apply S1; [discriminate| |auto]. intros g. eapply eat_plain; [reflexivity|]. change (zlen (@nil Z)) with 0. lia.
  - apply S1; [destruct i; discriminate| |auto]. intros g. inversion i; subst; (eapply eat_plain; [reflexivity|]);
    repeat match goal with X : uint_be _ _ _ |- _ => destruct X as [X _]; unfold zlen; rewrite X
                   | X : int_be _ _ _ |- _ => destruct X as [X _]; unfold zlen; rewrite X end; try (change (zlen (@nil Z)) with 0); lia.
  - apply S1; [discriminate| |auto]. intros g. eapply eat_plain; [reflexivity|]. apply uint_be_len in u. lia.
  - apply S1; [discriminate| |auto]. intros g. eapply eat_plain; [reflexivity|]. apply uint_be_len in u. lia.
  - apply S1; [apply (mp_fmt_nonempty (VStr s)), MF_str; auto| |auto]. intros g. apply eat_str; auto.
  - apply S1; [apply (mp_fmt_nonempty (VBin s)), MF_bin; auto| |auto]. intros g. apply eat_bin; auto.
  - assert (Hh : (1 <= length h)%nat) by (match goal with X : arr_hdr _ _ |- _ => destruct X; cbn [length]; lia end).
    rewrite app_length in *. destruct f as [|f]; [lia|]. eapply eat_arr; eauto. apply H. lia.
  - assert (Hh : (1 <= length h)%nat) by (match goal with X : map_hdr _ _ |- _ => destruct X; cbn [length]; lia end).
    rewrite app_length in *. destruct f as [|f]; [lia|]. eapply eat_map; eauto. apply H. lia.
  - apply S1; [destruct h; discriminate| |auto]. intros g. apply eat_ext; auto.
  - apply eat_items_0.
  - match goal with X : mp_fmt v _ |- _ => apply NE in X end. rewrite app_length in *. destruct f as [|f]; [lia|].
    rewrite eat_items_S by (rewrite zlen_cons; pose proof (zlen_nonneg l); lia).
    eapply reads_bind; [apply H; lia|]. apply reads_ret_bind.
    replace (zlen (v :: l) - 1) with (zlen l) by (rewrite zlen_cons; lia). apply H0. lia.
  - apply eat_items_0.
  - repeat match goal with X : mp_fmt _ _ |- _ => apply NE in X end. rewrite !app_length in *. destruct f as [|f]; [lia|].
    rewrite eat_items_S by (rewrite zlen_cons; pose proof (zlen_nonneg l); lia).
    eapply reads_bind; [apply H; lia|]. eapply reads_bind; [apply H0; lia|].
    replace (zlen ((k, v) :: l) - 1) with (zlen l) by (rewrite zlen_cons; lia). apply H1. lia.
Qed.

Lemma eat_complete :
  (forall m bs, mp_fmt m bs -> exists N, forall f, (N <= f)%nat -> reads (eat_message ar f) bs (Ok tt)) /\
  (forall l bs, mp_fmt_list l bs -> exists N, forall f, (N <= f)%nat -> reads (eat_items ar f false (zlen l)) bs (Ok tt)) /\
  (forall l bs, mp_fmt_pairs l bs -> exists N, forall f, (N <= f)%nat -> reads (eat_items ar f true (zlen l)) bs (Ok tt)).
Proof. destruct eat_complete_budget as (H1 & H2 & H3). split; [|split]; intros x bs H; eexists; eauto. Qed.

(** ** Soundness *)
(** [s'] is [s] after consuming exactly [bs]. *)
Definition ate s s' (bs : bytes) : Prop := adv ar s s' (zlen bs) /\ rest s = bs ++ rest s'.

Lemma ate_refl s : ready ar s -> ate s s [].
Proof. intros H. split; [apply adv_refl; auto|reflexivity]. Qed.
Lemma ate_trans s s1 s2 a b : ate s s1 a -> ate s1 s2 b -> ate s s2 (a ++ b).
Proof.
  intros [A1 A2] [B1 B2]. split; [rewrite zlen_app; eapply adv_trans; eauto|].
  rewrite A2, B2, app_assoc. auto.
Qed.
Lemma ate_ready s s' b : ate s s' b -> ready ar s'.
Proof. intros [[H _] _]. auto. Qed.
Lemma adv_ate s s' n : adv ar s s' n -> exists bs, ate s s' bs /\ zlen bs = n.
Proof.
  intros H. pose proof H as (H1 & H2 & H3 & H4). exists (firstn (Z.to_nat n) (rest s)).
  assert (L : zlen (firstn (Z.to_nat n) (rest s)) = n) by (unfold zlen in *; rewrite firstn_length; lia).
  split; [|auto]. split; [rewrite L; auto|]. rewrite H3, firstn_skipn. auto.
Qed.
Lemma ate_bytes s s' b : ate s s' b -> all_bytes (rest s) -> all_bytes b /\ all_bytes (rest s').
Proof. intros [_ ->] H. apply Forall_app in H. exact H. Qed.

Lemma fetch_run s : ready ar s ->
  match rest s with
  | [] => fetch ar s = Done s (Err UnexpectedEof)
  | c :: _ => exists s', fetch ar s = Done s' (Ok c) /\ ate s s' [c]
  end.
Proof.
  intros Hs. destruct (rest s) as [|c l] eqn:E.
  - unfold fetch, dbind. rewrite peek_run by apply Hs. rewrite E. reflexivity.
  - destruct (reads_fetch ar c s Hs (ready_fits_app ar s [c] l Hs E)) as [H _]. destruct (H l E) as (s' & F & A). exists s'. split; auto.
    split; auto. rewrite E. rewrite (adv_rest _ _ _ _ [c] l A E eq_refl). reflexivity.
Qed.

Lemma fetch_unsigned_run n s : ready ar s -> all_bytes (rest s) -> 0 <= n <= 8 ->
  (exists s' x h, fetch_unsigned ar n s = Done s' (Ok x) /\ ate s s' h /\ uint_be (Z.to_nat n) x h) \/
  (fetch_unsigned ar n s = Done s (Err UnexpectedEof) /\ zlen (rest s) < n).
Proof.
  intros Hs Hb Hn. destruct (Z_le_gt_dec n (zlen (rest s))) as [Hl|Hl].
  - left. set (h := firstn (Z.to_nat n) (rest s)).
    assert (L : zlen h = n) by (unfold h, zlen in *; rewrite firstn_length; lia).
    assert (Hr : rest s = h ++ skipn (Z.to_nat n) (rest s)) by (unfold h; rewrite firstn_skipn; auto).
    assert (U : uint_be (Z.to_nat n) (be_val h) h).
    { split; [unfold zlen in L; lia|]. split; auto. rewrite Hr in Hb. apply Forall_app in Hb. apply Hb. }
    destruct (reads_unsigned ar _ _ _ U ltac:(lia) s Hs (ready_fits_app ar s _ _ Hs Hr)) as [R _]. rewrite Z2Nat.id in R by lia.
    destruct (R _ Hr) as (s' & F & A). exists s', (be_val h), h. split; auto. split; auto. split; auto.
    rewrite (adv_rest _ _ _ _ _ _ A Hr eq_refl). auto.
  - right. split; [|lia]. pose proof (rest_length _ _ Hs) as L. unfold fetch_unsigned, fetch_array, dbind, get_index.
    rewrite uadd_run by (destruct Hs; lia). cbv iota beta.
    destruct ((d_index s <=? d_index s + n) && (d_index s + n <=? zlen (sl_data (d_input s)))) eqn:E'; [lia|].
    reflexivity.
Qed.

Lemma uint_be_lt n x h : uint_be n x h -> (n <= 4)%nat -> 0 <= x < 2 ^ 32.
Proof.
  intros H Hn. apply uint_be_range in H. assert (256 ^ Z.of_nat n <= 256 ^ 4) by (apply Z.pow_le_mono_r; lia).
  change (256 ^ 4) with (2 ^ 32) in *. lia.
Qed.

(** What a header says about the bytes that must follow. *)
Definition hd_ok (t : msg_type) (h : bytes) : Prop :=
  match t with
  | Single n => 0 <= n <= 2 ^ 32 /\ forall body, all_bytes body -> zlen body = n -> exists m, mp_fmt m (h ++ body)
  | Array n => 0 <= n /\ arr_hdr n h
  | Map n => 0 <= n /\ map_hdr n h
  end.

Lemma len0 (b : bytes) : zlen b = 0 -> b = [].
Proof. destruct b; auto. rewrite zlen_cons. pose proof (zlen_nonneg b). lia. Qed.

Lemma try_usize_run x s : ready ar s -> x < 2 ^ 32 -> try_usize ar x s = Done s (Ok x).
Proof.
  intros (_ & H & _) Hx. unfold try_usize.
  destruct (x <=? usize_max ar) eqn:E; [reflexivity|lia].
Qed.

Lemma land_15' c lo : lo <= c <= lo + 15 -> lo mod 16 = 0 -> Z.land c 0xf = c - lo.
Proof. intros. replace c with (lo + (c - lo)) at 1 by lia. apply land_15; auto. lia. Qed.
Lemma land_31' c lo : lo <= c <= lo + 31 -> lo mod 32 = 0 -> Z.land c 0x1f = c - lo.
Proof. intros. replace c with (lo + (c - lo)) at 1 by lia. apply land_31; auto. lia. Qed.

Lemma zlen_split2 (b : bytes) n : zlen b = 1 + n -> 0 <= n -> exists ty d, b = ty :: d /\ zlen d = n.
Proof. destruct b as [|ty d]; intros H Hn; [change (zlen (@nil Z)) with 0 in H; lia|]. rewrite zlen_cons in H. exists ty, d. split; auto. lia. Qed.

Lemma uint_exists n (b : bytes) : all_bytes b -> zlen b = Z.of_nat n -> uint_be n (be_val b) b.
Proof. intros H L. split; [unfold zlen in L; lia|auto]. Qed.
Lemma int_exists n (b : bytes) : all_bytes b -> zlen b = Z.of_nat n -> int_be n (to_signed (8 * Z.of_nat n) (be_val b)) b.
Proof. intros H L. split; [unfold zlen in L; lia|auto]. Qed.

Definition hd_post s (o : outcome mpde msg_type mp_de_error) : Prop :=
  exists s' r, o = Done s' r /\
  match r with
  | Err e => (exists n, adv ar s s' n) /\ (e = UnexpectedEof \/ e = ReservedCode /\ exists l, rest s = 0xc1 :: l)
  | Ok t => exists h, ate s s' h /\ hd_ok t h /\ h <> []
  end.

(** From here on no length addition can overflow. *)
Context (Wide : wide ar).

Lemma eat_header_run s : ready ar s -> all_bytes (rest s) -> hd_post s (eat_header ar s).
Proof.
  intros Hs Hb. unfold eat_header. unfold dbind at 1. pose proof (fetch_run s Hs) as F.
  destruct (rest s) as [|c l] eqn:Er.
  { rewrite F. exists s, (Err UnexpectedEof). split; auto. split; [exists 0; apply adv_refl; auto|auto]. }
  destruct F as (s1 & -> & A1). pose proof (ate_ready _ _ _ A1) as Hs1.
  assert (Hb1 : all_bytes (rest s1)) by (eapply ate_bytes; [exact A1|rewrite Er; auto]).
  assert (Hc : is_byte c) by (inversion Hb; auto).
  unfold is_byte in Hc.
  assert (RET : forall t, hd_ok t [c] -> hd_post s (dret t s1)).
  { intros t Ht. exists s1, (Ok t). split; auto. exists [c]. split; auto. split; auto. discriminate. }
  assert (U : forall n k, 0 <= n <= 8 ->
     (forall s2 x h, ate s s2 (c :: h) -> uint_be (Z.to_nat n) x h -> hd_post s (k x s2)) ->
     hd_post s (dbind (fetch_unsigned ar n) k s1)).
  { intros n k Hn Hk. unfold dbind. destruct (fetch_unsigned_run n s1 Hs1 Hb1 Hn) as [(s2 & x & h & -> & A2 & Hu)|[-> _]].
    - apply Hk with h; auto. change (c :: h) with ([c] ++ h). eapply ate_trans; eauto.
    - eexists. eexists. split; [reflexivity|]. split; [|auto]. exists 1. apply A1. }
  assert (DONE : forall s2 h t, ate s s2 (c :: h) -> hd_ok t (c :: h) -> hd_post s (dret t s2)).
  { intros s2 h t A Ht. exists s2, (Ok t). split; auto. exists (c :: h). split; auto. split; auto. discriminate. }
  assert (TU : forall s2 h x (k : Z -> M msg_type), ate s s2 (c :: h) -> x < 2 ^ 32 -> hd_post s (k x s2) ->
     hd_post s (dbind (try_usize ar x) k s2)).
  { intros s2 h x k A Hx Hk. unfold dbind. rewrite try_usize_run; auto. eapply ate_ready; eauto. }
  assert (UA : forall s2 h x (k : Z -> M msg_type), ate s s2 (c :: h) -> x < 2 ^ 32 -> hd_post s (k (1 + x) s2) ->
     hd_post s (dbind (uadd ar 1 x) k s2)).
  { intros s2 h x k A Hx Hk. unfold dbind. rewrite uadd_run; auto. unfold wide in Wide. lia. }
  unfold fetch_u8, fetch_u16, fetch_u32.
  assert (SING : forall n m, 0 <= n <= 2 ^ 32 -> (forall body, all_bytes body -> zlen body = n -> mp_fmt (m body) (c :: body)) ->
     hd_ok (Single n) [c]).
  { intros n m Hn Hm. split; auto. intros body H1 H2. exists (m body). apply Hm; auto. }
  assert (SINGLE : forall n h m, 0 <= n <= 2 ^ 32 -> (forall body, all_bytes body -> zlen body = n -> mp_fmt (m body) ((c :: h) ++ body)) ->
     hd_ok (Single n) (c :: h)).
  { intros n h m Hn Hm. split; auto. intros body H1 H2. exists (m body). apply Hm; auto. }
  assert (SW : orb ((c =? NIL) || (c =? FALSE) || (c =? TRUE) || is_fixint c) (orb (between FIXMAP FIXMAP_MAX c) (orb (between FIXARRAY FIXARRAY_MAX c) (orb (between FIXSTR FIXSTR_MAX c) (orb (c =? RESERVED) (orb ((c =? BIN_8) || (c =? STR_8)) (orb ((c =? BIN_16) || (c =? STR_16)) (orb ((c =? BIN_32) || (c =? STR_32)) (orb (c =? EXT_8) (orb (c =? EXT_16) (orb (c =? EXT_32) (orb (c =? FLOAT_32) (orb (c =? FLOAT_64) (orb (c =? UINT_8) (orb (c =? UINT_16) (orb (c =? UINT_32) (orb (c =? UINT_64) (orb (c =? INT_8) (orb (c =? INT_16) (orb (c =? INT_32) (orb (c =? INT_64) (orb (c =? FIXEXT_1) (orb (c =? FIXEXT_2) (orb (c =? FIXEXT_4) (orb (c =? FIXEXT_8) (orb (c =? FIXEXT_16) (orb (c =? ARRAY_16) (orb (c =? ARRAY_32) (orb (c =? MAP_16) ((c =? MAP_32)))))))))))))))))))))))))))))) = true).
  { apply (zrange_forall (fun c => orb ((c =? NIL) || (c =? FALSE) || (c =? TRUE) || is_fixint c) (orb (between FIXMAP FIXMAP_MAX c) (orb (between FIXARRAY FIXARRAY_MAX c) (orb (between FIXSTR FIXSTR_MAX c) (orb (c =? RESERVED) (orb ((c =? BIN_8) || (c =? STR_8)) (orb ((c =? BIN_16) || (c =? STR_16)) (orb ((c =? BIN_32) || (c =? STR_32)) (orb (c =? EXT_8) (orb (c =? EXT_16) (orb (c =? EXT_32) (orb (c =? FLOAT_32) (orb (c =? FLOAT_64) (orb (c =? UINT_8) (orb (c =? UINT_16) (orb (c =? UINT_32) (orb (c =? UINT_64) (orb (c =? INT_8) (orb (c =? INT_16) (orb (c =? INT_32) (orb (c =? INT_64) (orb (c =? FIXEXT_1) (orb (c =? FIXEXT_2) (orb (c =? FIXEXT_4) (orb (c =? FIXEXT_8) (orb (c =? FIXEXT_16) (orb (c =? ARRAY_16) (orb (c =? ARRAY_32) (orb (c =? MAP_16) ((c =? MAP_32))))))))))))))))))))))))))))))) 256); [vm_compute; reflexivity|lia]. }
  destruct ((c =? NIL) || (c =? FALSE) || (c =? TRUE) || is_fixint c) eqn:E0.
  { clear SW. apply RET. split; [lia|]. intros body _ L. apply len0 in L. subst body. consts.
    assert (c = 192 \/ c = 194 \/ c = 195 \/ 0 <= c < 128 \/ 224 <= c < 256) by lia.
    destruct H as [->|[->|[->|[?|?]]]]; cbn [app]; [eexists; constructor|eexists; constructor|eexists; constructor|..].
    - exists (VInt c). apply MF_int, IF_pos. auto.
    - exists (VInt (c - 256)). apply MF_int. replace [c] with [256 + (c - 256)] by (f_equal; lia). apply IF_neg. lia. }
  try rewrite E0 in SW; cbn [orb] in SW; clear E0.
  destruct (between FIXMAP FIXMAP_MAX c) eqn:E1.
  { clear SW. apply RET. consts. rewrite (land_15' c 128) by (try reflexivity; lia). split; [lia|].
    replace c with (0x80 + (c - 128)) at 2 by lia. apply MH_fix. lia. }
  try rewrite E1 in SW; cbn [orb] in SW; clear E1.
  destruct (between FIXARRAY FIXARRAY_MAX c) eqn:E2.
  { clear SW. apply RET. consts. rewrite (land_15' c 144) by (try reflexivity; lia). split; [lia|].
    replace c with (0x90 + (c - 144)) at 2 by lia. apply AH_fix. lia. }
  try rewrite E2 in SW; cbn [orb] in SW; clear E2.
  destruct (between FIXSTR FIXSTR_MAX c) eqn:E3.
  { clear SW. apply RET. consts. rewrite (land_31' c 160) by (try reflexivity; lia).
    apply SING with VStr; [lia|]. intros body H1 H2. change (c :: body) with ([c] ++ body).
    replace c with (0xa0 + (c - 160)) by lia. apply MF_str; auto. rewrite H2. apply SH_fix. lia. }
  try rewrite E3 in SW; cbn [orb] in SW; clear E3.
  destruct (c =? RESERVED) eqn:E4.
  { clear SW. exists s1, (Err ReservedCode). split; auto. split; [exists 1; apply A1|]. right. split; auto. exists l.
    rewrite Er. f_equal. consts. lia. }
  try rewrite E4 in SW; cbn [orb] in SW; clear E4.
  destruct ((c =? BIN_8) || (c =? STR_8)) eqn:E5.
  { clear SW. apply U; [lia|]. intros s2 x h A Hu. assert (Hx : 0 <= x < 2 ^ 32) by (eapply uint_be_lt; [exact Hu|lia]). apply DONE with h; auto. consts.
    assert (c = 196 \/ c = 217) as [->| ->] by lia.
    - apply SINGLE with VBin; [lia|]. intros body Hb' <-. apply MF_bin; auto. apply BH_8; auto.
    - apply SINGLE with VStr; [lia|]. intros body Hb' <-. apply MF_str; auto. apply SH_8; auto. }
  try rewrite E5 in SW; cbn [orb] in SW; clear E5.
  destruct ((c =? BIN_16) || (c =? STR_16)) eqn:E6.
  { clear SW. apply U; [lia|]. intros s2 x h A Hu. assert (Hx : 0 <= x < 2 ^ 32) by (eapply uint_be_lt; [exact Hu|lia]). apply DONE with h; auto. consts.
    assert (c = 197 \/ c = 218) as [->| ->] by lia.
    - apply SINGLE with VBin; [lia|]. intros body Hb' <-. apply MF_bin; auto. apply BH_16; auto.
    - apply SINGLE with VStr; [lia|]. intros body Hb' <-. apply MF_str; auto. apply SH_16; auto. }
  try rewrite E6 in SW; cbn [orb] in SW; clear E6.
  destruct ((c =? BIN_32) || (c =? STR_32)) eqn:E7.
  { clear SW. apply U; [lia|]. intros s2 x h A Hu. assert (Hx : 0 <= x < 2 ^ 32) by (eapply uint_be_lt; [exact Hu|lia]). eapply TU; [exact A|lia|].
    apply DONE with h; auto. consts.
    assert (c = 198 \/ c = 219) as [->| ->] by lia.
    - apply SINGLE with VBin; [lia|]. intros body Hb' <-. apply MF_bin; auto. apply BH_32; auto.
    - apply SINGLE with VStr; [lia|]. intros body Hb' <-. apply MF_str; auto. apply SH_32; auto. }
  assert (EXT : forall n h, 0 <= n < 2 ^ 32 -> ext_hdr n (c :: h) -> hd_ok (Single (1 + n)) (c :: h)).
  { clear SW. intros n h Hn He. split; [lia|]. intros body Hb' L. apply zlen_split2 in L; [|lia].
    destruct L as (ty & d & -> & <-). exists (VExt ty d). inversion Hb'; subst. apply MF_ext; auto. }
  try rewrite E7 in SW; cbn [orb] in SW; clear E7.
  destruct (c =? EXT_8) eqn:E8.
  { clear SW. apply U; [lia|]. intros s2 x h A Hu. assert (Hx : 0 <= x < 2 ^ 32) by (eapply uint_be_lt; [exact Hu|lia]). eapply UA; [exact A|lia|].
    apply DONE with h; auto. apply EXT; [lia|]. consts. replace c with 199 by lia. apply EH_8; auto. }
  try rewrite E8 in SW; cbn [orb] in SW; clear E8.
  destruct (c =? EXT_16) eqn:E9.
  { clear SW. apply U; [lia|]. intros s2 x h A Hu. assert (Hx : 0 <= x < 2 ^ 32) by (eapply uint_be_lt; [exact Hu|lia]). eapply UA; [exact A|lia|].
    apply DONE with h; auto. apply EXT; [lia|]. consts. replace c with 200 by lia. apply EH_16; auto. }
  try rewrite E9 in SW; cbn [orb] in SW; clear E9.
  destruct (c =? EXT_32) eqn:E10.
  { clear SW. apply U; [lia|]. intros s2 x h A Hu. assert (Hx : 0 <= x < 2 ^ 32) by (eapply uint_be_lt; [exact Hu|lia]).
    eapply TU; [exact A|lia|]. eapply UA; [exact A|lia|].
    apply DONE with h; auto. apply EXT; [lia|]. consts. replace c with 201 by lia. apply EH_32; auto. }
  try rewrite E10 in SW; cbn [orb] in SW; clear E10.
  destruct (c =? FLOAT_32) eqn:E11.
  { clear SW. apply RET, SING with (fun b => VF32 (be_val b)); [lia|]. intros body H1 H2. consts. replace c with 202 by lia.
    apply MF_f32, uint_exists; auto. }
  try rewrite E11 in SW; cbn [orb] in SW; clear E11.
  destruct (c =? FLOAT_64) eqn:E12.
  { clear SW. apply RET, SING with (fun b => VF64 (be_val b)); [lia|]. intros body H1 H2. consts. replace c with 203 by lia.
    apply MF_f64, uint_exists; auto. }
  try rewrite E12 in SW; cbn [orb] in SW; clear E12.
  destruct (c =? UINT_8) eqn:E13.
  { clear SW. apply RET, SING with (fun b => VInt (be_val b)); [lia|]. intros body H1 H2. consts. replace c with 204 by lia.
    apply MF_int, IF_u8, uint_exists; auto. }
  try rewrite E13 in SW; cbn [orb] in SW; clear E13.
  destruct (c =? UINT_16) eqn:E14.
  { clear SW. apply RET, SING with (fun b => VInt (be_val b)); [lia|]. intros body H1 H2. consts. replace c with 205 by lia.
    apply MF_int, IF_u16, uint_exists; auto. }
  try rewrite E14 in SW; cbn [orb] in SW; clear E14.
  destruct (c =? UINT_32) eqn:E15.
  { clear SW. apply RET, SING with (fun b => VInt (be_val b)); [lia|]. intros body H1 H2. consts. replace c with 206 by lia.
    apply MF_int, IF_u32, uint_exists; auto. }
  try rewrite E15 in SW; cbn [orb] in SW; clear E15.
  destruct (c =? UINT_64) eqn:E16.
  { clear SW. apply RET, SING with (fun b => VInt (be_val b)); [lia|]. intros body H1 H2. consts. replace c with 207 by lia.
    apply MF_int, IF_u64, uint_exists; auto. }
  try rewrite E16 in SW; cbn [orb] in SW; clear E16.
  destruct (c =? INT_8) eqn:E17.
  { clear SW. apply RET, SING with (fun b => VInt (to_signed (8 * Z.of_nat 1) (be_val b))); [lia|]. intros body H1 H2. consts. replace c with 208 by lia.
    apply MF_int, IF_i8, int_exists; auto. }
  try rewrite E17 in SW; cbn [orb] in SW; clear E17.
  destruct (c =? INT_16) eqn:E18.
  { clear SW. apply RET, SING with (fun b => VInt (to_signed (8 * Z.of_nat 2) (be_val b))); [lia|]. intros body H1 H2. consts. replace c with 209 by lia.
    apply MF_int, IF_i16, int_exists; auto. }
  try rewrite E18 in SW; cbn [orb] in SW; clear E18.
  destruct (c =? INT_32) eqn:E19.
  { clear SW. apply RET, SING with (fun b => VInt (to_signed (8 * Z.of_nat 4) (be_val b))); [lia|]. intros body H1 H2. consts. replace c with 210 by lia.
    apply MF_int, IF_i32, int_exists; auto. }
  try rewrite E19 in SW; cbn [orb] in SW; clear E19.
  destruct (c =? INT_64) eqn:E20.
  { clear SW. apply RET, SING with (fun b => VInt (to_signed (8 * Z.of_nat 8) (be_val b))); [lia|]. intros body H1 H2. consts. replace c with 211 by lia.
    apply MF_int, IF_i64, int_exists; auto. }
  try rewrite E20 in SW; cbn [orb] in SW; clear E20.
  destruct (c =? FIXEXT_1) eqn:E21.
  { clear SW. apply RET. change 2 with (1 + 1). apply EXT; [lia|]. consts. replace c with 212 by lia. apply EH_fix1. }
  try rewrite E21 in SW; cbn [orb] in SW; clear E21.
  destruct (c =? FIXEXT_2) eqn:E22.
  { clear SW. apply RET. change 3 with (1 + 2). apply EXT; [lia|]. consts. replace c with 213 by lia. apply EH_fix2. }
  try rewrite E22 in SW; cbn [orb] in SW; clear E22.
  destruct (c =? FIXEXT_4) eqn:E23.
  { clear SW. apply RET. change 5 with (1 + 4). apply EXT; [lia|]. consts. replace c with 214 by lia. apply EH_fix4. }
  try rewrite E23 in SW; cbn [orb] in SW; clear E23.
  destruct (c =? FIXEXT_8) eqn:E24.
  { clear SW. apply RET. change 9 with (1 + 8). apply EXT; [lia|]. consts. replace c with 215 by lia. apply EH_fix8. }
  try rewrite E24 in SW; cbn [orb] in SW; clear E24.
  destruct (c =? FIXEXT_16) eqn:E25.
  { clear SW. apply RET. change 17 with (1 + 16). apply EXT; [lia|]. consts. replace c with 216 by lia. apply EH_fix16. }
  try rewrite E25 in SW; cbn [orb] in SW; clear E25.
  destruct (c =? ARRAY_16) eqn:E26.
  { clear SW. apply U; [lia|]. intros s2 x h A Hu. assert (Hx : 0 <= x < 2 ^ 32) by (eapply uint_be_lt; [exact Hu|lia]). apply DONE with h; auto.
    split; [lia|]. consts. replace c with 220 by lia. apply AH_16; auto. }
  try rewrite E26 in SW; cbn [orb] in SW; clear E26.
  destruct (c =? ARRAY_32) eqn:E27.
  { clear SW. apply U; [lia|]. intros s2 x h A Hu. assert (Hx : 0 <= x < 2 ^ 32) by (eapply uint_be_lt; [exact Hu|lia]). eapply TU; [exact A|lia|].
    apply DONE with h; auto. split; [lia|]. consts. replace c with 221 by lia. apply AH_32; auto. }
  try rewrite E27 in SW; cbn [orb] in SW; clear E27.
  destruct (c =? MAP_16) eqn:E28.
  { clear SW. apply U; [lia|]. intros s2 x h A Hu. assert (Hx : 0 <= x < 2 ^ 32) by (eapply uint_be_lt; [exact Hu|lia]). apply DONE with h; auto.
    split; [lia|]. consts. replace c with 222 by lia. apply MH_16; auto. }
  try rewrite E28 in SW; cbn [orb] in SW; clear E28.
  apply U; [lia|]. intros s2 x h A Hu. assert (Hx : 0 <= x < 2 ^ 32) by (eapply uint_be_lt; [exact Hu|lia]). eapply TU; [exact A|lia|].
  apply DONE with h; auto. split; [lia|]. consts. replace c with 223 by lia. apply MH_32; auto.
Qed.

Definition eat_post (f : nat) s (o : outcome mpde unit mp_de_error) (B : nat) (ok : bytes -> Prop) : Prop :=
  match o with
  | Panic => False
  | OutOfFuel => (f < B)%nat
  | Done s' (Ok _) => exists bs, ate s s' bs /\ ok bs
  | Done s' (Err e) => (exists n, adv ar s s' n) /\ (e = UnexpectedEof \/ e = ReservedCode)
  end.

Lemma adv_ate_trans s s1 s2 a n : ate s s1 a -> adv ar s1 s2 n -> exists m, adv ar s s2 m.
Proof. intros [A _] B. eexists. eapply adv_trans; eauto. Qed.

Lemma ate_length s s' b : ate s s' b -> length (rest s) = (length b + length (rest s'))%nat.
Proof. intros [_ ->]. apply app_length. Qed.

Lemma eat_sound f :
  (forall s, ready ar s -> all_bytes (rest s) ->
     eat_post f s (eat_message ar f s) (2 * length (rest s) + 1)%nat (fun bs => exists m, mp_fmt m bs)) /\
  (forall s n, ready ar s -> all_bytes (rest s) -> 0 <= n ->
     eat_post f s (eat_items ar f false n s) (2 * length (rest s) + 2)%nat (fun bs => exists l, zlen l = n /\ mp_fmt_list l bs)) /\
  (forall s n, ready ar s -> all_bytes (rest s) -> 0 <= n ->
     eat_post f s (eat_items ar f true n s) (2 * length (rest s) + 2)%nat (fun bs => exists l, zlen l = n /\ mp_fmt_pairs l bs)).
Proof.
  induction f as [|f (IHm & IHl & IHp)].
  - split; [|split].
    + intros s Hs Hb. cbn. lia.
    + intros s n Hs Hb Hn. cbn [eat_items]. destruct (n <=? 0) eqn:E; [|cbn; lia].
      exists []. split; [apply ate_refl; auto|]. exists []. split; [unfold zlen; cbn; lia|constructor].
    + intros s n Hs Hb Hn. cbn [eat_items]. destruct (n <=? 0) eqn:E; [|cbn; lia].
      exists []. split; [apply ate_refl; auto|]. exists []. split; [unfold zlen; cbn; lia|constructor].
  - split; [|split].
    + intros s Hs Hb. rewrite eat_message_S. unfold dbind.
      destruct (eat_header_run s Hs Hb) as (s1 & r & -> & H). destruct r as [t|e].
      2:{ cbn. destruct H as [H1 H2]. split; auto. tauto. }
      destruct H as (h & A & Hh & Hne). pose proof (ate_ready _ _ _ A) as Hs1.
      destruct (ate_bytes _ _ _ A Hb) as [_ Hb1]. pose proof (ate_length _ _ _ A) as L.
      destruct h as [|h0 h]; [congruence|]. cbn [length] in L.
      destruct t as [n|n|n]; cbn [eat_rest hd_ok] in *.
      * destruct Hh as [Hn Hm]. unfold eat_single, dbind, get_index.
        rewrite uadd_run by (unfold wide in Wide; destruct Hs1; lia). cbv iota beta. pose proof (rest_length _ _ Hs1) as L1.
        destruct (zlen (sl_data (d_input s1)) <? d_index s1 + n) eqn:E; cbn.
        -- split; [exists (zlen (h0 :: h)); apply A|auto].
        -- assert (Hle : 0 <= n <= zlen (rest s1)) by lia. pose proof (adv_index ar s1 n Hs1 Hle) as A2.
           apply adv_ate in A2. destruct A2 as (bs & A2 & Lb).
           exists ((h0 :: h) ++ bs). split; [eapply ate_trans; eauto|]. apply Hm; auto.
           eapply ate_bytes; eauto.
      * destruct Hh as [Hn Hh]. specialize (IHl s1 n Hs1 Hb1 Hn).
        destruct (eat_items ar f false n s1) as [s2 [u|e]| |]; cbn in *.
        -- destruct IHl as (bs & A2 & l & Ll & Hl). exists ((h0 :: h) ++ bs). split; [eapply ate_trans; eauto|].
           exists (VArr l). apply MF_arr; auto. rewrite Ll. auto.
        -- destruct IHl as [(m & A2) He]. split; auto. eapply adv_ate_trans; eauto.
        -- auto.
        -- lia.
      * destruct Hh as [Hn Hh]. specialize (IHp s1 n Hs1 Hb1 Hn).
        destruct (eat_items ar f true n s1) as [s2 [u|e]| |]; cbn in *.
        -- destruct IHp as (bs & A2 & l & Ll & Hl). exists ((h0 :: h) ++ bs). split; [eapply ate_trans; eauto|].
           exists (VMap l). apply MF_map; auto. rewrite Ll. auto.
        -- destruct IHp as [(m & A2) He]. split; auto. eapply adv_ate_trans; eauto.
        -- auto.
        -- lia.
    + intros s n Hs Hb Hn. destruct (n <=? 0) eqn:E.
      { rewrite eat_items_le by lia. exists []. split; [apply ate_refl; auto|]. exists []. split; [unfold zlen; cbn; lia|constructor]. }
      rewrite eat_items_S by lia. specialize (IHm s Hs Hb). unfold dbind at 1.
      destruct (eat_message ar f s) as [s1 [u|e]| |]; cbn [eat_post] in *; [|auto|auto|lia].
      destruct IHm as (bs & A & m & Hm). pose proof (ate_ready _ _ _ A) as Hs1.
      destruct (ate_bytes _ _ _ A Hb) as [_ Hb1]. pose proof (ate_length _ _ _ A) as L.
      pose proof (mp_fmt_nonempty _ _ Hm) as Hne. destruct bs as [|b0 bs]; [congruence|]. cbn [length] in L.
      unfold dbind, dret. specialize (IHl s1 (n - 1) Hs1 Hb1 ltac:(lia)).
      destruct (eat_items ar f false (n - 1) s1) as [s2 [u2|e]| |]; cbn [eat_post] in *.
      * destruct IHl as (bs2 & A2 & l & Ll & Hl). exists ((b0 :: bs) ++ bs2). split; [eapply ate_trans; eauto|].
        exists (m :: l). split; [rewrite zlen_cons; lia|]. constructor; auto.
      * destruct IHl as [(k & A2) He]. split; auto. eapply adv_ate_trans; eauto.
      * auto.
      * lia.
    + intros s n Hs Hb Hn. destruct (n <=? 0) eqn:E.
      { rewrite eat_items_le by lia. exists []. split; [apply ate_refl; auto|]. exists []. split; [unfold zlen; cbn; lia|constructor]. }
      rewrite eat_items_S by lia. pose proof (IHm s Hs Hb) as H1. unfold dbind at 1.
      destruct (eat_message ar f s) as [s1 [u|e]| |]; cbn [eat_post] in *; [|auto|auto|lia].
      destruct H1 as (bs & A & m & Hm). pose proof (ate_ready _ _ _ A) as Hs1.
      destruct (ate_bytes _ _ _ A Hb) as [_ Hb1]. pose proof (ate_length _ _ _ A) as L.
      pose proof (mp_fmt_nonempty _ _ Hm) as Hne. destruct bs as [|b0 bs]; [congruence|]. cbn [length] in L.
      pose proof (IHm s1 Hs1 Hb1) as H1. unfold dbind at 1.
      destruct (eat_message ar f s1) as [s2 [u2|e]| |]; cbn [eat_post] in *; [|..|lia].
      2:{ destruct H1 as [(k & A2) He]. split; auto. eapply adv_ate_trans; eauto. }
      2: auto.
      destruct H1 as (bs2 & A2 & m2 & Hm2). pose proof (ate_ready _ _ _ A2) as Hs2.
      destruct (ate_bytes _ _ _ A2 Hb1) as [_ Hb2]. pose proof (ate_length _ _ _ A2) as L2.
      specialize (IHp s2 (n - 1) Hs2 Hb2 ltac:(lia)).
      pose proof (ate_trans _ _ _ _ _ A A2) as A3.
      destruct (eat_items ar f true (n - 1) s2) as [s3 [u3|e]| |]; cbn [eat_post] in *.
      * destruct IHp as (bs3 & A4 & l & Ll & Hl). exists ((b0 :: bs) ++ bs2 ++ bs3).
        split; [rewrite app_assoc; eapply ate_trans; eauto|].
        exists ((m, m2) :: l). split; [rewrite zlen_cons; lia|]. constructor; auto.
      * destruct IHp as [(k & A4) He]. split; auto. eapply adv_ate_trans; eauto.
      * auto.
      * lia.
Qed.

Lemma eat_reserved f s l : ready ar s -> rest s = 0xc1 :: l -> exists s', eat_message ar (S f) s = Done s' (Err ReservedCode).
Proof.
  intros Hs Hr. pose proof (fetch_run s Hs) as F. rewrite Hr in F. destruct F as (s1 & F & _).
  exists s1. rewrite eat_message_S. unfold dbind, eat_header, dbind at 1. rewrite F. reflexivity.
Qed.
End Eat.

(** Proofs about the writers of src/lib.rs and src/foreign.rs. *)
From Verif Require Import Prelude PreludeFacts Writer Foreign WriterSpec WriterContract WriterObs.

(** ** SliceWriter against the bounded log *)

Record sl_rel (buf : bytes) (w : slice_writer) (s : blog) : Prop := {
  slr_memlen : length (sl_mem w) = length buf;
  slr_base : sl_base w = length (concat (bl_heads s));
  slr_fit : (sl_base w + sl_cap w)%nat = length buf;
  slr_cap : sl_cap w = bl_cap s;
  slr_len : sl_len w = length (bl_log s);
  slr_high1 : (length (bl_log s) <= bl_high s)%nat;
  slr_high2 : (bl_high s <= bl_cap s)%nat;
  slr_heads : firstn (sl_base w) (sl_mem w) = concat (bl_heads s);
  slr_log : slice (sl_mem w) (sl_base w) (sl_len w) = bl_log s;
  slr_rest : skipn (sl_base w + bl_high s) (sl_mem w) = skipn (sl_base w + bl_high s) buf
}.

Lemma sl_rel_new buf : sl_rel buf (sl_new buf) (blog_empty (length buf)).
Proof. constructor; cbn; auto; lia. Qed.

Lemma sl_write_rel buf w s bs :
  sl_rel buf w s ->
  let '(w', r) := sl_write w bs in
  let '(s', b) := blog_append s bs in
  sl_rel buf w' s' /\ match r with Ok _ => true | Err _ => false end = b.
Proof.
  intros R. pose proof R as R'. destruct R' as [H1 H2 H3 H4 H5 H6 H7 H8 H9 H10].
  unfold sl_write, blog_append. rewrite <- H4, <- H5.
  destruct (sl_len w + length bs <=? sl_cap w)%nat eqn:E.
  - replace (sl_len w <=? sl_len w + length bs)%nat with true by lia. cbn [andb].
    split; [|reflexivity].
    apply Nat.leb_le in E.
    assert (HL : length (splice (sl_mem w) (sl_base w + sl_len w) bs) = length (sl_mem w)).
    { apply splice_length. lia. }
    constructor; cbn; auto; try lia.
    + rewrite app_length. lia.
    + rewrite app_length. lia.
    + change (slice (splice (sl_mem w) (sl_base w + sl_len w) bs) 0 (sl_base w) = concat (bl_heads s)).
      rewrite slice_splice_before by lia. exact H8.
    + rewrite slice_app_parts, slice_splice_same, slice_splice_before by lia. rewrite H9. auto.
    + rewrite skipn_splice_after by lia.
      set (m := Nat.max (bl_high s) (sl_len w + length bs)).
      replace (sl_base w + m)%nat with ((sl_base w + bl_high s) + (m - bl_high s))%nat by lia.
      rewrite <- !(skipn_add _ (m - bl_high s)), H10. auto.
  - destruct (sl_len w <=? sl_len w + length bs)%nat; cbn [andb]; auto.
Qed.

Lemma sl_step_rel buf w s o :
  sl_rel buf w s ->
  exists w', sl_step w o = Some (w', snd (blog_step s o)) /\ sl_rel buf w' (fst (blog_step s o)).
Proof.
  intros R. destruct o; cbn [sl_step blog_step SliceWriter SerWrite_default sw_write sw_write_byte sw_write_str].
  - pose proof (sl_write_rel buf w s bs R). destruct (sl_write w bs), (blog_append s bs).
    destruct H as [? <-]. eauto.
  - pose proof (sl_write_rel buf w s [b] R). destruct (sl_write w [b]), (blog_append s [b]).
    destruct H as [? <-]. eauto.
  - pose proof (sl_write_rel buf w s bs R). destruct (sl_write w bs), (blog_append s bs).
    destruct H as [? <-]. eauto.
  - unfold sl_fmt_write_str. cbn [SliceWriter SerWrite_default sw_write_str].
    pose proof (sl_write_rel buf w s bs R). destruct (sl_write w bs), (blog_append s bs).
    destruct H as [? <-]. eexists. split; [|eauto]. destruct r; auto.
  - eexists. split; [reflexivity|].
    destruct R. constructor; cbn; auto; try lia.
  - destruct R as [H1 H2 H3 H4 H5 H6 H7 H8 H9 H10].
    unfold sl_split. replace (sl_len w <=? sl_cap w)%nat with true by lia.
    eexists. split; [reflexivity|].
    constructor; cbn; auto; try lia.
    + rewrite concat_app, app_length. cbn. rewrite app_nil_r. lia.
    + rewrite concat_app. cbn. rewrite app_nil_r.
      rewrite <- (firstn_skipn (sl_base w) (firstn (sl_base w + sl_len w) (sl_mem w))).
      rewrite firstn_firstn, Nat.min_l by lia. rewrite H8.
      rewrite skipn_firstn_comm. f_equal. rewrite <- H9. unfold slice. f_equal. lia.
    + replace (sl_base w + sl_len w + (bl_high s - length (bl_log s)))%nat
        with (sl_base w + bl_high s)%nat by lia. auto.
Qed.

Lemma sl_run_rel buf w s os :
  sl_rel buf w s ->
  exists w', sl_run w os = Some (w', snd (blog_run s os)) /\ sl_rel buf w' (fst (blog_run s os)).
Proof.
  revert w s. induction os as [|o os IH]; intros w s R; cbn [sl_run blog_run].
  - eexists; split; [reflexivity|auto].
  - destruct (sl_step_rel buf w s o R) as (w1 & E1 & R1). rewrite E1.
    destruct (blog_step s o) as [s1 b]. cbn [fst snd] in *.
    destruct (IH w1 s1 R1) as (w2 & E2 & R2). rewrite E2.
    destruct (blog_run s1 os) as [s2 bs]. eauto.
Qed.

Lemma slice_writer_history buf os :
  exists w, sl_run (sl_new buf) os = Some (w, snd (blog_run (blog_empty (length buf)) os)) /\
    let s := fst (blog_run (blog_empty (length buf)) os) in
    sl_as_ref w = Some (bl_log s) /\
    sl_len w = length (bl_log s) /\
    sl_is_empty w = (length (bl_log s) =? 0)%nat /\
    sl_capacity w = bl_cap s /\
    sl_rem_capacity w = Some (bl_cap s - length (bl_log s))%nat /\
    (sl_len w + (bl_cap s - length (bl_log s)))%nat = sl_capacity w /\
    sl_mem w = concat (bl_heads s) ++ bl_log s ++
               skipn (length (concat (bl_heads s)) + length (bl_log s)) (sl_mem w) /\
    skipn (length (concat (bl_heads s)) + bl_high s) (sl_mem w) =
      skipn (length (concat (bl_heads s)) + bl_high s) buf /\
    length (sl_mem w) = length buf.
Proof.
  destruct (sl_run_rel buf _ _ os (sl_rel_new buf)) as (w & E & R).
  exists w. split; [exact E|]. cbn zeta. destruct R as [H1 H2 H3 H4 H5 H6 H7 H8 H9 H10].
  unfold sl_as_ref, sl_is_empty, sl_rem_capacity, sl_capacity.
  replace (sl_len w <=? sl_cap w)%nat with true by lia.
  rewrite H9, H5, <- H2, <- H4.
  repeat split; auto; try lia.
  rewrite <- H9, H5, <- H8 at 1. unfold slice. rewrite <- skipn_add.
  rewrite (firstn_skipn (length (bl_log _))), firstn_skipn. auto.
Qed.

Lemma slice_writer_failed_write w bs w' e :
  sl_write w bs = (w', Err e) -> w' = w.
Proof. unfold sl_write. destruct (_ && _); intros [= <-]; auto. Qed.

(** ** The contract, writer by writer *)

Lemma sl_content_length w : sl_inv w -> length (sl_content w) = sl_len w.
Proof. intros []. unfold sl_content. apply slice_length. lia. Qed.

Lemma sl_appends bs : appends sl_inv sl_content (fun w => sl_write w bs) bs.
Proof.
  intros w w' r [H1 H2]. unfold sl_write.
  destruct ((_ <=? _) && (_ <=? _))%nat eqn:E; intros [= <- <-].
  - unfold sl_inv, sl_content; cbn. rewrite splice_length by lia.
    repeat split; try lia.
    rewrite slice_app_parts, slice_splice_same, slice_splice_before by lia. auto.
  - repeat split; auto. exists []. split; [apply prefix_nil|]. rewrite app_nil_r. auto.
Qed.

Lemma SliceWriter_lawful : lawful SliceWriter sl_inv sl_content.
Proof. constructor; intros; apply sl_appends. Qed.

Lemma SliceWriter_atomic : atomic SliceWriter sl_inv sl_content.
Proof.
  constructor; intros bs w w' e _ H; cbn in H; apply slice_writer_failed_write in H; subst; auto.
Qed.

Lemma SliceWriter_bounded : bounded SliceWriter sl_inv sl_content sl_capacity.
Proof.
  assert (G : forall bs, fits sl_inv sl_content sl_capacity (fun w => sl_write w bs) (length bs)).
  { intros bs w w' r I. pose proof (sl_content_length w I) as L. rewrite L.
    unfold sl_write. destruct ((_ <=? _) && (_ <=? _))%nat eqn:E; intros [= <- <-].
    - split; auto. split; auto. unfold sl_capacity. lia.
    - split; auto. split; [discriminate|]. unfold sl_capacity. intros. lia. }
  constructor; intros; [apply G| apply (G [b]) |apply G].
Qed.

(** Within the capacity, [hv_extend] appends and nothing else happens. *)
Lemma hv_extend_room v bs : (length (hv_data v) + length bs <= hv_cap v)%nat ->
  hv_extend v bs = {| hv_data := hv_data v ++ bs; hv_cap := hv_cap v; hv_tick := hv_tick v;
                      hv_alloc := hv_alloc v; hv_abort := hv_abort v |}.
Proof.
  intros H. unfold hv_extend, hv_try_reserve. replace (_ <=? _)%nat with true by lia.
  rewrite orb_false_r. auto.
Qed.

Lemma deque_fold bs : forall v, (length (hv_data v) + length bs <= hv_cap v)%nat ->
  fold_left (fun v b => hv_extend v [b]) bs v = hv_extend v bs.
Proof.
  induction bs as [|b bs IH]; intros v H.
  - rewrite hv_extend_room by auto. cbn. rewrite app_nil_r. destruct v; auto.
  - cbn [length] in H. cbn [fold_left].
    rewrite (hv_extend_room v [b]) by (cbn [length]; lia).
    rewrite IH by (cbn [hv_data hv_cap]; rewrite app_length; cbn [length]; lia).
    rewrite !hv_extend_room by (cbn [hv_data hv_cap length]; rewrite ?app_length; cbn [length]; lia).
    cbn [hv_data hv_cap hv_tick hv_alloc hv_abort]. rewrite <- app_assoc. auto.
Qed.

(** Reserve, then write what was reserved. *)
Lemma hv_gen (wr : heap_vec -> bytes -> heap_vec * result unit ser_error) wb :
  (forall v bs, wr v bs = let '(v, ok) := hv_try_reserve v (length bs) in
     if ok then (hv_extend v bs, Ok tt) else (v, Err BufferFull)) ->
  (forall v b, wb v b = wr v [b]) ->
  let SW := {| sw_write := wr; sw_write_byte := wb; sw_write_str := wr |} in
  lawful SW hv_inv hv_data /\ atomic SW hv_inv hv_data /\ growable SW hv_inv hv_data hv_cap hv_tick hv_alloc.
Proof.
  intros Hw Hb SW.
  assert (K : forall bs w w' r, hv_inv w -> wr w bs = (w', r) ->
    hv_inv w' /\ hv_alloc w' = hv_alloc w /\
    (hv_data w' = match r with Ok _ => hv_data w ++ bs | Err _ => hv_data w end) /\
    ((length (hv_data w) + length bs <= hv_cap w)%nat -> r = Ok tt /\ hv_cap w' = hv_cap w /\ hv_tick w' = hv_tick w) /\
    ((hv_cap w < length (hv_data w) + length bs)%nat -> hv_tick w' = S (hv_tick w) /\
       match hv_alloc w (hv_tick w) (length (hv_data w) + length bs)%nat with
       | Some extra => r = Ok tt /\ hv_cap w' = (length (hv_data w) + length bs + extra)%nat
       | None => (exists e, r = Err e) /\ hv_cap w' = hv_cap w
       end)).
  { intros bs w w' r [I J]. rewrite Hw. unfold hv_try_reserve.
    destruct (_ <=? _)%nat eqn:E.
    - rewrite hv_extend_room by lia. intros [= <- <-].
      unfold hv_inv; cbn [hv_data hv_cap hv_tick hv_alloc hv_abort]. rewrite app_length.
      repeat split; auto; lia.
    - destruct (hv_alloc w (hv_tick w) _) as [x|] eqn:A.
      + rewrite hv_extend_room by (cbn [hv_data hv_cap]; lia). intros [= <- <-].
        unfold hv_inv; cbn [hv_data hv_cap hv_tick hv_alloc hv_abort]. rewrite app_length.
        repeat split; auto; lia.
      + intros [= <- <-]. unfold hv_inv; cbn [hv_data hv_cap hv_tick hv_alloc hv_abort].
        repeat split; auto; try lia. eexists; eauto. }
  assert (A : forall bs, appends hv_inv hv_data (fun v => wr v bs) bs).
  { intros bs w w' r I E. destruct (K bs w w' r I E) as (I' & _ & D & _). split; auto.
    destruct r; auto. exists []. split; [apply prefix_nil|]. rewrite app_nil_r. auto. }
  assert (F : forall bs, fails_clean hv_inv hv_data (fun v => wr v bs)).
  { intros bs w w' e I E. destruct (K bs w w' _ I E) as (_ & _ & D & _). auto. }
  assert (G : forall bs, asks hv_inv hv_data hv_cap hv_tick hv_alloc (fun v => wr v bs) (length bs)).
  { intros bs w w' r I E. destruct (K bs w w' r I E) as (_ & L & _ & M). auto. }
  split; [|split]; constructor; cbn; try (apply A || apply F || apply G).
  - intros b w w' r I E. rewrite Hb in E. eapply (A [b]); eauto.
  - intros b w w' r I E. rewrite Hb in E. eapply (F [b]); eauto.
  - intros b w w' r I E. rewrite Hb in E. eapply (G [b]); eauto.
Qed.

Lemma Vec_contract :
  lawful StdVec hv_inv hv_data /\ atomic StdVec hv_inv hv_data /\ growable StdVec hv_inv hv_data hv_cap hv_tick hv_alloc.
Proof. apply hv_gen; reflexivity. Qed.

Lemma VecDeque_contract :
  lawful StdVecDeque hv_inv hv_data /\ atomic StdVecDeque hv_inv hv_data /\
  growable StdVecDeque hv_inv hv_data hv_cap hv_tick hv_alloc.
Proof.
  apply hv_gen; [|reflexivity]. intros v bs. unfold deque_write.
  destruct (hv_try_reserve v (length bs)) as [v' ok] eqn:E. destruct ok; auto.
  rewrite deque_fold; auto. unfold hv_try_reserve in E. destruct (_ <=? _)%nat eqn:L.
  - injection E as <-. lia.
  - destruct (hv_alloc v (hv_tick v) _); [|discriminate]. injection E as <-. cbn [hv_data hv_cap]. lia.
Qed.

Lemma fv_gen (wr : fixed_vec -> bytes -> fixed_vec * result unit ser_error) wb :
  (forall v bs, wr v bs = match fv_try_extend v bs with Some v' => (v', Ok tt) | None => (v, Err BufferFull) end) ->
  (forall v b, wb v b = match fv_try_push v b with Some v' => (v', Ok tt) | None => (v, Err BufferFull) end) ->
  let SW := {| sw_write := wr; sw_write_byte := wb; sw_write_str := wr |} in
  lawful SW fv_inv fv_data /\ atomic SW fv_inv fv_data /\ bounded SW fv_inv fv_data fv_cap.
Proof.
  intros Hw Hb SW.
  assert (HB : forall v b, fv_inv v -> wb v b = wr v [b]).
  { intros v b I. rewrite Hw, Hb. unfold fv_try_extend, fv_try_push, fv_inv in *. cbn [length].
    destruct (_ <? fv_cap v)%nat eqn:A, (_ <? 1)%nat eqn:B; auto; lia. }
  assert (A : forall bs, appends fv_inv fv_data (fun v => wr v bs) bs).
  { intros bs w w' r I. rewrite Hw. unfold fv_try_extend. destruct (_ <? _)%nat eqn:E; intros [= <- <-].
    - split; auto. exists []. split; [apply prefix_nil|]. rewrite app_nil_r. auto.
    - unfold fv_inv in *. cbn. rewrite app_length. split; auto. lia. }
  assert (F : forall bs, fails_clean fv_inv fv_data (fun v => wr v bs)).
  { intros bs w w' r I. rewrite Hw. unfold fv_try_extend. destruct (_ <? _)%nat eqn:E; intros [= <-]; auto. }
  assert (B : forall bs, fits fv_inv fv_data fv_cap (fun v => wr v bs) (length bs)).
  { intros bs w w' r I. rewrite Hw. unfold fv_try_extend, fv_inv in *.
    destruct (_ <? _)%nat eqn:E; intros [= <- <-]; cbn; (split; [auto|split; [try discriminate|auto]]); intros; lia || auto. }
  split; [|split]; constructor; cbn; try (apply A || apply F || apply B).
  - intros b w w' r I E. rewrite HB in E by auto. eapply (A [b]); eauto.
  - intros b w w' r I E. rewrite HB in E by auto. eapply (F [b]); eauto.
  - intros b w w' r I E. rewrite HB in E by auto. eapply (B [b]); eauto.
Qed.

Lemma ArrayVec_contract :
  lawful ArrayVecWriter fv_inv fv_data /\ atomic ArrayVecWriter fv_inv fv_data /\
  bounded ArrayVecWriter fv_inv fv_data fv_cap.
Proof. apply fv_gen; reflexivity. Qed.

Lemma Heapless_contract :
  lawful HeaplessWriter fv_inv fv_data /\ atomic HeaplessWriter fv_inv fv_data /\
  bounded HeaplessWriter fv_inv fv_data fv_cap.
Proof. apply fv_gen; reflexivity. Qed.

Lemma SmallVec_contract :
  lawful SmallVecWriter hv_inv hv_data /\ atomic SmallVecWriter hv_inv hv_data /\
  growable SmallVecWriter hv_inv hv_data hv_cap hv_tick hv_alloc.
Proof. apply hv_gen; reflexivity. Qed.

(** tinyvec ArrayVec / SliceVec *)
Lemma ta_content_length v : ta_inv v -> length (ta_content v) = ta_len v.
Proof. intros. apply slice_length. unfold ta_inv in *. lia. Qed.

Lemma ta_write_spec v bs : ta_inv v ->
  let '(v', r) := tinyvec_write v bs in
  ta_inv v' /\ ta_cap v' = ta_cap v /\
  match r with
  | Ok _ => ta_content v' = ta_content v ++ bs /\ (ta_len v + length bs <= ta_cap v)%nat
  | Err _ => v' = v /\ (ta_cap v < ta_len v + length bs)%nat
  end.
Proof.
  intros I. unfold tinyvec_write, ta_inv, ta_cap in *. rewrite skipn_length.
  destruct (length bs =? 0)%nat eqn:E0.
  - assert (bs = []) as -> by (destruct bs; cbn in *; auto; lia). rewrite app_nil_r. cbn. repeat split; auto; lia.
  - destruct (_ <=? _)%nat eqn:E; cbn.
    + rewrite splice_length by lia. repeat split; try lia.
      unfold ta_content. cbn. rewrite slice_app_parts. cbn [Nat.add].
      rewrite slice_splice_same, slice_splice_before by lia. auto.
    + repeat split; auto. lia.
Qed.

Lemma ta_write_byte_eq v b : ta_inv v -> tinyvec_write_byte v b = tinyvec_write v [b].
Proof.
  intros I. unfold tinyvec_write_byte, tinyvec_write, ta_inv in *. rewrite skipn_length. cbn [length Nat.eqb].
  destruct (_ <? _)%nat eqn:A, (_ <=? _)%nat eqn:B; auto; try lia.
  replace (ta_len v + 1)%nat with (S (ta_len v)) by lia. auto.
Qed.

Lemma ta_gen wb : (forall v b, ta_inv v -> wb v b = tinyvec_write v [b]) ->
  let SW := {| sw_write := tinyvec_write; sw_write_byte := wb; sw_write_str := tinyvec_write |} in
  lawful SW ta_inv ta_content /\ atomic SW ta_inv ta_content /\ bounded SW ta_inv ta_content ta_cap.
Proof.
  intros HB SW.
  assert (A : forall bs, appends ta_inv ta_content (fun v => tinyvec_write v bs) bs).
  { intros bs w w' r I E. pose proof (ta_write_spec w bs I) as H. rewrite E in H.
    destruct H as (? & ? & H). split; auto. destruct r; [tauto|]. destruct H as [-> _].
    exists []. split; [apply prefix_nil|]. rewrite app_nil_r. auto. }
  assert (F : forall bs, fails_clean ta_inv ta_content (fun v => tinyvec_write v bs)).
  { intros bs w w' r I E. pose proof (ta_write_spec w bs I) as H. rewrite E in H.
    destruct H as (? & ? & -> & _); auto. }
  assert (B : forall bs, fits ta_inv ta_content ta_cap (fun v => tinyvec_write v bs) (length bs)).
  { intros bs w w' r I E. pose proof (ta_write_spec w bs I) as H. rewrite E in H.
    rewrite ta_content_length by auto. destruct H as (? & ? & H). split; auto.
    destruct r as [[]|]; split; intros; try tauto; try discriminate. destruct H. lia. }
  split; [|split]; constructor; cbn; try (apply A || apply F || apply B).
  - intros b w w' r I E. rewrite HB in E by auto. eapply (A [b]); eauto.
  - intros b w w' r I E. rewrite HB in E by auto. eapply (F [b]); eauto.
  - intros b w w' r I E. rewrite HB in E by auto. eapply (B [b]); eauto.
Qed.

Lemma TinyArrayVec_contract :
  lawful TinyArrayVecWriter ta_inv ta_content /\ atomic TinyArrayVecWriter ta_inv ta_content /\
  bounded TinyArrayVecWriter ta_inv ta_content ta_cap.
Proof. apply ta_gen. exact ta_write_byte_eq. Qed.

Lemma TinySliceVec_contract :
  lawful TinySliceVecWriter ta_inv ta_content /\ atomic TinySliceVecWriter ta_inv ta_content /\
  bounded TinySliceVecWriter ta_inv ta_content ta_cap.
Proof. apply ta_gen. reflexivity. Qed.

(** tinyvec TinyVec: the invariant excludes the panic state. *)
Lemma TinyVec_contract :
  lawful TinyVecWriter tv_inv tv_content /\ atomic TinyVecWriter tv_inv tv_content /\
  growable TinyVecWriter tv_inv tv_content tv_cap tv_tick tv_alloc.
Proof.
  assert (K : forall bs w w' r, tv_inv w -> tinyvec_heap_write w bs = (w', r) ->
    tv_inv w' /\ tv_alloc w' = tv_alloc w /\
    (tv_content w' = match r with Ok _ => tv_content w ++ bs | Err _ => tv_content w end) /\
    ((length (tv_content w) + length bs <= tv_cap w)%nat -> r = Ok tt /\ tv_cap w' = tv_cap w /\ tv_tick w' = tv_tick w) /\
    ((tv_cap w < length (tv_content w) + length bs)%nat -> tv_tick w' = S (tv_tick w) /\
       match tv_alloc w (tv_tick w) (length (tv_content w) + length bs)%nat with
       | Some extra => r = Ok tt /\ tv_cap w' = (length (tv_content w) + length bs + extra)%nat
       | None => (exists e, r = Err e) /\ tv_cap w' = tv_cap w
       end)).
  { intros bs w w' r I. unfold tinyvec_heap_write.
    destruct w as [d c t al|h|]; cbn [tv_inv] in I; [| |tauto]; cbn [tv_try_reserve].
    - destruct (_ <? _)%nat eqn:E.
      + destruct (al t _) as [x|] eqn:X.
        * rewrite hv_extend_room by (cbn [hv_data hv_cap]; lia). intros [= <- <-].
          cbn [tv_inv tv_content tv_cap tv_tick tv_alloc]. unfold hv_inv. cbn [hv_data hv_cap hv_tick hv_alloc hv_abort].
          rewrite X, app_length. repeat split; auto; lia.
        * intros [= <- <-]. cbn [tv_inv tv_content tv_cap tv_tick tv_alloc]. rewrite X.
          repeat split; auto; try lia. eexists; eauto.
      + replace (_ <=? c)%nat with true by lia. intros [= <- <-].
        cbn [tv_inv tv_content tv_cap tv_tick tv_alloc]. rewrite app_length. repeat split; auto; lia.
    - pose proof (growable_write _ _ _ _ _ _ (proj2 (proj2 Vec_contract)) bs h) as G.
      pose proof (law_write _ _ _ (proj1 Vec_contract) bs h) as A.
      pose proof (atomic_write _ _ _ (proj1 (proj2 Vec_contract)) bs h) as F.
      cbn in A, F, G. unfold vec_write in A, F, G.
      destruct (hv_try_reserve h (length bs)) as [h' ok]. destruct ok; intros [= <- <-];
        cbn [tv_inv tv_content tv_cap tv_tick tv_alloc].
      + destruct (A _ _ I eq_refl). destruct (G _ _ I eq_refl) as (? & ? & ?). auto.
      + destruct (A _ _ I eq_refl). destruct (G _ _ I eq_refl) as (? & ? & ?).
        split; auto. split; auto. split; [|auto]. exact (F _ _ I eq_refl). }
  assert (A : forall bs, appends tv_inv tv_content (fun v => tinyvec_heap_write v bs) bs).
  { intros bs w w' r I E. destruct (K bs w w' r I E) as (I' & _ & D & _). split; auto.
    destruct r; auto. exists []. split; [apply prefix_nil|]. rewrite app_nil_r. auto. }
  assert (F : forall bs, fails_clean tv_inv tv_content (fun v => tinyvec_heap_write v bs)).
  { intros bs w w' e I E. destruct (K bs w w' _ I E) as (_ & _ & D & _). auto. }
  assert (G : forall bs, asks tv_inv tv_content tv_cap tv_tick tv_alloc (fun v => tinyvec_heap_write v bs) (length bs)).
  { intros bs w w' r I E. destruct (K bs w w' r I E) as (_ & L & _ & M). auto. }
  split; [|split]; constructor; intros; try apply A; try apply F; try apply G.
Qed.

(** Cursor over a fixed buffer: lawful, but not atomic. *)
Lemma cursor_write_spec c bs : cu_inv c ->
  let '(c', r) := cursor_write c bs in
  let n := Nat.min (length bs) (length (cu_buf c) - cu_pos c) in
  cu_inv c' /\ cu_pos c' = (cu_pos c + n)%nat /\
  cu_buf c' = splice (cu_buf c) (cu_pos c) (firstn n bs) /\
  cu_content c' = cu_content c ++ firstn n bs /\
  (r = Ok tt <-> (cu_pos c + length bs <= length (cu_buf c))%nat).
Proof.
  intros I. unfold cu_inv in *. unfold cursor_write.
  destruct bs as [|b bs].
  - cbn. rewrite !app_nil_r, Nat.add_0_r. unfold splice. cbn. rewrite Nat.add_0_r, firstn_skipn.
    repeat split; auto; lia.
  - set (l := b :: bs). unfold cursor_io_write. rewrite (Nat.min_l (cu_pos c)) by lia.
    set (n := Nat.min (length l) (length (cu_buf c) - cu_pos c)).
    assert (Hn : length (firstn n l) = n) by (rewrite firstn_length; lia).
    cbn [cu_buf cu_pos]. rewrite splice_length by lia.
    repeat split; try lia.
    + unfold cu_content. cbn [cu_buf cu_pos]. rewrite slice_app_parts. cbn [Nat.add].
      rewrite slice_splice_before by lia. rewrite <- Hn at 2. rewrite slice_splice_same by lia. auto.
    + destruct (n =? length l)%nat eqn:E; [|discriminate]. lia.
    + intros. replace (n =? length l)%nat with true by lia. auto.
Qed.

Lemma StdCursor_lawful : lawful StdCursor cu_inv cu_content.
Proof.
  assert (A : forall bs, appends cu_inv cu_content (fun v => cursor_write v bs) bs).
  { intros bs w w' r I E. pose proof (cursor_write_spec w bs I) as H. rewrite E in H. cbn zeta in H.
    destruct H as (H1 & H2 & H3 & H4 & H5). split; auto.
    destruct r as [[]|].
    - rewrite H4. f_equal. apply firstn_all2. destruct H5 as [H5 _]. specialize (H5 eq_refl). lia.
    - eexists. split; [|exact H4]. eexists. symmetry. apply firstn_skipn. }
  constructor; intros; apply A.
Qed.

Lemma StdCursor_bounded : bounded StdCursor cu_inv cu_content (fun c => length (cu_buf c)).
Proof.
  assert (G : forall bs, fits cu_inv cu_content (fun c => length (cu_buf c)) (fun w => cursor_write w bs) (length bs)).
  { intros bs w w' r I E. pose proof (cursor_write_spec w bs I) as H. rewrite E in H. cbn zeta in H.
    destruct H as (H1 & H2 & H3 & H4 & H5). unfold cu_content. rewrite slice_length by (unfold cu_inv in *; lia).
    split; auto. rewrite H3. apply splice_length. rewrite firstn_length. unfold cu_inv in *; lia. }
  constructor; intros; [apply G| apply (G [b]) |apply G].
Qed.

Lemma StdCursorVec_lawful : lawful StdCursorVec cu_inv cu_content.
Proof.
  assert (A : forall bs, appends cu_inv cu_content (fun v => cursor_vec_write v bs) bs).
  { intros bs w w' r I. unfold cursor_vec_write. unfold cu_inv, cu_content in *.
    destruct bs as [|b bs].
    - intros [= <- <-]. rewrite app_nil_r. auto.
    - set (l := b :: bs). replace (cu_pos w - length (cu_buf w))%nat with 0%nat by lia.
      cbn [repeat]. rewrite app_nil_r. intros [= <- <-]. cbn [cu_buf cu_pos].
      split; [rewrite app_length; cbn [length]; rewrite app_length, firstn_length; lia|].
      change (cu_pos w + S (length bs))%nat with (cu_pos w + length l)%nat.
      change (firstn (cu_pos w) (cu_buf w) ++ b :: bs ++ skipn (cu_pos w + length l) (cu_buf w))
        with (splice (cu_buf w) (cu_pos w) l).
      rewrite slice_app_parts. cbn [Nat.add]. rewrite slice_splice_same, slice_splice_before by lia. auto. }
  constructor; intros; apply A.
Qed.

Lemma VecWriter_lawful E : lawful (@VecWriter E) (fun _ => True) (fun w => w).
Proof. constructor; intros x w w' r _ [= <- <-]; auto. Qed.

Lemma cursor_write_full c bs c' r : cu_inv c -> sw_write StdCursor c bs = (c', r) ->
  let n := Nat.min (length bs) (length (cu_buf c) - cu_pos c) in
  cu_inv c' /\ cu_pos c' = (cu_pos c + n)%nat /\
  cu_buf c' = splice (cu_buf c) (cu_pos c) (firstn n bs) /\
  cu_content c' = cu_content c ++ firstn n bs /\
  (r = Ok tt <-> (cu_pos c + length bs <= length (cu_buf c))%nat).
Proof. intros I E. pose proof (cursor_write_spec c bs I) as H. cbn in E. rewrite E in H. exact H. Qed.

Lemma StdCursor_not_atomic : ~ atomic StdCursor cu_inv cu_content.
Proof.
  intros [H _ _]. specialize (H [1;2] {| cu_buf := [0]; cu_pos := 0 |}).
  unfold cu_inv, cu_content in H. cbn in H.
  assert (E : slice [1] 0 1 = slice [0] 0 0) by (apply (H {| cu_buf := [1]; cu_pos := 1 |} BufferFull); [lia|reflexivity]).
  discriminate E.
Qed.

(** Operations on a writer only touch memory from its base on. *)
Lemma sl_step_frame w o w' b : sl_inv w -> sl_step w o = Some (w', b) ->
  sl_inv w' /\ (sl_base w <= sl_base w')%nat /\
  forall n, (n <= sl_base w)%nat -> firstn n (sl_mem w') = firstn n (sl_mem w).
Proof.
  assert (G : forall w bs, sl_inv w -> let w' := fst (sl_write w bs) in
     sl_inv w' /\ sl_base w' = sl_base w /\
     forall n, (n <= sl_base w)%nat -> firstn n (sl_mem w') = firstn n (sl_mem w)).
  { clear. intros w bs I. pose proof (sl_appends bs w _ _ I (surjective_pairing _)) as [I' _].
    split; auto. unfold sl_write, sl_inv in *. destruct ((_ <=? _) && (_ <=? _))%nat eqn:E; cbn; auto.
    split; auto. intros n Hn. change (slice (splice (sl_mem w) (sl_base w + sl_len w) bs) 0 n = slice (sl_mem w) 0 n).
    apply slice_splice_before; lia. }
  intros I. destruct o; cbn; unfold sl_fmt_write_str; cbn.
  1,3,4: specialize (G w bs I); destruct (sl_write w bs); intros [= <- <-]; cbn in *;
         destruct G as (? & -> & ?); auto.
  - specialize (G w [b0] I); destruct (sl_write w [b0]); intros [= <- <-]; cbn in *;
         destruct G as (? & -> & ?); auto.
  - intros [= <- <-]. cbn. unfold sl_inv in *. cbn. repeat split; auto; lia.
  - unfold sl_split. destruct (_ <=? _)%nat eqn:E; [|discriminate]. intros [= <- <-].
    unfold sl_inv in *. cbn. repeat split; auto; lia.
Qed.

Lemma sl_run_frame w os w' bs : sl_inv w -> sl_run w os = Some (w', bs) ->
  sl_inv w' /\ forall n, (n <= sl_base w)%nat -> firstn n (sl_mem w') = firstn n (sl_mem w).
Proof.
  revert w w' bs. induction os as [|o os IH]; intros w w' bs I; cbn.
  - intros [= <- <-]. auto.
  - destruct (sl_step w o) as [[w1 b]|] eqn:E1; [|discriminate].
    destruct (sl_run w1 os) as [[w2 bs']|] eqn:E2; [|discriminate].
    intros [= <- <-]. apply sl_step_frame in E1; auto. destruct E1 as (I1 & B & F).
    apply IH in E2; auto. destruct E2 as (I2 & F2). split; auto.
    intros n Hn. rewrite F2, F by lia. auto.
Qed.

Lemma split_head_stable w h n w1 os w2 rs :
  sl_inv w -> sl_split w = Some ((h, n), w1) -> sl_run w1 os = Some (w2, rs) ->
  slice (sl_mem w1) h n = sl_content w /\
  sl_content w1 = [] /\ sl_capacity w1 = (sl_capacity w - length (sl_content w))%nat /\
  sl_base w1 = (h + n)%nat /\
  firstn (h + n) (sl_mem w2) = firstn (h + n) (sl_mem w1).
Proof.
  intros I E R. pose proof (sl_content_length w I) as L.
  unfold sl_split in E. destruct (_ <=? _)%nat eqn:G; [|discriminate]. injection E as <- <- <-.
  apply sl_run_frame in R; [|unfold sl_inv in *; cbn; lia].
  unfold sl_capacity in *. cbn in *. rewrite L. unfold sl_content. cbn.
  repeat split; auto. destruct R as [_ R]. apply R. lia.
Qed.

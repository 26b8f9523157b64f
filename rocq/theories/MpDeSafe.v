(** Safety of the MessagePack deserializer under arbitrary Deserialize programs:
    no panic, cursor inside the input, borrowed slices valid. *)
From Verif Require Import Prelude PreludeFacts Utf8 Utf8Spec Utf8Facts SerdeSer SerdeDe MpMagick MpSpec MpDe MpDeView MpDeReads MpDeEat.
Ltac Zify.zify_post_hook ::= Z.div_mod_to_equations.

(** [x] is a sub-slice of [orig]; when handed out as a [&str] it is valid UTF-8. *)
Definition borrowed (orig : bytes) (is_str : bool) (x : sl) : Prop :=
  0 <= sl_off x /\ sl_off x + zlen (sl_data x) <= zlen orig /\
  sl_data x = slice orig (Z.to_nat (sl_off x)) (length (sl_data x)) /\
  (is_str = true -> valid_utf8 (sl_data x)).

Section Safe.
Context (ar : arch) (fo : float_ops) (orig : bytes).
Local Notation M := (DM mpde mp_de_error).

(** The invariant: the deserializer's input is the tail of [orig]. *)
Definition inv (s : mpde) : Prop :=
  ready ar s /\ all_bytes orig /\ 0 <= sl_off (d_input s) <= zlen orig /\
  sl_data (d_input s) = skipn (Z.to_nat (sl_off (d_input s))) orig /\
  Forall (fun p => borrowed orig (fst p) (snd p)) (d_log s).

(** The cursor does not move back, except where skipping wraps around (C18). *)
Definition later (s s' : mpde) : Prop :=
  (wide ar -> pos s <= pos s') /\ exists new, d_log s' = new ++ d_log s.

Definition safeq {A} (m : M A) (Q : A -> Prop) : Prop := forall s, inv s ->
  match m s with
  | Done s' (Ok a) => inv s' /\ later s s' /\ Q a
  | Done s' (Err _) => inv s' /\ later s s'
  | Panic => False
  | OutOfFuel => True
  end.
Definition safe {A} (m : M A) : Prop := safeq m (fun _ => True).

Lemma later_refl s : later s s.
Proof. split; [lia|]. exists []. auto. Qed.
Lemma later_trans a b c : later a b -> later b c -> later a c.
Proof.
  intros [H1 [n1 E1]] [H2 [n2 E2]]. split; [lia|]. exists (n2 ++ n1). rewrite E2, E1, app_assoc. auto.
Qed.

Lemma safeq_weaken {A} (m : M A) (Q Q' : A -> Prop) : (forall a, Q a -> Q' a) -> safeq m Q -> safeq m Q'.
Proof. intros HQ H s Hs. specialize (H s Hs). destruct (m s) as [s' [a|e]| |]; intuition auto. Qed.

Lemma safeq_safe {A} (m : M A) Q : safeq m Q -> safe m.
Proof. apply safeq_weaken. auto. Qed.

Lemma safeq_bind {A B} (m : M A) (k : A -> M B) Q Q' :
  safeq m Q -> (forall a, Q a -> safeq (k a) Q') -> safeq (dbind m k) Q'.
Proof.
  intros Hm Hk s Hs. unfold dbind. specialize (Hm s Hs). destruct (m s) as [s1 [a|e]| |]; auto.
  destruct Hm as (I1 & L1 & Qa). specialize (Hk a Qa s1 I1).
  destruct (k a s1) as [s2 [b|e]| |]; auto; intuition (eapply later_trans; eauto).
Qed.

Lemma safe_bind {A B} (m : M A) (k : A -> M B) Q' : safe m -> (forall a, safeq (k a) Q') -> safeq (dbind m k) Q'.
Proof. intros Hm Hk. eapply safeq_bind; [exact Hm|auto]. Qed.

Lemma safe_try {A B} (m : M A) (k : result A mp_de_error -> M B) Q' :
  safe m -> (forall a, safeq (k a) Q') -> safeq (dtry m k) Q'.
Proof.
  intros Hm Hk s Hs. unfold dtry. specialize (Hm s Hs). destruct (m s) as [s1 r| |]; auto.
  assert (I1 : inv s1 /\ later s s1) by (destruct r; intuition auto). destruct I1 as [I1 L1].
  specialize (Hk r s1 I1). destruct (k r s1) as [s2 [b|e]| |]; auto; intuition (eapply later_trans; eauto).
Qed.

Lemma safe_lift {A} (r : result A mp_de_error) : safe (dlift r).
Proof. intros s Hs. cbn. destruct r; auto using later_refl. Qed.
Lemma safe_ret {A} (a : A) : safe (dret a).
Proof. apply safe_lift. Qed.
Lemma safeq_ret {A} (a : A) (Q : A -> Prop) : Q a -> safeq (dret a) Q.
Proof. intros H s Hs. cbn. auto using later_refl. Qed.
Lemma safe_fail {A} e Q : safeq (@dfail _ _ A e) Q.
Proof. intros s Hs. cbn. auto using later_refl. Qed.
Lemma safe_post {A B} (f : result A mp_de_error -> result B mp_de_error) m : safe m -> safe (dpost f m).
Proof. intros H. apply safe_try; auto. intros. apply safe_lift. Qed.

Lemma safe_if {A} (b : bool) (m m' : M A) Q : safeq m Q -> safeq m' Q -> safeq (if b then m else m') Q.
Proof. destruct b; auto. Qed.

Lemma inv_ready s : inv s -> ready ar s.
Proof. intros [H _]. auto. Qed.
Lemma inv_bytes s : inv s -> all_bytes (rest s).
Proof.
  intros (_ & H & _ & E & _). unfold rest. rewrite E. 
  rewrite <- (firstn_skipn (Z.to_nat (sl_off (d_input s))) orig) in H. apply Forall_app in H. destruct H as [_ H].
  rewrite <- (firstn_skipn (Z.to_nat (d_index s)) (skipn _ orig)) in H. apply Forall_app in H. apply H.
Qed.

(** Moving the cursor inside the input keeps the invariant. *)
Lemma inv_index s n : inv s -> 0 <= n <= zlen (rest s) ->
  let s' := {| d_input := d_input s; d_index := d_index s + n; d_log := d_log s |} in inv s' /\ later s s'.
Proof.
  intros Hs Hn. destruct (adv_index ar s n (inv_ready _ Hs) Hn) as (R & P & _). cbn. split.
  - destruct Hs as (_ & H). split; auto.
  - split; [rewrite P; lia|]. exists []. auto.
Qed.

Lemma safe_peek : safe peek.
Proof.
  intros s Hs. rewrite peek_run by apply Hs. destruct (rest s); auto using later_refl.
Qed.

Lemma safe_fetch : safeq (fetch ar) is_byte.
Proof.
  intros s Hs. unfold fetch, dbind. rewrite peek_run by apply Hs. destruct (rest s) as [|c l] eqn:E.
  - auto using later_refl.
  - rewrite eat_some_run by (try apply Hs; lia). cbn.
    destruct (inv_index s 1 Hs) as [H1 H2]. { rewrite E, zlen_cons. pose proof (zlen_nonneg l). lia. }
    split; auto. split; auto. pose proof (inv_bytes _ Hs) as B. rewrite E in B. inversion B; auto.
Qed.

(** Peek, then consume that byte on some branch. *)
Lemma safe_peek_eat {A} (b : Z -> bool) (k : M A) (k' : Z -> M A) : safe k -> (forall c, safe (k' c)) ->
  safe (dbind peek (fun c => if b c then dbind (eat_some ar 1) (fun _ => k) else k' c)).
Proof.
  intros Hk Hk' s Hs. unfold dbind at 1. rewrite peek_run by apply Hs. destruct (rest s) as [|c l] eqn:E.
  - auto using later_refl.
  - destruct (b c); [|apply Hk'; auto]. unfold dbind. rewrite eat_some_run by (try apply Hs; lia).
    destruct (inv_index s 1 Hs) as [H1 H2]. { rewrite E, zlen_cons. pose proof (zlen_nonneg l). lia. }
    specialize (Hk _ H1). destruct (k _) as [s2 [a|e]| |]; auto; intuition (eapply later_trans; eauto).
Qed.

Lemma safe_fetch_array n : 0 <= n <= 8 -> safeq (fetch_array ar n) (fun h => length h = Z.to_nat n /\ all_bytes h).
Proof.
  intros Hn s Hs. pose proof (inv_ready _ Hs) as Hr. pose proof (rest_length _ _ Hr) as L.
  unfold fetch_array, dbind, get_index. rewrite uadd_run by (destruct Hr; lia). cbv iota beta.
  destruct ((d_index s <=? d_index s + n) && (d_index s + n <=? zlen (sl_data (d_input s)))) eqn:E.
  2: auto using later_refl.
  assert (Lr : length (slice (sl_data (d_input s)) (Z.to_nat (d_index s)) (Z.to_nat (d_index s + n - d_index s))) = Z.to_nat n).
  { rewrite slice_length; [lia|]. destruct Hr as [Hr _]. unfold zlen in *. lia. }
  match goal with |- context [zlen ?l =? n] => destruct (zlen l =? n) eqn:E' end; [|unfold zlen in E' at 1; rewrite Lr in E'; lia].
  rewrite eat_some_run by (try apply Hs; lia). cbn.
  destruct (inv_index s n Hs) as [H1 H2]; [lia|]. split; auto. split; auto. split; auto.
  pose proof (inv_bytes _ Hs) as B. unfold slice.
  change (skipn (Z.to_nat (d_index s)) (sl_data (d_input s))) with (rest s).
  rewrite <- (firstn_skipn (Z.to_nat (d_index s + n - d_index s)) (rest s)) in B. apply Forall_app in B. apply B.
Qed.

Lemma safe_unsigned n : 0 <= n <= 8 -> safeq (fetch_unsigned ar n) (fun x => 0 <= x < 256 ^ n).
Proof.
  intros H. eapply safeq_bind; [apply safe_fetch_array; auto|]. intros a [La Ba]. apply safeq_ret.
  pose proof (be_val_bound a Ba) as X. unfold zlen in X. rewrite La, Z2Nat.id in X by lia. auto.
Qed.
Lemma safe_signed n : 0 <= n <= 8 -> safe (fetch_signed ar n).
Proof. intros H. eapply safeq_bind; [apply safe_fetch_array; auto|]. intros. apply safe_ret. Qed.
Lemma safe_u8 : safeq (fetch_u8 ar) (fun x => 0 <= x < 256). Proof. apply safe_unsigned. lia. Qed.
Lemma safe_u16 : safeq (fetch_u16 ar) (fun x => 0 <= x < 2 ^ 16). Proof. apply safe_unsigned. lia. Qed.
Lemma safe_u32 : safeq (fetch_u32 ar) (fun x => 0 <= x < 2 ^ 32). Proof. apply safe_unsigned. lia. Qed.
Lemma safe_u64 : safe (fetch_u64 ar). Proof. eapply safeq_safe, safe_unsigned. lia. Qed.
Lemma safe_i8 : safe (fetch_i8 ar). Proof. apply safe_signed. lia. Qed.
Lemma safe_i16 : safe (fetch_i16 ar). Proof. apply safe_signed. lia. Qed.
Lemma safe_i32 : safe (fetch_i32 ar). Proof. apply safe_signed. lia. Qed.
Lemma safe_i64 : safe (fetch_i64 ar). Proof. apply safe_signed. lia. Qed.

Lemma safe_try_usize (Q : Z -> Prop) x : Q x -> safeq (try_usize ar x) Q.
Proof. intros H. unfold try_usize. apply safe_if; [apply safeq_ret; auto|apply safe_fail]. Qed.
Lemma safe_try_int k z : safe (try_int k z).
Proof. unfold try_int. destruct (try_from k z); [apply safe_ret|apply safe_fail]. Qed.

Lemma safe_usize : safeq (dbind (fetch_u32 ar) (fun n => try_usize ar n)) (fun x => 0 <= x < 2 ^ 32).
Proof. eapply safeq_bind; [apply safe_u32|]. intros a Ha. apply safe_try_usize. auto. Qed.

Lemma safe_split n : 0 <= n -> safeq (split_input n) (borrowed orig false).
Proof.
  intros Hn s Hs. pose proof (inv_ready _ Hs) as Hr. destruct (split_input_run ar n s Hr Hn) as [H1 H2].
  destruct (Z_le_gt_dec n (zlen (rest s))) as [Hl|Hl].
  2:{ rewrite H2 by lia. auto using later_refl. }
  pose proof (rest_length _ _ Hr) as L.
  destruct Hs as (_ & Hb & Ho & Hd & Hlog).
  assert (Ld : zlen (sl_data (d_input s)) = zlen orig - sl_off (d_input s)).
  { rewrite Hd. unfold zlen in *. rewrite skipn_length. lia. }
  destruct (H1 Hl) as (s1 & E1 & A1 & Elog). rewrite E1.
  assert (S1 : d_input s1 = {| sl_off := pos s + n; sl_data := skipn (Z.to_nat n) (rest s) |} /\ d_index s1 = 0).
  { clear H1 H2 A1. unfold split_input, dbind, input_ref in E1.
    destruct (d_index s <=? zlen (sl_data (d_input s))) eqn:E; [|destruct Hr; lia].
    cbn [sl_data sl_off] in E1. change (skipn (Z.to_nat (d_index s)) (sl_data (d_input s))) with (rest s) in E1.
    destruct (n <=? zlen (rest s)) eqn:E2; [|lia]. injection E1 as <-. auto. }
  destruct S1 as [S1 S2]. pose proof (zlen_nonneg (rest s)) as Hnn. destruct Hr as [Hi _].
  assert (Hrest : rest s = skipn (Z.to_nat (pos s)) orig).
  { unfold rest, pos. rewrite Hd, skipn_add. f_equal. lia. }
  split; [|split].
  - split; [apply A1|]. split; auto. rewrite S1. cbn. split; [unfold pos; lia|]. split.
    + rewrite Hrest, skipn_add. f_equal. unfold pos. lia.
    + rewrite Elog. auto.
  - destruct A1 as (_ & P & _). split; [lia|]. exists []. auto.
  - cbn. unfold borrowed. cbn. split; [unfold pos; lia|]. split.
    + unfold zlen at 1. rewrite firstn_length. unfold zlen, pos in *. lia.
    + split; [|discriminate]. rewrite firstn_length. unfold slice. rewrite <- Hrest.
      rewrite Nat.min_l by (unfold zlen in *; lia). auto.
Qed.

Lemma safe_parse_str : safeq (parse_str ar) (borrowed orig true).
Proof.
  unfold parse_str. eapply safeq_bind; [apply safe_fetch|]. intros c Hc.
  apply safeq_bind with (Q := fun n => 0 <= n).
  { repeat apply safe_if.
    - apply safeq_ret. apply Z.land_nonneg. unfold MAX_FIXSTR_SIZE. lia.
    - eapply safeq_weaken; [|apply safe_u8]. cbn beta. lia.
    - eapply safeq_weaken; [|apply safe_u16]. cbn beta. lia.
    - eapply safeq_weaken; [|apply safe_usize]. cbn beta. lia.
    - apply safe_fail. }
  intros n Hn. eapply safeq_bind; [apply safe_split; auto|]. intros x Hx.
  destruct (from_utf8_ok (sl_data x)) eqn:E; [|apply safe_fail]. apply safeq_ret.
  destruct Hx as (H1 & H2 & H3 & _). unfold borrowed. split; [auto|split; [auto|split; [auto|]]].
  intros _. apply from_utf8_ok_spec. auto.
Qed.

Lemma safe_parse_bytes : safeq (parse_bytes ar) (borrowed orig false).
Proof.
  unfold parse_bytes. eapply safeq_bind; [apply safe_fetch|]. intros c Hc.
  apply safeq_bind with (Q := fun n => 0 <= n).
  { repeat apply safe_if.
    - eapply safeq_weaken; [|apply safe_u8]. cbn beta. lia.
    - eapply safeq_weaken; [|apply safe_u16]. cbn beta. lia.
    - eapply safeq_weaken; [|apply safe_usize]. cbn beta. lia.
    - apply safe_fail. }
  intros n Hn. apply safe_split. auto.
Qed.

Lemma safe_handed b x : borrowed orig b x -> safe (handed b x).
Proof.
  intros Hx s Hs. cbn. split; [|split; [|auto]].
  - destruct Hs as (H1 & H2 & H3 & H4 & H5). split; [exact H1|]. split; auto. split; auto. split; auto. cbn. auto.
  - split; [unfold pos; cbn; lia|]. exists [(b, x)]. auto.
Qed.

Lemma safe_parse_integer k : safe (parse_integer ar k).
Proof.
  eapply safeq_bind; [apply safe_fetch|]. intros c _. repeat apply safe_if;
    try apply safe_try_int; try apply safe_fail;
    (eapply safeq_bind; [first [apply safe_u8|apply safe_u16|apply safe_u32|apply safe_u64|apply safe_i8|apply safe_i16|apply safe_i32|apply safe_i64]|intros; apply safe_try_int]).
Qed.

Lemma safe_fetch_num c conv : safe (fetch_num ar c conv).
Proof.
  repeat apply safe_if; try apply safe_ret; try apply safe_fail;
    (eapply safeq_bind; [first [apply safe_u8|apply safe_u16|apply safe_u32|apply safe_u64|apply safe_i8|apply safe_i16|apply safe_i32|apply safe_i64]|intros; apply safe_ret]).
Qed.

(** Skipping, where no length addition can overflow. *)
Lemma safe_eat_wide f : wide ar -> safe (eat_message ar f).
Proof.
  intros Wide s Hs. destruct (eat_sound ar Wide f) as (H & _). specialize (H s (inv_ready _ Hs) (inv_bytes _ Hs)).
  assert (K : forall n, 0 <= n -> True) by auto.
  (* eat_message only moves the index *)
  assert (Same : forall g, (forall s s' r, eat_message ar g s = Done s' r -> d_input s' = d_input s /\ d_log s' = d_log s) /\
                 (forall p n s s' r, eat_items ar g p n s = Done s' r -> d_input s' = d_input s /\ d_log s' = d_log s)).
  { clear -ar. set (same := fun (A : Type) (m : M A) => forall s s' r, m s = Done s' r -> d_input s' = d_input s /\ d_log s' = d_log s).
    assert (SB : forall A B (m : M A) (k : A -> M B), same _ m -> (forall a, same _ (k a)) -> same _ (dbind m k)).
    { intros A B m k Hm Hk s s' r. unfold dbind. destruct (m s) as [s1 [a|e]| |] eqn:E; try discriminate.
      - intros E2. apply Hm in E. apply Hk in E2. intuition congruence.
      - intros [= <- <-]. eapply Hm; eauto. }
    assert (SL : forall A (r : result A mp_de_error), same _ (dlift r)) by (intros A r s s' r' [= <- _]; auto).
    assert (SR : forall A (a : A), same _ (dret a)) by (intros A a s s' r' [= <- _]; auto).
    assert (SF : forall A e, same _ (@dfail _ _ A e)) by (intros A a s s' r' [= <- _]; auto).
    assert (SI : forall A (b : bool) (m m' : M A), same _ m -> same _ m' -> same _ (if b then m else m')) by (intros A [] m m'; auto).
    assert (SG : same _ get_index) by (intros s s' r' [= <- _]; auto).
    assert (SS : forall i, same _ (set_index i)) by (intros i s s' r' [= <- _]; auto).
    assert (SU : forall a b, same _ (uadd ar a b)).
    { intros a b. unfold uadd. apply SI; auto. destruct (overflow_checks ar); auto. intros s s' r; discriminate. }
    assert (SP : same _ peek). { intros s s' r. unfold peek. destruct (nth_error _ _); intros [= <- _]; auto. }
    assert (SE : forall n, same _ (eat_some ar n)) by (intros n; apply SB; auto).
    assert (SFe : same _ (fetch ar)) by (apply SB; auto).
    assert (SA : forall n, same _ (fetch_array ar n)).
    { intros n. apply SB; auto. intros i. apply SB; auto. intros j s s' r.
      destruct ((i <=? j) && (j <=? zlen (sl_data (d_input s)))).
      - cbv zeta. destruct (zlen (slice (sl_data (d_input s)) (Z.to_nat i) (Z.to_nat (j - i))) =? n); [|discriminate]. apply (SB _ _ (eat_some ar n)); auto.
      - intros [= <- _]. auto. }
    assert (SN : forall n, same _ (fetch_unsigned ar n)) by (intros n; apply SB; auto).
    assert (ST : forall x, same _ (try_usize ar x)) by (intros x; unfold try_usize; apply SI; auto).
    assert (SH : same _ (eat_header ar)).
    { apply SB; auto. intros c. unfold fetch_u8, fetch_u16, fetch_u32. repeat apply SI; auto; repeat (apply SB; auto; intros). }
    assert (S1 : forall n, same _ (eat_single ar n)).
    { intros n. apply SB; auto. intros i. apply SB; auto. intros j s s' r. destruct (_ <? _); [intros [= <- _]; auto|apply SS]. }
    induction g as [|g [IH1 IH2]]; split.
    - discriminate.
    - intros p n s s' r. cbn [eat_items]. destruct (n <=? 0); [apply SR|discriminate].
    - rewrite eat_message_S. change (same _ (dbind (eat_header ar) (eat_rest ar g))). apply SB; auto.
      intros [n|n|n]; [apply S1|exact (IH2 false n)|exact (IH2 true n)].
    - intros p n. change (same _ (eat_items ar (S g) p n)). destruct (Z_le_gt_dec n 0).
      + rewrite eat_items_le by lia. auto.
      + rewrite eat_items_S by lia. apply SB; [exact IH1|]. intros _. apply SB; [apply SI; auto; exact IH1|]. intros _. exact (IH2 p (n - 1)). }
  destruct (Same f) as [Sm _]. specialize (Sm s).
  destruct (eat_message ar f s) as [s1 r| |] eqn:E; auto.
  specialize (Sm _ _ eq_refl). destruct Sm as [Si Sl].
  assert (A : exists n, adv ar s s1 n).
  { destruct r; cbn in H; [destruct H as (bs & [A _] & _); eauto|apply H]. }
  destruct A as (n & R & P & _ & Hn).
  assert (inv s1 /\ later s s1).
  { split; [|split; [lia|exists []; auto]]. destruct Hs as (_ & H1 & H2 & H3 & H4).
    split; auto. split; auto. rewrite Si, Sl. auto. }
  destruct r; intuition auto.
Qed.

(** Skipping, where additions wrap around: the cursor may move back but stays inside. *)
Lemma safe_eat_wraps f : ~ wide ar -> overflow_checks ar = false -> safe (eat_message ar f).
Proof.
  intros Nw Ov.
  assert (Hu : forall a b, 0 <= a -> 0 <= b -> safeq (uadd ar a b) (fun x => 0 <= x)).
  { intros a b Ha Hb s Hs. pose proof (inv_ready _ Hs) as (_ & Hm & _). unfold uadd. rewrite Ov.
    destruct (a + b <=? usize_max ar); cbn; (split; [exact Hs|split; [apply later_refl|]]); [lia|].
    apply Z.mod_pos_bound. lia. }
  assert (Hh : safeq (eat_header ar) (fun t => match t with Single n => 0 <= n | Array n => True | Map n => True end)).
  { eapply safeq_bind; [apply safe_fetch|]. intros c Hc.
    assert (H8 : safeq (fetch_u8 ar) (fun x => 0 <= x)) by (eapply safeq_weaken; [|apply safe_u8]; cbn beta; lia).
    assert (H16 : safeq (fetch_u16 ar) (fun x => 0 <= x)) by (eapply safeq_weaken; [|apply safe_u16]; cbn beta; lia).
    assert (H32 : safeq (fetch_u32 ar) (fun x => 0 <= x)) by (eapply safeq_weaken; [|apply safe_u32]; cbn beta; lia).
    repeat apply safe_if;
      first [apply safe_fail|apply safeq_ret; first [lia|exact I|apply Z.land_nonneg; left; apply Hc]|idtac];
      (eapply safeq_bind; [first [apply H8|apply H16|apply H32]|]; intros n Hn);
      repeat first [apply safeq_ret; first [exact Hn|exact I|lia]
        |eapply safeq_bind; [first [apply (safe_try_usize (fun x => 0 <= x)); exact Hn|apply Hu; [lia|exact Hn]]|]; clear n Hn; intros n Hn]. }
  assert (H1 : forall n, 0 <= n -> safe (eat_single ar n)).
  { intros n Hn s Hs. unfold eat_single, dbind at 1, get_index. pose proof (inv_ready _ Hs) as (Hi & _).
    pose proof (Hu (d_index s) n ltac:(lia) Hn s Hs) as H. unfold dbind. destruct (uadd ar (d_index s) n s) as [s1 [j|e]| |]; auto.
    destruct H as (I1 & L1 & Hj). destruct (zlen (sl_data (d_input s1)) <? j) eqn:E; [auto|]. cbn.
    destruct I1 as ((R1 & R2) & I2). split; [|split; [|exact I]].
    - split; [split; [cbn; lia|exact R2]|exact I2].
    - split; [intros W; contradiction|apply L1]. }
  assert (G : safe (eat_message ar f) /\ forall p n, safe (eat_items ar f p n)); [|apply G].
  induction f as [|f [IH1 IH2]]; split.
  - intros s Hs. exact I.
  - intros p n. cbn [eat_items]. apply safe_if; [apply safe_ret|]. intros s Hs. exact I.
  - cbn [eat_message]. eapply safeq_bind; [exact Hh|]. intros [n|n|n] Hn; [apply H1, Hn|apply IH2|apply IH2].
  - intros p n. cbn [eat_items]. apply safe_if; [apply safe_ret|]. eapply safe_bind; [exact IH1|]. intros _.
    eapply safe_bind; [apply safe_if; [exact IH1|apply safe_ret]|]. intros _. apply IH2.
Qed.

(** Overflow is impossible, or not checked. *)
Definition quiet : Prop := wide ar \/ overflow_checks ar = false.
Lemma safe_eat f : quiet -> safe (eat_message ar f).
Proof.
  intros [W|O]; [apply safe_eat_wide, W|]. destruct (Z_le_gt_dec (2 ^ 33) (usize_max ar)) as [W|W].
  - apply safe_eat_wide, W.
  - apply safe_eat_wraps; auto.
Qed.
Context (Quiet : quiet).

(** ** The Deserializer methods, over a safe runner *)
Section Methods.
Context {U : Type} (R : @runner U).
Record safe_runner : Prop := {
  sr_de : forall p, safe (r_de R p);
  sr_seq : forall p n, 0 <= n -> safeq (r_seq R p n) (fun x => 0 <= snd x <= n);
  sr_map : forall p n, 0 <= n -> safeq (r_map R p n) (fun x => 0 <= snd x <= n);
  sr_enum : forall u p, safe (r_enum R u p);
  sr_eat : safe (r_eat R)
}.
Context (SR : safe_runner).

Lemma safe_int k v : safe (@deserialize_int ar U k v).
Proof. eapply safe_bind; [apply safe_parse_integer|]. intros. apply safe_lift. Qed.
Lemma safe_str v : safe (@deserialize_str ar U v).
Proof.
  eapply safeq_bind; [apply safe_parse_str|]. intros x Hx. eapply safe_bind; [apply safe_handed; auto|].
  intros. apply safe_lift.
Qed.
Lemma safe_bytes v : safe (@deserialize_bytes ar U v).
Proof.
  eapply safeq_bind; [apply safe_parse_bytes|]. intros x Hx. eapply safe_bind; [apply safe_handed; auto|].
  intros. apply safe_lift.
Qed.
Lemma safe_bool v : safe (@deserialize_bool ar U v).
Proof. eapply safeq_bind; [apply safe_fetch|]. intros. repeat apply safe_if; first [apply safe_lift|apply safe_fail]. Qed.
Lemma safe_unit v : safe (@deserialize_unit ar U v).
Proof. eapply safeq_bind; [apply safe_fetch|]. intros. apply safe_if; [apply safe_lift|apply safe_fail]. Qed.
Lemma safe_f32 v : safe (@deserialize_f32 ar fo U v).
Proof.
  eapply safeq_bind; [apply safe_fetch|]. intros c _. eapply safe_bind; [|intros; apply safe_lift].
  apply safe_if; [eapply safeq_safe, safe_u32|]. apply safe_if; [eapply safe_bind; [apply safe_u64|intros; apply safe_ret]|].
  apply safe_if; [apply safe_ret|apply safe_fetch_num].
Qed.
Lemma safe_f64 v : safe (@deserialize_f64 ar fo U v).
Proof.
  eapply safeq_bind; [apply safe_fetch|]. intros c _. eapply safe_bind; [|intros; apply safe_lift].
  apply safe_if; [apply safe_u64|]. apply safe_if; [eapply safeq_bind; [apply safe_u32|intros; apply safe_ret]|].
  apply safe_if; [apply safe_ret|apply safe_fetch_num].
Qed.

Lemma land_range c k : 0 <= c -> 0 <= Z.land c k.
Proof. intros. apply Z.land_nonneg. auto. Qed.

Lemma safe_check p : safe (@check_count U p).
Proof. apply safe_if; [apply safe_ret|apply safe_fail]. Qed.

Lemma safe_seq v : safe (deserialize_seq ar R v).
Proof.
  eapply safeq_bind; [apply safe_fetch|]. intros c Hc. apply safeq_bind with (Q := fun n => 0 <= n).
  { repeat apply safe_if.
    - apply safeq_ret. apply land_range. apply Hc.
    - eapply safeq_weaken; [|apply safe_u16]. cbn beta. lia.
    - eapply safeq_weaken; [|apply safe_usize]. cbn beta. lia.
    - apply safe_fail. }
  intros n Hn. eapply safeq_bind; [apply (sr_seq SR); auto|]. intros. apply safe_check.
Qed.
Lemma safe_map v : safe (deserialize_map ar R v).
Proof.
  eapply safeq_bind; [apply safe_fetch|]. intros c Hc. apply safeq_bind with (Q := fun n => 0 <= n).
  { repeat apply safe_if.
    - apply safeq_ret. apply land_range. apply Hc.
    - eapply safeq_weaken; [|apply safe_u16]. cbn beta. lia.
    - eapply safeq_weaken; [|apply safe_usize]. cbn beta. lia.
    - apply safe_fail. }
  intros n Hn. eapply safeq_bind; [apply (sr_map SR); auto|]. intros. apply safe_check.
Qed.
Lemma safe_struct v : safe (deserialize_struct ar R v).
Proof.
  eapply safeq_bind; [apply safe_fetch|]. intros c Hc. apply safeq_bind with (Q := fun ml : bool * Z => 0 <= snd ml).
  { assert (H16 : forall b : bool, safeq (n <-- fetch_u16 ar ;; dret (b, n)) (fun ml => 0 <= snd ml)).
    { intros b. eapply safeq_bind; [apply safe_u16|]. intros a Ha. apply safeq_ret. cbn [snd]. cbn beta in *. lia. }
    assert (H32 : forall b : bool, safeq (n <-- fetch_u32 ar ;; n <-- try_usize ar n ;; dret (b, n)) (fun ml => 0 <= snd ml)).
    { intros b. eapply safeq_bind; [apply safe_u32|]. intros a Ha.
      eapply safeq_bind; [apply (safe_try_usize (fun x => 0 <= x)); cbn beta in *; lia|]. intros x Hx. apply safeq_ret. auto. }
    repeat apply safe_if; auto; try apply safe_fail; apply safeq_ret; cbn; apply land_range; apply Hc. }
  intros [m n] Hn. cbn in Hn. eapply safe_bind; [|intros; apply safe_check].
  apply safe_if; cbn; [eapply safeq_safe, (sr_map SR)|eapply safeq_safe, (sr_seq SR)]; auto.
Qed.
Lemma safe_enum v : safe (deserialize_enum ar R v).
Proof. apply safe_peek_eat; [apply (sr_enum SR)|]. intros. apply (sr_enum SR). Qed.
Lemma safe_option v : safe (deserialize_option ar R v).
Proof. apply safe_peek_eat; [apply safe_lift|]. intros. apply (sr_de SR). Qed.
Lemma safe_identifier v : safe (@deserialize_identifier ar U v).
Proof.
  eapply safe_bind; [apply safe_peek|]. intros c. repeat apply safe_if; [apply safe_int|apply safe_str|apply safe_fail].
Qed.
Lemma safe_any v : safe (deserialize_any ar fo R v).
Proof.
  eapply safe_bind; [apply safe_peek|]. intros c.
  repeat apply safe_if; first [apply safe_int|apply safe_map|apply safe_seq|apply safe_str|apply safe_unit
    |apply safe_fail|apply safe_bool|apply safe_bytes|apply safe_f32|apply safe_f64].
Qed.
Lemma safe_char v : safe (@deserialize_char ar U v).
Proof.
  eapply safeq_bind; [apply safe_parse_str|]. intros x _. destruct (char_from_str _); [apply safe_lift|apply safe_fail].
Qed.
Lemma safe_ignored v : safe (deserialize_ignored_any R v).
Proof. eapply safe_bind; [apply (sr_eat SR)|]. intros. apply safe_lift. Qed.

Lemma safe_method m v : safe (mp_method ar fo R m v).
Proof.
  destruct m; cbn [mp_method];
  first [apply safe_any|apply safe_bool|apply safe_int|apply safe_fail|apply safe_f32|apply safe_f64|apply safe_char
    |apply safe_str|apply safe_bytes|apply safe_option|apply safe_unit|apply (sr_de SR)|apply safe_seq|apply safe_map
    |apply safe_struct|apply safe_enum|apply safe_identifier|apply safe_ignored].
Qed.

Lemma safe_variant u p : safe (run_variant ar R u p).
Proof.
  destruct p; cbn [run_variant]; try apply safe_lift; apply safe_post; (apply safe_if; [apply safe_fail|]);
    first [apply (sr_de SR)|apply safe_seq|apply safe_struct].
Qed.
End Methods.

Lemma safe_run {U} fuel : @safe_runner U (mp_run ar fo fuel).
Proof.
  induction fuel as [|f IH].
  - split; intros; intros s Hs; cbn; auto.
  - split.
    + intros p. cbn. destruct p; cbn [step_de]; [apply safe_lift|apply (sr_de _ IH)|apply safe_post, safe_method; auto].
    + intros p n Hn. cbn. destruct p; cbn [step_seq].
      * eapply safe_bind; [apply safe_lift|]. intros u. apply safeq_ret. cbn. lia.
      * destruct (n =? 0) eqn:E; [apply (sr_seq _ IH); auto|].
        eapply safe_try; [apply (sr_de _ IH)|]. intros r. eapply safeq_weaken; [|apply (sr_seq _ IH); lia].
        cbn beta. lia.
      * apply (sr_seq _ IH); auto.
    + intros p n Hn. cbn. destruct p; cbn [step_map].
      * eapply safe_bind; [apply safe_lift|]. intros u. apply safeq_ret. cbn. lia.
      * destruct (n =? 0) eqn:E; [apply (sr_map _ IH); auto|].
        eapply safe_try; [apply (sr_de _ IH)|]. intros r. eapply safeq_weaken; [|apply (sr_map _ IH); lia].
        cbn beta. lia.
      * eapply safe_try; [apply (sr_de _ IH)|]. intros r. apply (sr_map _ IH); auto.
      * apply (sr_map _ IH); auto.
    + intros u p. cbn. destruct p; cbn [step_enum]; [apply safe_lift|].
      eapply safe_try; [apply (sr_de _ IH)|]. intros [a|e]; [apply safe_variant; auto|apply safe_lift].
    + cbn [mp_run r_eat]. apply (safe_eat _ Quiet).
Qed.
End Safe.

(** Observations of a MessagePack deserializer: where its cursor is, what it has
    still to read; and what it means for an operation to read given bytes. *)
From Verif Require Import Prelude PreludeFacts Utf8 Utf8Spec Utf8Facts SerdeDe MpMagick MpDe.
Ltac Zify.zify_post_hook ::= Z.div_mod_to_equations.

(** Absolute position of the cursor and the unread bytes. *)
Definition pos (s : mpde) : Z := sl_off (d_input s) + d_index s.
Definition rest (s : mpde) : bytes := skipn (Z.to_nat (d_index s)) (sl_data (d_input s)).

(** The cursor is inside the input; a [u32] fits into [usize] (32-bit targets and
    larger); the length of any Rust slice is at most [isize::MAX]. *)
Definition ready (ar : arch) (s : mpde) : Prop :=
  0 <= d_index s <= zlen (sl_data (d_input s)) /\
  2 ^ 32 - 1 <= usize_max ar /\ zlen (sl_data (d_input s)) <= usize_max ar / 2.

(** [usize] arithmetic on a position and a length below 2^32 cannot overflow. *)
Definition wide (ar : arch) : Prop := 2 ^ 33 <= usize_max ar.
(** ... or the message at hand is no longer than a slice can be. *)
Definition fits (ar : arch) (bs : bytes) : Prop := wide ar \/ zlen bs <= usize_max ar / 2.

(** [s'] is [s] after consuming [n] bytes. *)
Definition adv (ar : arch) (s s' : mpde) (n : Z) : Prop :=
  ready ar s' /\ pos s' = pos s + n /\ rest s' = skipn (Z.to_nat n) (rest s) /\ 0 <= n <= zlen (rest s).

Section View.
Context (ar : arch).
Local Notation M := (DM mpde mp_de_error).

(** [reads m bs r]: with [bs] in front, [m] consumes exactly [bs] and returns [r];
    with only a proper prefix of [bs] in front, it reports [UnexpectedEof]. *)
Definition reads {A} (m : M A) (bs : bytes) (r : result A mp_de_error) : Prop :=
  forall s, ready ar s -> fits ar bs ->
    (forall t, rest s = bs ++ t -> exists s', m s = Done s' r /\ adv ar s s' (zlen bs)) /\
    (forall c q, bs = rest s ++ c :: q -> exists s', m s = Done s' (Err UnexpectedEof) /\ ready ar s').

Lemma fits_app a b : fits ar (a ++ b) -> fits ar a /\ fits ar b.
Proof.
  intros [H|H]; [split; left; auto|]. unfold zlen in H. rewrite app_length in H.
  split; right; unfold zlen; lia.
Qed.

Lemma adv_refl s : ready ar s -> adv ar s s 0.
Proof.
  intros H. split; [auto|]. split; [lia|]. split; [rewrite Z2Nat.inj_0, skipn_O; auto|].
  unfold zlen. lia.
Qed.

Lemma adv_trans s s' s'' n m : adv ar s s' n -> adv ar s' s'' m -> adv ar s s'' (n + m).
Proof.
  intros (A1 & A2 & A3 & A4) (B1 & B2 & B3 & B4). split; [auto|]. split; [lia|].
  rewrite A3 in B3, B4. split.
  - rewrite B3, skipn_add. f_equal. lia.
  - unfold zlen in *. rewrite skipn_length in B4. lia.
Qed.

Lemma adv_ready s s' n : adv ar s s' n -> ready ar s'.
Proof. intros [H _]. exact H. Qed.

Lemma adv_rest s s' n bs t : adv ar s s' n -> rest s = bs ++ t -> zlen bs = n -> rest s' = t.
Proof.
  intros (_ & _ & -> & _) H E. rewrite H. unfold zlen in E.
  replace (Z.to_nat n) with (length bs) by lia. rewrite skipn_app, skipn_all, Nat.sub_diag. reflexivity.
Qed.

(** The length bound may be assumed. *)
Lemma reads_fits {A} (m : M A) bs r : (fits ar bs -> reads m bs r) -> reads m bs r.
Proof. intros H s Hs Hf. exact (H Hf s Hs Hf). Qed.

Lemma reads_ret {A} (a : A) : reads (dret a) [] (Ok a).
Proof.
  intros s H. split.
  - intros t Ht. exists s. split; [reflexivity|]. apply adv_refl. auto.
  - intros c q E. destruct (rest s); discriminate.
Qed.

Lemma reads_lift {A} (r : result A mp_de_error) : reads (dlift r) [] r.
Proof.
  intros s H. split.
  - intros t Ht. exists s. split; [reflexivity|]. apply adv_refl. auto.
  - intros c q E. destruct (rest s); discriminate.
Qed.

Lemma app_eq_split {A} (a b c : list A) x q : a ++ b = c ++ x :: q ->
  (exists y p, a = c ++ y :: p) \/ (exists c', c = a ++ c' /\ b = c' ++ x :: q).
Proof.
  revert c. induction a as [|a0 a IH]; intros c H; cbn in H.
  - right. exists c. auto.
  - destruct c as [|c0 c]; cbn in H.
    + left. exists a0, a. reflexivity.
    + injection H as -> H. destruct (IH _ H) as [(y & p & ->)|(c' & -> & ->)].
      * left. exists y, p. reflexivity.
      * right. exists c'. auto.
Qed.

Lemma reads_bind {A B} (m : M A) (k : A -> M B) a b x r :
  reads m a (Ok x) -> reads (k x) b r -> reads (dbind m k) (a ++ b) r.
Proof.
  intros Hm Hk s Hs Hf. destruct (fits_app _ _ Hf) as [Fa Fb]. destruct (Hm s Hs Fa) as [H1 H2]. split.
  - intros t Ht. rewrite <- app_assoc in Ht. destruct (H1 _ Ht) as (s1 & E1 & Hs1).
    assert (R1 : rest s1 = b ++ t) by (eapply adv_rest; eauto).
    destruct (Hk s1 (adv_ready _ _ _ Hs1) Fb) as [K1 _]. destruct (K1 _ R1) as (s2 & E2 & Hs2).
    exists s2. unfold dbind. rewrite E1. split; [exact E2|].
    replace (zlen (a ++ b)) with (zlen a + zlen b) by (unfold zlen; rewrite app_length; lia).
    eapply adv_trans; eauto.
  - intros c q E. apply app_eq_split in E. destruct E as [(y & p & E)|(c' & E1 & E2)].
    + destruct (H2 _ _ E) as (s1 & E1 & Hs1). exists s1. unfold dbind. rewrite E1. auto.
    + destruct (H1 _ E1) as (s1 & F1 & Hs1).
      assert (R1 : rest s1 = c') by (eapply adv_rest; eauto).
      destruct (Hk s1 (adv_ready _ _ _ Hs1) Fb) as [_ K2]. rewrite <- R1 in E2.
      destruct (K2 _ _ E2) as (s2 & F2 & Hs2). exists s2. unfold dbind. rewrite F1. auto.
Qed.

Lemma reads_bind_err {A B} (m : M A) (k : A -> M B) a e :
  reads m a (Err e) -> reads (dbind m k) a (Err e).
Proof.
  intros Hm s Hs Hf. destruct (Hm s Hs Hf) as [H1 H2]. split.
  - intros t Ht. destruct (H1 _ Ht) as (s1 & E1 & Hs1). exists s1. unfold dbind. rewrite E1. auto.
  - intros c q E. destruct (H2 _ _ E) as (s1 & E1 & Hs1). exists s1. unfold dbind. rewrite E1. auto.
Qed.

(** When the continuation propagates errors. *)
Lemma reads_try {A B} (m : M A) (k : result A mp_de_error -> M B) a b x r :
  reads m a (Ok x) -> reads (k (Ok x)) b r -> (forall s, ready ar s -> exists s', k (Err UnexpectedEof) s = Done s' (Err UnexpectedEof) /\ ready ar s') ->
  reads (dtry m k) (a ++ b) r.
Proof.
  intros Hm Hk He s Hs Hf. destruct (fits_app _ _ Hf) as [Fa Fb]. destruct (Hm s Hs Fa) as [H1 H2]. split.
  - intros t Ht. rewrite <- app_assoc in Ht. destruct (H1 _ Ht) as (s1 & E1 & Hs1).
    assert (R1 : rest s1 = b ++ t) by (eapply adv_rest; eauto).
    destruct (Hk s1 (adv_ready _ _ _ Hs1) Fb) as [K1 _]. destruct (K1 _ R1) as (s2 & E2 & Hs2).
    exists s2. unfold dtry. rewrite E1. split; [exact E2|].
    replace (zlen (a ++ b)) with (zlen a + zlen b) by (unfold zlen; rewrite app_length; lia).
    eapply adv_trans; eauto.
  - intros c q E. apply app_eq_split in E. destruct E as [(y & p & E)|(c' & E1 & E2)].
    + destruct (H2 _ _ E) as (s1 & E1 & Hs1). unfold dtry. rewrite E1. auto.
    + destruct (H1 _ E1) as (s1 & F1 & Hs1).
      assert (R1 : rest s1 = c') by (eapply adv_rest; eauto).
      destruct (Hk s1 (adv_ready _ _ _ Hs1) Fb) as [_ K2]. rewrite <- R1 in E2.
      destruct (K2 _ _ E2) as (s2 & F2 & Hs2). exists s2. unfold dtry. rewrite F1. auto.
Qed.

Lemma reads_ext {A} (m m' : M A) bs r : (forall s, m s = m' s) -> reads m bs r -> reads m' bs r.
Proof.
  intros E H s Hs Hf. destruct (H s Hs Hf) as [H1 H2]. split.
  - intros t Ht. rewrite <- E. eauto.
  - intros c q Ec. rewrite <- E. eauto.
Qed.

(** ** Primitives *)
Lemma peek_run s : 0 <= d_index s ->
  peek s = Done s (match rest s with [] => Err UnexpectedEof | b :: _ => Ok b end).
Proof.
  intros H. unfold peek, rest. generalize (Z.to_nat (d_index s)) as n. intros n.
  generalize (sl_data (d_input s)) as l. intros l. revert n.
  induction l; intros [|n]; cbn; auto.
Qed.

Lemma rest_length s : ready ar s -> zlen (rest s) = zlen (sl_data (d_input s)) - d_index s.
Proof. intros [H _]. unfold rest, zlen in *. rewrite skipn_length. lia. Qed.

Lemma ready_fits s bs : ready ar s -> zlen bs <= zlen (rest s) -> fits ar bs.
Proof. intros H L. rewrite rest_length in L by auto. destruct H as (H1 & H2 & H3). right. lia. Qed.
Lemma ready_fits_app s bs t : ready ar s -> rest s = bs ++ t -> fits ar bs.
Proof. intros H E. apply (ready_fits s); auto. rewrite E. unfold zlen. rewrite app_length. lia. Qed.

Lemma adv_index s n : ready ar s -> 0 <= n <= zlen (rest s) ->
  adv ar s {| d_input := d_input s; d_index := d_index s + n; d_log := d_log s |} n.
Proof.
  intros H Hn. pose proof (rest_length _ H) as L. destruct H as [H1 H2]. split; [|split; [|split]].
  - split; cbn; lia.
  - unfold pos. cbn. lia.
  - unfold rest. cbn. rewrite skipn_add. f_equal. lia.
  - auto.
Qed.

Lemma uadd_run a b s : a + b <= usize_max ar -> uadd ar a b s = Done s (Ok (a + b)).
Proof. intros H. unfold uadd. destruct (a + b <=? usize_max ar) eqn:E; [reflexivity|lia]. Qed.

Lemma eat_some_run n s : ready ar s -> 0 <= n <= 2 ^ 31 ->
  eat_some ar n s = Done {| d_input := d_input s; d_index := d_index s + n; d_log := d_log s |} (Ok tt).
Proof.
  intros [H1 H2] Hn. unfold eat_some, dbind, get_index, set_index. rewrite uadd_run by lia. reflexivity.
Qed.

Lemma reads_peek {A} (k : Z -> M A) c bs r :
  reads (k c) (c :: bs) r -> reads (dbind peek k) (c :: bs) r.
Proof.
  intros H s Hs Hf. destruct (H s Hs Hf) as [H1 H2]. unfold dbind. rewrite peek_run by apply Hs. split.
  - intros t Ht. rewrite Ht. cbn. eauto.
  - intros c0 q E. destruct (rest s) as [|b l] eqn:Er; [eexists; split; [reflexivity|auto]|].
    rewrite <- Er in E. assert (b = c) as -> by (rewrite Er in E; cbn in E; congruence).
    rewrite <- Er in *. destruct (H2 _ _ E) as (s' & E' & ?). exists s'. auto.
Qed.

Lemma reads_fetch c : reads (fetch ar) [c] (Ok c).
Proof.
  intros s Hs _. split.
  - intros t Ht. unfold fetch, dbind. rewrite peek_run by apply Hs. rewrite Ht. cbn [app].
    rewrite eat_some_run by (auto; lia). eexists. split; [reflexivity|].
    change (zlen [c]) with 1. apply adv_index; auto. rewrite Ht. unfold zlen. cbn. lia.
  - intros c0 q E. destruct (rest s) as [|b l] eqn:Er.
    + exists s. split; auto. unfold fetch, dbind. rewrite peek_run by apply Hs. rewrite Er. reflexivity.
    + destruct l; discriminate.
Qed.

Lemma reads_fetch_array bs : zlen bs <= 2 ^ 31 -> reads (fetch_array ar (zlen bs)) bs (Ok bs).
Proof.
  intros Hn s Hs _. pose proof (rest_length _ Hs) as L.
  unfold fetch_array, dbind, get_index. rewrite uadd_run by (destruct Hs as [? ?]; unfold zlen in *; lia).
  cbv iota beta. split.
  - intros t Ht.
    assert (Hl : d_index s + zlen bs <= zlen (sl_data (d_input s)))
      by (rewrite Ht in L; unfold zlen in *; rewrite app_length in L; lia).
    destruct ((d_index s <=? d_index s + zlen bs) && (d_index s + zlen bs <=? zlen (sl_data (d_input s)))) eqn:E;
      [|unfold zlen in *; lia].
    replace (slice (sl_data (d_input s)) (Z.to_nat (d_index s)) (Z.to_nat (d_index s + zlen bs - d_index s))) with bs.
    + rewrite Z.eqb_refl. rewrite eat_some_run by (unfold zlen in *; auto; lia).
      eexists. split; [reflexivity|]. apply adv_index; auto. rewrite Ht. unfold zlen. rewrite app_length. lia.
    + unfold slice. change (skipn (Z.to_nat (d_index s)) (sl_data (d_input s))) with (rest s). rewrite Ht.
      replace (Z.to_nat (d_index s + zlen bs - d_index s)) with (length bs) by (unfold zlen; lia).
      rewrite firstn_app, firstn_all, Nat.sub_diag, firstn_O, app_nil_r. reflexivity.
  - intros c q E.
    assert (zlen bs = zlen (rest s) + 1 + zlen q) by (rewrite E; unfold zlen; rewrite app_length; cbn [length]; lia).
    destruct ((d_index s <=? d_index s + zlen bs) && (d_index s + zlen bs <=? zlen (sl_data (d_input s)))) eqn:E';
      [unfold zlen in *; lia|]. eexists. split; [reflexivity|auto].
Qed.

Lemma split_input_run n s : ready ar s -> 0 <= n ->
  (n <= zlen (rest s) -> exists s', split_input n s = Done s' (Ok {| sl_off := pos s; sl_data := firstn (Z.to_nat n) (rest s) |}) /\
     adv ar s s' n /\ d_log s' = d_log s) /\
  (zlen (rest s) < n -> split_input n s = Done s (Err UnexpectedEof)).
Proof.
  intros Hs Hn. pose proof (rest_length _ Hs) as L. destruct Hs as [H1 H2].
  unfold split_input, dbind, input_ref.
  destruct (d_index s <=? zlen (sl_data (d_input s))) eqn:E; [|lia].
  change (skipn (Z.to_nat (d_index s)) (sl_data (d_input s))) with (rest s). cbn [sl_data sl_off].
  split; intros Hle.
  - destruct (n <=? zlen (rest s)) eqn:E'; [|lia]. eexists. split; [reflexivity|]. split; [|reflexivity].
    split; [|split; [|split]].
    + split; cbn; unfold zlen in *; rewrite ?skipn_length; lia.
    + unfold pos. cbn. lia.
    + unfold rest at 1. cbn. reflexivity.
    + lia.
  - destruct (n <=? zlen (rest s)) eqn:E'; [lia|]. reflexivity.
Qed.

Lemma zlen_app {A} (a b : list A) : zlen (a ++ b) = zlen a + zlen b.
Proof. unfold zlen. rewrite app_length. lia. Qed.
Lemma zlen_cons {A} (a : A) b : zlen (a :: b) = 1 + zlen b.
Proof. unfold zlen. cbn [length]. lia. Qed.
Lemma zlen_nonneg {A} (a : list A) : 0 <= zlen a.
Proof. unfold zlen. lia. Qed.

End View.

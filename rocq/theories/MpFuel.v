(** MessagePack decoding terminates: an explicit step budget for every type and input
    length, and independence of the result from the budget. *)
From Verif Require Import Prelude PreludeFacts Utf8 SerdeSer SerdeDe MpMagick MpSpec MpDe MpDeView MpDeReads MpDeEat MpDeSafe MpDeTop
  FloatOps Types TypesFacts TypeSize MpTypeSpec MpTyped MpTypedTop MpAny MpSound.
From Coq Require Import Wf_nat.
Ltac Zify.zify_post_hook ::= Z.div_mod_to_equations.

Local Notation ignored := (@ignored mp_de_error).
Local Notation any := (any DeserializeError).
Local Notation any_seq := (any_seq DeserializeError).
Local Notation any_map := (any_map DeserializeError).
Local Notation prog t := (denote DeserializeError t).

(** ** No encoding is empty *)
Lemma arr_hdr_nonempty n h : arr_hdr n h -> h <> [].
Proof. intros H; inversion H; discriminate. Qed.
Lemma map_hdr_nonempty n h : map_hdr n h -> h <> [].
Proof. intros H; inversion H; discriminate. Qed.
Lemma str_enc_nonempty s bs : str_enc s bs -> bs <> [].
Proof. intros (h & H & ->). inversion H; discriminate. Qed.
Lemma int_fmt_nonempty z bs : int_fmt z bs -> bs <> [].
Proof. intros H; inversion H; discriminate. Qed.
Lemma ident_int_nonempty z bs : ident_int z bs -> bs <> [].
Proof. intros H; inversion H; discriminate. Qed.
Lemma ident_enc_nonempty ns i bs : ident_enc ns i bs -> bs <> [].
Proof. intros [(s & _ & H)|[_ H]]; [eapply str_enc_nonempty|eapply ident_int_nonempty]; eauto. Qed.
Lemma unknown_enc_nonempty ns bs : unknown_enc ns bs -> bs <> [].
Proof. intros [(s & _ & _ & H)|(z & _ & H)]; [eapply str_enc_nonempty|eapply ident_int_nonempty]; eauto. Qed.
Lemma app_nonempty (h b : bytes) : h <> [] -> h ++ b <> [].
Proof. destruct h; [congruence|discriminate]. Qed.
Lemma adm_nonempty fo t : forall v bs, adm fo t v bs -> bs <> [].
Proof.
  induction t using ty_ind'; intros v bs Ha; destruct v; cbn [adm] in Ha; try contradiction;
    try (subst; discriminate).
  all: try (apply IHt in Ha; exact Ha).
  - destruct Ha as [_ Ha]. eapply int_fmt_nonempty; eauto.
  - destruct Ha as [(h & -> & _)|[(h & y & -> & _)|[(z & Hz & _)|(-> & _)]]]; try discriminate. eapply int_fmt_nonempty; eauto.
  - destruct Ha as [(h & -> & _)|[(h & y & -> & _)|[(z & Hz & _)|(-> & _)]]]; try discriminate. eapply int_fmt_nonempty; eauto.
  - destruct Ha as [_ Ha]. eapply str_enc_nonempty; eauto.
  - destruct Ha as [_ Ha]. eapply str_enc_nonempty; eauto.
  - destruct Ha as [_ (h & Hh & ->)]. inversion Hh; discriminate.
  - destruct Ha as [Ha _]. eapply IHt; eauto.
  - destruct Ha as (h & b & -> & Hh & _). eapply app_nonempty, arr_hdr_nonempty; eauto.
  - destruct Ha as (h & b & -> & Hh & _). eapply app_nonempty, arr_hdr_nonempty; eauto.
  - destruct Ha as (h & b & -> & Hh & _). eapply app_nonempty, arr_hdr_nonempty; eauto.
  - destruct Ha as (h & b & -> & Hh & _). eapply app_nonempty, map_hdr_nonempty; eauto.
  - destruct Ha as [(n & h & b & -> & _ & Hh & _)|(n & h & b & got & -> & Hh & _)];
      [eapply app_nonempty, arr_hdr_nonempty|eapply app_nonempty, map_hdr_nonempty]; eauto.
  - destruct (nth_error _ _) as [[k p]|]; [|contradiction].
    destruct k; [destruct Ha as [_ Ha]; eapply ident_enc_nonempty; eauto|..]; destruct Ha as (k & b & -> & _); discriminate.
Qed.

Section Ends.
Context (ar : arch) (fo : float_ops) (orig : bytes) (Wide : wide ar).
Local Notation M := (DM mpde mp_de_error).
Local Notation inv := (inv ar orig).
Local Notation safe := (safe ar orig).
Local Notation safeq := (safeq ar orig).
Local Notation run := (@mp_run ar fo val).
Local Notation sound := (sound ar).

Definition left (n : nat) (s : mpde) : Prop := (length (rest s) <= n)%nat.
Lemma left_later n s s' : inv s -> inv s' -> later ar s s' -> left n s -> left n s'.
Proof.
  intros Hs Hs' [HP _] L. specialize (HP Wide). unfold left in *. pose proof (rest_length ar s (inv_ready _ _ _ Hs)) as L1. pose proof (rest_length ar s' (inv_ready _ _ _ Hs')) as L2.
  destruct Hs as (_ & _ & O1 & D1 & _). destruct Hs' as (_ & _ & O2 & D2 & _). unfold pos, zlen in *. rewrite D1 in L1. rewrite D2 in L2. rewrite skipn_length in L1, L2. lia.
Qed.

(** With at most [n] bytes left, [m] does not run out of fuel. *)
Definition ends {A} (n : nat) (m : M A) : Prop := forall s, inv s -> left n s -> m s <> OutOfFuel.
(** [m] never runs out of fuel at all. *)
Definition nf {A} (m : M A) : Prop := forall s, m s <> OutOfFuel.
(** A success consumes at least one byte. *)
Definition grows {A} (m : M A) : Prop := sound m (fun _ bs => bs <> []).

Lemma ends_less {A} n n' (m : M A) : (n <= n')%nat -> ends n' m -> ends n m.
Proof. intros H E s Hs L. apply E; auto. unfold left in *. lia. Qed.
Lemma ends_nf {A} n (m : M A) : nf m -> ends n m.
Proof. intros H s _ _. apply H. Qed.
Lemma ends_bind {A B} n (m : M A) (k : A -> M B) Q : safeq m Q -> ends n m -> (forall a, Q a -> ends n (k a)) -> ends n (dbind m k).
Proof.
  intros Sm Hm Hk s Hs L. unfold dbind. specialize (Sm s Hs). specialize (Hm s Hs L). destruct (m s) as [s1 [a|e]| |]; try discriminate; [|congruence].
  destruct Sm as (I1 & L1 & Qa). apply Hk; auto. exact (left_later _ _ _ Hs I1 L1 L).
Qed.
Lemma ends_grow {A B} n (m : M A) (k : A -> M B) Q : safeq m Q -> ends n m -> grows m -> (forall a m, n = S m -> Q a -> ends m (k a)) -> ends n (dbind m k).
Proof.
  intros Sm Hm Hg Hk s Hs L. unfold dbind. specialize (Sm s Hs). specialize (Hm s Hs L). destruct (m s) as [s1 [a|e]| |] eqn:E; try discriminate; [|congruence].
  destruct Sm as (I1 & L1 & Qa). destruct (Hg s s1 a (inv_ready _ _ _ Hs) (inv_bytes _ _ _ Hs) E) as (bs & A1 & Nb).
  apply ate_length in A1. unfold left in L. destruct bs as [|b bs]; [congruence|]. cbn in A1. destruct n as [|m']; [lia|]. apply (Hk a m'); auto. unfold left. lia.
Qed.
Lemma ends_try {A B} n (m : M A) (k : result A mp_de_error -> M B) : safe m -> ends n m -> (forall r, ends n (k r)) -> ends n (dtry m k).
Proof.
  intros Sm Hm Hk s Hs L. unfold dtry. specialize (Sm s Hs). specialize (Hm s Hs L). destruct (m s) as [s1 r| |]; try discriminate; [|congruence].
  assert (I1 : inv s1 /\ later ar s s1) by (destruct r; intuition auto). destruct I1 as [I1 L1]. apply Hk; auto. exact (left_later _ _ _ Hs I1 L1 L).
Qed.
Lemma ends_try_grow {A B} n (m : M A) (k : result A mp_de_error -> M B) : safe m -> ends n m -> grows m ->
  (forall e, ends n (k (Err e))) -> (forall a m, n = S m -> ends m (k (Ok a))) -> ends n (dtry m k).
Proof.
  intros Sm Hm Hg He Hk s Hs L. unfold dtry. specialize (Sm s Hs). specialize (Hm s Hs L). destruct (m s) as [s1 [a|e]| |] eqn:E; try discriminate; [|destruct Sm as [I1 L1]|congruence].
  - destruct Sm as (I1 & L1 & _). destruct (Hg s s1 a (inv_ready _ _ _ Hs) (inv_bytes _ _ _ Hs) E) as (bs & A1 & Nb).
    apply ate_length in A1. unfold left in L. destruct bs as [|b bs]; [congruence|]. cbn in A1. destruct n as [|m']; [lia|]. apply (Hk a m'); auto. unfold left. lia.
  - apply He; auto. exact (left_later _ _ _ Hs I1 L1 L).
Qed.
Lemma nf_lift {A} (r : result A mp_de_error) : nf (dlift r).
Proof. intros s. discriminate. Qed.
Lemma nf_fail {A} e : nf (@dfail mpde mp_de_error A e).
Proof. intros s. discriminate. Qed.
Lemma nf_bind {A B} (m : M A) (k : A -> M B) : nf m -> (forall a, nf (k a)) -> nf (dbind m k).
Proof. intros Hm Hk s. unfold dbind. specialize (Hm s). destruct (m s) as [s1 [a|e]| |]; try discriminate; [apply Hk|congruence]. Qed.
Lemma nf_if {A} (b : bool) (m m' : M A) : nf m -> nf m' -> nf (if b then m else m').
Proof. destruct b; auto. Qed.
Lemma ends_lift {A} n (r : result A mp_de_error) : ends n (dlift r).
Proof. apply ends_nf, nf_lift. Qed.
Lemma ends_fail {A} n e : ends n (@dfail mpde mp_de_error A e).
Proof. apply ends_nf, nf_fail. Qed.
Lemma ends_if {A} n (b : bool) (m m' : M A) : ends n m -> ends n m' -> ends n (if b then m else m').
Proof. destruct b; auto. Qed.
Lemma ends_post {A B} n (f : result A mp_de_error -> result B mp_de_error) m : ends n m -> ends n (dpost f m).
Proof. intros H s Hs L. unfold dpost, dtry. specialize (H s Hs L). destruct (m s); try discriminate. congruence. Qed.

(** ** Primitives *)
Lemma nf_peek : nf peek.
Proof. intros s. unfold peek. destruct (nth_error _ _); discriminate. Qed.
Lemma nf_uadd a b : nf (uadd ar a b).
Proof. intros s. unfold uadd. repeat match goal with |- context [if ?b then _ else _] => destruct b end; discriminate. Qed.
Lemma nf_eat_some n : nf (eat_some ar n).
Proof. apply nf_bind; [intros s; discriminate|]. intros i. apply nf_bind; [apply nf_uadd|]. intros j s. discriminate. Qed.
Lemma nf_fetch : nf (fetch ar).
Proof. apply nf_bind; [apply nf_peek|]. intros c. apply nf_bind; [apply nf_eat_some|]. intros _. apply (nf_lift (Ok c)). Qed.
Lemma nf_fetch_array n : nf (fetch_array ar n).
Proof.
  apply nf_bind; [intros s; discriminate|]. intros i. apply nf_bind; [apply nf_uadd|]. intros j s.
  destruct (_ && _); [|discriminate]. cbv zeta. destruct (_ =? _); [|discriminate].
  apply (nf_bind (eat_some ar n)); [apply nf_eat_some|]. intros _ s'. discriminate.
Qed.
Lemma nf_unsigned n : nf (fetch_unsigned ar n).
Proof. apply nf_bind; [apply nf_fetch_array|]. intros b s. discriminate. Qed.
Lemma nf_signed n : nf (fetch_signed ar n).
Proof. apply nf_bind; [apply nf_fetch_array|]. intros b s. discriminate. Qed.
Lemma nf_usize n : nf (try_usize ar n).
Proof. apply nf_if; intros s; discriminate. Qed.
Lemma nf_int k z : nf (try_int k z).
Proof. unfold try_int. destruct (try_from _ _); intros s; discriminate. Qed.
Lemma nf_split n : nf (split_input n).
Proof.
  apply nf_bind; [intros s; unfold input_ref; destruct (_ <=? _); discriminate|]. intros x. destruct (_ <=? _); intros s; discriminate.
Qed.
Ltac nf1 := first [apply nf_fetch|apply nf_unsigned|apply nf_signed|apply nf_usize|apply nf_int|apply nf_split|apply nf_peek|apply nf_fail
  |apply nf_lift|(match goal with |- nf (dret ?a) => apply (nf_lift (Ok a)) end)
  |(apply nf_bind; [|intros])|apply nf_if].
Ltac nfs := repeat nf1.
Lemma nf_parse_str : nf (parse_str ar).
Proof. unfold parse_str. nfs. Qed.
Lemma nf_parse_bytes : nf (parse_bytes ar).
Proof. unfold parse_bytes. nfs. Qed.
Lemma nf_parse_integer k : nf (parse_integer ar k).
Proof. unfold parse_integer. nfs. Qed.
Lemma nf_fetch_num c conv : nf (fetch_num ar c conv).
Proof. unfold fetch_num. nfs. Qed.
Lemma nf_handed b x : nf (handed b x).
Proof. intros s. discriminate. Qed.

Lemma grows_fetch : grows (fetch ar).
Proof. eapply sound_weaken; [apply sound_fetch|]. intros a b [-> _]. discriminate. Qed.

(** ** Methods *)
Section Methods.
Context (R : @runner val) (SR : safe_runner ar orig R).
Local Notation visitor := (visitor val mp_de_error).

Lemma nf_m_int k v : nf (@deserialize_int ar val k v).
Proof. apply nf_bind; [apply nf_parse_integer|]. intros. apply nf_lift. Qed.
Lemma nf_m_str v : nf (@deserialize_str ar val v).
Proof. apply nf_bind; [apply nf_parse_str|]. intros. apply nf_bind; [apply nf_handed|]. intros. apply nf_lift. Qed.
Lemma nf_m_bytes v : nf (@deserialize_bytes ar val v).
Proof. apply nf_bind; [apply nf_parse_bytes|]. intros. apply nf_bind; [apply nf_handed|]. intros. apply nf_lift. Qed.
Lemma nf_m_bool v : nf (@deserialize_bool ar val v).
Proof. unfold deserialize_bool. nfs. Qed.
Lemma nf_m_unit v : nf (@deserialize_unit ar val v).
Proof. unfold deserialize_unit. nfs. Qed.
Lemma nf_m_f32 v : nf (@deserialize_f32 ar fo val v).
Proof. unfold deserialize_f32. nfs. Qed.
Lemma nf_m_f64 v : nf (@deserialize_f64 ar fo val v).
Proof. unfold deserialize_f64. nfs. Qed.
Lemma nf_m_char v : nf (@deserialize_char ar val v).
Proof. apply nf_bind; [apply nf_parse_str|]. intros x. destruct (char_from_str _); [apply nf_lift|apply nf_fail]. Qed.
Lemma nf_m_ident v : nf (@deserialize_identifier ar val v).
Proof. apply nf_bind; [apply nf_peek|]. intros c. repeat apply nf_if; [apply nf_m_int|apply nf_m_str|apply nf_fail]. Qed.
Lemma nf_check p : nf (@check_count val p).
Proof. unfold check_count. nfs. Qed.

(** Running the visitor of a container, one byte further. *)
Definition seq_after n (v : visitor) : Prop := forall m c, n = S m -> 0 <= c -> ends m (r_seq R (visit_seq v) c).
Definition map_after n (v : visitor) : Prop := forall m c, n = S m -> 0 <= c -> ends m (r_map R (visit_map v) c).
Lemma e_seq n v : seq_after n v -> ends n (deserialize_seq ar R v).
Proof.
  intros H. eapply ends_grow; [apply safe_fetch|apply ends_nf, nf_fetch|apply grows_fetch|]. intros c m -> Hc.
  apply ends_bind with (Q := fun n => 0 <= n).
  { repeat apply safe_if.
    - apply safeq_ret. apply land_range. apply Hc.
    - eapply safeq_weaken; [|apply safe_u16]. cbn beta. lia.
    - eapply safeq_weaken; [|apply safe_usize]. cbn beta. lia.
    - apply safe_fail. }
  { apply ends_nf. nfs. }
  intros x Hx. eapply ends_bind; [apply (sr_seq _ _ _ SR); auto|apply (H m); auto|]. intros. apply ends_nf, nf_check.
Qed.
Lemma e_map n v : map_after n v -> ends n (deserialize_map ar R v).
Proof.
  intros H. eapply ends_grow; [apply safe_fetch|apply ends_nf, nf_fetch|apply grows_fetch|]. intros c m -> Hc.
  apply ends_bind with (Q := fun n => 0 <= n).
  { repeat apply safe_if.
    - apply safeq_ret. apply land_range. apply Hc.
    - eapply safeq_weaken; [|apply safe_u16]. cbn beta. lia.
    - eapply safeq_weaken; [|apply safe_usize]. cbn beta. lia.
    - apply safe_fail. }
  { apply ends_nf. nfs. }
  intros x Hx. eapply ends_bind; [apply (sr_map _ _ _ SR); auto|apply (H m); auto|]. intros. apply ends_nf, nf_check.
Qed.
Lemma e_struct n v : seq_after n v -> map_after n v -> ends n (deserialize_struct ar R v).
Proof.
  intros H H'. eapply ends_grow; [apply safe_fetch|apply ends_nf, nf_fetch|apply grows_fetch|]. intros c m -> Hc.
  apply ends_bind with (Q := fun ml : bool * Z => 0 <= snd ml).
  { assert (H16 : forall b : bool, safeq (n <-- fetch_u16 ar ;; dret (b, n)) (fun ml => 0 <= snd ml)).
    { intros b. eapply safeq_bind; [apply safe_u16|]. intros a Ha. apply safeq_ret. cbn [snd]. cbn beta in *. lia. }
    assert (H32 : forall b : bool, safeq (n <-- fetch_u32 ar ;; n <-- try_usize ar n ;; dret (b, n)) (fun ml => 0 <= snd ml)).
    { intros b. eapply safeq_bind; [apply safe_u32|]. intros a Ha.
      eapply safeq_bind; [apply (safe_try_usize ar orig (fun x => 0 <= x)); cbn beta in *; lia|]. intros x Hx. apply safeq_ret. auto. }
    repeat apply safe_if; auto; try apply safe_fail; apply safeq_ret; cbn; apply land_range; apply Hc. }
  { apply ends_nf. nfs. }
  intros [mp x] Hx. cbn [fst snd] in *. destruct mp.
  - eapply ends_bind; [apply (sr_map _ _ _ SR); auto|apply (H' m); auto|]. intros. apply ends_nf, nf_check.
  - eapply ends_bind; [apply (sr_seq _ _ _ SR); auto|apply (H m); auto|]. intros. apply ends_nf, nf_check.
Qed.
(** A byte is consumed on some branch. *)
Lemma e_peek_eat {A} n (b : Z -> bool) (k : M A) (k' : Z -> M A) : ends n k -> (forall c, ends n (k' c)) ->
  ends n (dbind peek (fun c => if b c then dbind (eat_some ar 1) (fun _ => k) else k' c)).
Proof.
  intros Hk Hk' s Hs L. unfold dbind at 1. rewrite peek_run by apply Hs. destruct (rest s) as [|c l] eqn:E; [discriminate|].
  destruct (b c); [|apply Hk'; auto]. unfold dbind. rewrite eat_some_run by (try apply Hs; lia).
  destruct (inv_index ar orig s 1 Hs) as [H1 H2]. { rewrite E, zlen_cons. pose proof (zlen_nonneg l). lia. }
  apply Hk; auto. exact (left_later _ _ _ Hs H1 H2 L).
Qed.
Lemma e_any n v : seq_after n v -> map_after n v -> ends n (deserialize_any ar fo R v).
Proof.
  intros H H'. eapply ends_bind; [apply safe_peek|apply ends_nf, nf_peek|]. intros c _.
  repeat apply ends_if; first [apply e_map; assumption|apply e_seq; assumption|apply ends_fail|apply ends_nf; first
    [apply nf_m_int|apply nf_m_str|apply nf_m_unit|apply nf_m_bool|apply nf_m_bytes|apply nf_m_f32|apply nf_m_f64]].
Qed.
Lemma e_method n m v : seq_after n v -> map_after n v ->
  (m = DOption -> ends n (r_de R (visit_some v))) -> (m = DNewtypeStruct -> ends n (r_de R (visit_newtype v))) ->
  (m = DEnum -> forall u, ends n (r_enum R u (visit_enum v))) -> (m = DIgnoredAny -> ends n (r_eat R)) ->
  ends n (mp_method ar fo R m v).
Proof.
  intros H1 H2 H3 H4 H5 H6. destruct m; cbn [mp_method]; try (apply ends_nf; first [apply nf_m_int|apply nf_m_str|apply nf_m_unit|apply nf_m_bool
    |apply nf_m_bytes|apply nf_m_f32|apply nf_m_f64|apply nf_fail|apply nf_m_char|apply nf_m_ident]; fail).
  - apply e_any; auto.
  - apply e_peek_eat; [apply ends_lift|]. intros. auto.
  - apply H4; auto.
  - apply e_seq; auto.
  - apply e_seq; auto.
  - apply e_seq; auto.
  - apply e_map; auto.
  - apply e_struct; auto.
  - apply e_peek_eat; intros; auto.
  - eapply ends_bind; [apply (sr_eat _ _ _ SR)|auto|]. intros. apply ends_lift.
Qed.
Lemma e_step_seq n seed k c : 0 <= c -> grows (r_de R seed) -> ends n (r_de R seed) -> ends n (r_seq R (k (Ok None)) c) ->
  (forall e c, 0 <= c -> ends n (r_seq R (k (Err e)) c)) ->
  (forall m u c, n = S m -> 0 <= c -> ends m (r_seq R (k (Ok (Some u))) c)) -> ends n (step_seq R (SNext seed k) c).
Proof.
  intros Hc Hg H1 H2 H3 H4. cbn [step_seq]. destruct (c =? 0) eqn:E; [auto|].
  apply ends_try_grow; auto; [apply (sr_de _ _ _ SR)|intros e; apply H3; lia|]. intros a m ->. apply H4; auto. lia.
Qed.
Lemma e_step_key n seed k c : 0 <= c -> grows (r_de R seed) -> ends n (r_de R seed) -> ends n (r_map R (k (Ok None)) c) ->
  (forall e c, 0 <= c -> ends n (r_map R (k (Err e)) c)) ->
  (forall m u c, n = S m -> 0 <= c -> ends m (r_map R (k (Ok (Some u))) c)) -> ends n (step_map R (MKey seed k) c).
Proof.
  intros Hc Hg H1 H2 H3 H4. cbn [step_map]. destruct (c =? 0) eqn:E; [auto|].
  apply ends_try_grow; auto; [apply (sr_de _ _ _ SR)|intros e; apply H3; lia|]. intros a m ->. apply H4; auto. lia.
Qed.
Lemma e_step_val n seed k c : ends n (r_de R seed) -> (forall r, ends n (r_map R (k r) c)) -> ends n (step_map R (MVal seed k) c).
Proof. intros H1 H2. cbn [step_map]. apply ends_try; auto. apply (sr_de _ _ _ SR). Qed.
Lemma e_variant n u p :
  (forall seed post, p = VNewtype seed post -> ends n (r_de R seed)) ->
  (forall v post, p = VTuple v post \/ p = VStruct v post -> seq_after n v) ->
  (forall v post, p = VStruct v post -> map_after n v) ->
  ends n (run_variant ar R u p).
Proof.
  intros H1 H2 H3. destruct p; cbn [run_variant]; try apply ends_lift; apply ends_post; (apply ends_if; [apply ends_fail|]).
  - eapply H1; eauto.
  - apply e_seq. eapply H2; eauto.
  - apply e_struct; [eapply H2; eauto|eapply H3; eauto].
Qed.
End Methods.

(** ** Budgets *)
Definition dB (n B : nat) (p : deser val mp_de_error) : Prop := forall f, (B + 3 * n <= f)%nat -> ends n (r_de (run f) p).
Definition sB (n B : nat) (p : sprog val mp_de_error) : Prop := forall f c, 0 <= c -> (B + 3 * n <= f)%nat -> ends n (r_seq (run f) p c).
Definition mB (n B : nat) (p : mprog val mp_de_error) : Prop := forall f c, 0 <= c -> (B + 3 * n <= f)%nat -> ends n (r_map (run f) p c).
Definition eB (n B : nat) (p : eprog val mp_de_error) : Prop := forall f u, (B + 3 * n <= f)%nat -> ends n (r_enum (run f) u p).
(** The program reads at least one byte when it succeeds. *)
Definition reads1 (p : deser val mp_de_error) : Prop := forall f, grows (r_de (run f) p).

Lemma dB_less n n' B B' p : (B' + 3 * n' <= B + 3 * n)%nat -> (n <= n')%nat -> dB n' B' p -> dB n B p.
Proof. intros H1 H2 H f Hf. apply (ends_less _ n'); auto. apply H. lia. Qed.

Lemma sret_ends n r c f : (1 <= f)%nat -> ends n (r_seq (run f) (SRet r) c).
Proof. intros H. destruct f; [lia|]. apply ends_nf. cbn. nfs. Qed.
Lemma mret_ends n r c f : (1 <= f)%nat -> ends n (r_map (run f) (MRet r) c).
Proof. intros H. destruct f; [lia|]. apply ends_nf. cbn. nfs. Qed.

(** A loop over a sequence that stops at the end and at errors. *)
Definition seq_stops (X : sprog val mp_de_error -> Prop) (seed : deser val mp_de_error) : Prop := forall p, X p -> exists k,
  p = SNext seed k /\ (forall e, exists r, k (Err e) = SRet r) /\ (exists r, k (Ok None) = SRet r) /\ (forall u, X (k (Ok (Some u)))).
Lemma seq_bound X seed B : (3 <= B)%nat -> seq_stops X seed -> reads1 seed -> forall n, (forall m, (m <= n)%nat -> dB m B seed) ->
  forall f c p, X p -> 0 <= c -> (B + 3 * n + 1 <= f)%nat -> ends n (r_seq (run f) p c).
Proof.
  intros HB HX Hg. induction n as [n IH] using (well_founded_induction lt_wf). intros HD f c p Hp Hc Hf. destruct f as [|f]; [lia|].
  destruct (HX p Hp) as (k & -> & He & (rn & Hn) & Hs). change (ends n (step_seq (run f) (SNext seed k) c)).
  apply e_step_seq; auto.
  - apply (safe_run ar fo orig (or_introl Wide)).
  - apply (HD n); lia.
  - rewrite Hn. apply sret_ends. lia.
  - intros e c' Hc'. destruct (He e) as (r & ->). apply sret_ends. lia.
  - intros m u c' -> Hc'. apply IH; auto; try lia.
Qed.
(** The same for maps; [G]: the seeds. *)
Definition map_stops_or (X : mprog val mp_de_error -> Prop) (G : deser val mp_de_error -> Prop) : Prop := forall p, X p -> exists kseed k,
  p = MKey kseed k /\ G kseed /\ reads1 kseed /\ (forall e, exists r, k (Err e) = MRet r) /\ (exists r, k (Ok None) = MRet r) /\
  (forall u, (exists r, k (Ok (Some u)) = MRet r) \/
     exists vseed k2, k (Ok (Some u)) = MVal vseed k2 /\ G vseed /\ (forall e, exists r, k2 (Err e) = MRet r) /\
       forall u, (exists r, k2 (Ok u) = MRet r) \/ X (k2 (Ok u))).
Lemma map_bound_or X B n : (3 <= B)%nat -> map_stops_or X (fun seed => forall m, (m <= n)%nat -> dB m B seed) ->
  forall f c p, X p -> 0 <= c -> (B + 3 * n + 1 <= f)%nat -> ends n (r_map (run f) p c).
Proof.
  intros HB HX. assert (W : forall n', (n' <= n)%nat -> forall f c p, X p -> 0 <= c -> (B + 3 * n' + 1 <= f)%nat -> ends n' (r_map (run f) p c));
    [|apply W; auto].
  induction n' as [n' IH] using (well_founded_induction lt_wf). intros Hn' f c p Hp Hc Hf. destruct f as [|f]; [lia|].
  destruct (HX p Hp) as (kseed & k & -> & Hk & Hg & He & (rn & Hn) & Hs). change (ends n' (step_map (run f) (MKey kseed k) c)).
  apply e_step_key; auto.
  - apply (safe_run ar fo orig (or_introl Wide)).
  - apply (Hk n'); lia.
  - rewrite Hn. apply mret_ends. lia.
  - intros e c' Hc'. destruct (He e) as (r & ->). apply mret_ends. lia.
  - intros m u c' -> Hc'. destruct (Hs u) as [(r & ->)|(vseed & k2 & -> & Hv & He2 & Hs2)]; [apply mret_ends; lia|].
    destruct f as [|f]; [lia|]. change (ends m (step_map (run f) (MVal vseed k2) c')).
    apply e_step_val; [apply (safe_run ar fo orig (or_introl Wide))|apply (Hv m ltac:(lia) f); lia|]. intros [a|e]; [destruct (Hs2 a) as [(r & ->)|Hx]; [apply mret_ends; lia|apply IH; auto; lia]|].
    destruct (He2 e) as (r & ->). apply mret_ends. lia.
Qed.
Definition map_stops (X : mprog val mp_de_error -> Prop) (G : deser val mp_de_error -> Prop) : Prop := forall p, X p -> exists kseed k,
  p = MKey kseed k /\ G kseed /\ reads1 kseed /\ (forall e, exists r, k (Err e) = MRet r) /\ (exists r, k (Ok None) = MRet r) /\
  (forall u, (exists r, k (Ok (Some u)) = MRet r) \/
     exists vseed k2, k (Ok (Some u)) = MVal vseed k2 /\ G vseed /\ (forall e, exists r, k2 (Err e) = MRet r) /\ forall u, X (k2 (Ok u))).
Lemma map_bound X B n : (3 <= B)%nat -> map_stops X (fun seed => forall m, (m <= n)%nat -> dB m B seed) ->
  forall f c p, X p -> 0 <= c -> (B + 3 * n + 1 <= f)%nat -> ends n (r_map (run f) p c).
Proof.
  intros HB HX. apply map_bound_or; auto. intros p Hp. destruct (HX p Hp) as (kseed & k & H1 & H2 & H3 & H4 & H5 & H6). exists kseed, k. repeat (split; [assumption|]).
  intros u. destruct (H6 u) as [H|(vseed & k2 & H7 & H8 & H9 & H10)]; [left; exact H|right]. exists vseed, k2. auto 10.
Qed.

(** Requests for values whose visitor is within the budget. *)
Definition v_within (n B : nat) (m : dmethod) (v : visitor val mp_de_error) : Prop :=
  (forall n', n = S n' -> sB n' (B + 3) (visit_seq v) /\ mB n' (B + 3) (visit_map v)) /\
  (m = DOption -> dB n B (visit_some v)) /\ (m = DNewtypeStruct -> dB n B (visit_newtype v)) /\ (m = DEnum -> eB n B (visit_enum v)) /\
  (1 <= B)%nat.
Lemma e_eat n f : (2 * n + 1 <= f)%nat -> ends n (r_eat (run f)).
Proof.
  intros Hf. destruct f as [|f]; [lia|]. intros s Hs L E. cbn [mp_run r_eat] in E.
  pose proof (proj1 (eat_sound ar Wide (S f)) s (inv_ready _ _ _ Hs) (inv_bytes _ _ _ Hs)) as H. rewrite E in H. cbn in H. unfold left in L. lia.
Qed.
Lemma req_bound n B m v post : v_within n B m v -> dB n (S B) (DReq m v post).
Proof.
  intros (H1 & H2 & H3 & H4 & H5) f Hf. destruct f as [|f]; [lia|]. change (ends n (step_de ar fo (run f) (DReq m v post))).
  cbn [step_de]. apply ends_post. apply e_method.
  - apply (safe_run ar fo orig (or_introl Wide)).
  - intros n' c -> Hc. apply (H1 n' eq_refl); auto. lia.
  - intros n' c -> Hc. apply (H1 n' eq_refl); auto. lia.
  - intros E. apply H2; auto. lia.
  - intros E. apply H3; auto. lia.
  - intros E u. apply H4; auto. lia.
  - intros _. apply e_eat. lia.
Qed.

(** ** IgnoredAny and self-describing types *)
Lemma ignored_reads : reads1 ignored.
Proof.
  intros f. eapply sound_weaken; [apply (sde_ignored ar fo Wide)|]. intros a b (m & H). eapply mp_fmt_nonempty; eauto.
Qed.
Lemma ignored_seq_step {E} : @ignored_seq E = SNext Types.ignored (fun r =>
  match r with Ok (Some _) => ignored_seq | Ok None => SRet (Ok UUnit) | Err e => SRet (Err e) end).
Proof. rewrite (sfrob_eq ignored_seq) at 1. reflexivity. Qed.
Lemma ignored_map_step {E} : @ignored_map E = MKey Types.ignored (fun r =>
  match r with
  | Ok (Some _) => MVal Types.ignored (fun r => match r with Ok _ => ignored_map | Err e => MRet (Err e) end)
  | Ok None => MRet (Ok UUnit)
  | Err e => MRet (Err e)
  end).
Proof. rewrite (mfrob_eq ignored_map) at 1. reflexivity. Qed.
Lemma ignored_bound n : dB n 6 ignored.
Proof.
  induction n as [n IH] using (well_founded_induction lt_wf).
  destruct (@ignored_req mp_de_error) as (v & -> & _ & _ & _ & Es & Em).
  apply req_bound. split; [|split; [|split; [|split]]; first [discriminate|lia]]. intros n' ->. rewrite Es, Em. split; intros f c Hc Hf.
  - eapply (seq_bound (fun p => p = ignored_seq) ignored 6); [lia| |apply ignored_reads| |reflexivity|auto|lia].
    + intros p ->. eexists. split; [apply ignored_seq_step|]. repeat split; eauto.
    + intros. apply IH. lia.
  - eapply (map_bound (fun p => p = ignored_map) 6 n'); [lia| |reflexivity|auto|lia].
    intros p ->. exists ignored. eexists. split; [apply ignored_map_step|].
    split; [intros; apply IH; lia|]. split; [apply ignored_reads|]. split; [eauto|]. split; [eauto|]. intros u. right. exists ignored. eexists. split; [reflexivity|].
    split; [intros; apply IH; lia|]. split; eauto.
Qed.

(** Self-describing types consume at least one byte. *)
Lemma sound_true_lift {A} (r : result A mp_de_error) : sound (dlift r) (fun _ _ => True).
Proof. apply sound_lift. auto. Qed.
Lemma sound_handed b x : sound (handed b x) (fun _ _ => True).
Proof. intros s s' a Hs Hb D. injection D as <- <-. exists []. split; auto. split; auto. apply adv_refl in Hs. auto. Qed.
Lemma grows_then {A B} (m : M A) (k : A -> M B) P : sound m P -> (forall a b, P a b -> b <> []) ->
  (forall a, sound (k a) (fun _ _ => True)) -> grows (dbind m k).
Proof.
  intros Hm HP Hk. eapply sound_bind; [exact Hm|]. intros a x Px _. eapply sound_weaken; [apply Hk|].
  intros b y _. apply app_nonempty. eauto.
Qed.
Lemma grows_leaf {A} (k : Z -> M A) : (forall c, is_byte c -> sound (k c) (fun _ _ => True)) -> grows (dbind (fetch ar) k).
Proof. intros H. apply sound_byte. intros c Hc. eapply sound_weaken; [apply H; auto|]. discriminate. Qed.
Lemma any_reads1 f : grows (r_de (run f) any) /\ (forall acc c, 0 <= c -> sound (r_seq (run f) (any_seq acc) c) (fun _ _ => True)) /\
  (forall acc c, 0 <= c -> sound (r_map (run f) (any_map acc) c) (fun _ _ => True)).
Proof.
  induction f as [f IHf] using (well_founded_induction lt_wf). destruct f as [|f].
  { split; [|split]; intros; apply sound_fuel. }
  destruct (IHf f ltac:(lia)) as (IH1 & IH2 & IH3). split; [|split].
  - rewrite any_eq. apply (sound_post ar (mp_method ar fo (run f) DAny any_visitor) (fun r => r) (fun _ bs => bs <> [])); [|discriminate|auto].
    cbn [mp_method]. unfold deserialize_any. apply sound_peek. intros c Hc.
    set (Gr := fun (m : M val) => sound m (fun _ bs => bs <> [])).
    assert (G : forall m : M val, Gr m -> soundc ar c m (fun _ bs => bs <> [])).
    { intros m Hm. eapply soundc_of; [exact Hm|]. auto. }
    assert (Hint : forall k, Gr (@deserialize_int ar val k any_visitor)).
    { intros k. eapply grows_then; [apply sound_integer| |intros; apply sound_true_lift]. intros a b [_ H]. eapply int_fmt_nonempty; eauto. }
    assert (Hstr : Gr (@deserialize_str ar val any_visitor)).
    { eapply grows_then; [apply sound_str| |]; [intros a b [_ H]; eapply str_enc_nonempty; eauto|]. intros a.
      eapply sound_bind; [apply sound_handed|intros; apply sound_true_lift]. }
    assert (Hbin : Gr (@deserialize_bytes ar val any_visitor)).
    { eapply grows_then; [apply sound_bin| |]; [intros a b [_ (h & H & ->)]; inversion H; discriminate|]. intros a.
      eapply sound_bind; [apply sound_handed|intros; apply sound_true_lift]. }
    assert (Hseq : Gr (deserialize_seq ar (run f) any_visitor)).
    { apply sound_seq with (P := fun _ _ _ => True); [intros; apply IH2; auto|]. intros n u h b Hh _. eapply app_nonempty, arr_hdr_nonempty; eauto. }
    assert (Hmap : Gr (deserialize_map ar (run f) any_visitor)).
    { apply sound_map with (P := fun _ _ _ => True); [intros; apply IH3; auto|]. intros n u h b Hh _. eapply app_nonempty, map_hdr_nonempty; eauto. }
    assert (Hunit : Gr (@deserialize_unit ar val any_visitor)).
    { apply grows_leaf. intros. apply sound_if; intros; [apply sound_true_lift|apply sound_fail]. }
    assert (Hbool : Gr (@deserialize_bool ar val any_visitor)).
    { apply grows_leaf. intros. apply sound_if; intros; [apply sound_true_lift|apply sound_if; intros; [apply sound_true_lift|apply sound_fail]]. }
    assert (Hu : forall n, 0 <= n <= 8 -> sound (fetch_unsigned ar n) (fun _ _ => True)).
    { intros n Hn. eapply sound_weaken; [apply sound_unsigned; auto|auto]. }
    assert (Hnum : forall c conv, is_byte c -> sound (fetch_num ar c conv) (fun _ _ => True)).
    { intros. eapply sound_weaken; [apply sound_fetch_num; auto|auto]. }
    assert (H32 : Gr (@deserialize_f32 ar fo val any_visitor)).
    { apply grows_leaf. intros x Hx. eapply sound_bind with (P := fun _ _ => True); [|intros; apply sound_true_lift].
      apply sound_if; intros; [apply Hu; lia|]. apply sound_if; intros; [eapply sound_bind; [apply (Hu 8); lia|intros; apply sound_ret; auto]|].
      apply sound_if; intros; [apply sound_ret; auto|apply Hnum; auto]. }
    assert (H64 : Gr (@deserialize_f64 ar fo val any_visitor)).
    { apply grows_leaf. intros x Hx. eapply sound_bind with (P := fun _ _ => True); [|intros; apply sound_true_lift].
      apply sound_if; intros; [apply Hu; lia|]. apply sound_if; intros; [eapply sound_bind; [apply (Hu 4); lia|intros; apply sound_ret; auto]|].
      apply sound_if; intros; [apply sound_ret; auto|apply Hnum; auto]. }
    repeat (apply soundc_if; intros _); apply G; first [assumption|apply Hint|apply sound_fail].
  - intros acc c Hc. rewrite any_seq_eq. cbn [mp_run r_seq step_seq]. apply sound_if; intros E.
    + destruct f as [|f]; [apply sound_fuel|]. cbn. eapply sound_bind; [apply sound_true_lift|intros; apply sound_ret; auto].
    + eapply sound_try; [exact IH1| |].
      * intros e. cbn [res_some]. apply never_seq_err.
      * intros a x _. cbn [res_some]. apply IH2. lia.
  - intros acc c Hc. rewrite any_map_eq. cbn [mp_run r_map step_map]. apply sound_if; intros E.
    + destruct f as [|f]; [apply sound_fuel|]. cbn. eapply sound_bind; [apply sound_true_lift|intros; apply sound_ret; auto].
    + eapply sound_try; [exact IH1| |].
      * intros e. cbn [res_some]. apply never_map_err.
      * intros a x _. cbn [res_some]. destruct f as [|f]; [apply sound_fuel|]. destruct (IHf f ltac:(lia)) as (IH1' & _ & IH3'). 
        cbn [mp_run r_map step_map]. eapply sound_try; [exact IH1'| |]; [intros e; apply never_map_err|]. intros b y _. apply IH3'. lia.
Qed.
Lemma any_bound n : dB n 6 any.
Proof.
  induction n as [n IH] using (well_founded_induction lt_wf).
  rewrite any_eq. apply req_bound. split; [|split; [|split; [|split]]; first [discriminate|lia]]. intros n' ->.
  change (visit_seq any_visitor) with (any_seq []). change (visit_map any_visitor) with (any_map []). split; intros f c Hc Hf.
  - eapply (seq_bound (fun p => exists acc, p = any_seq acc) any 6); [lia| |intros f0; apply any_reads1| |eauto|auto|lia].
    + intros p (acc & ->). rewrite any_seq_eq. eexists. split; [reflexivity|]. repeat split; eauto.
    + intros. apply IH. lia.
  - eapply (map_bound (fun p => exists acc, p = any_map acc) 6 n'); [lia| |eauto|auto|lia].
    intros p (acc & ->). rewrite any_map_eq. exists any. eexists. split; [reflexivity|].
    split; [intros; apply IH; lia|]. split; [intros f0; apply any_reads1|]. split; [eauto|]. split; [eauto|]. intros u. right. exists any. eexists. split; [reflexivity|].
    split; [intros; apply IH; lia|]. split; eauto.
Qed.

(** ** Types *)
Definition v_all (B : nat) (v : visitor val mp_de_error) : Prop := forall n,
  sB n (B + 3) (visit_seq v) /\ mB n (B + 3) (visit_map v) /\
  dB n B (visit_some v) /\ dB n B (visit_newtype v) /\ eB n B (visit_enum v).
Lemma all_within n B m v : (1 <= B)%nat -> v_all B v -> v_within n B m v.
Proof. intros HB H. split; [intros n' _; destruct (H n') as (? & ? & _); auto|]. destruct (H n) as (_ & _ & H3 & H4 & H5). auto. Qed.

Definition t_within (t : ty) : Prop := exists m v post, prog t = DReq m v post /\ v_all (10 * type_size t - 1) v.
Lemma size_pos t : (1 <= type_size t)%nat.
Proof. destruct t; cbn; lia. Qed.
Lemma t_bound t n B : t_within t -> (10 * type_size t <= B)%nat -> dB n B (prog t).
Proof.
  intros (m & v & post & -> & H) HB. pose proof (size_pos t). apply (dB_less n n B (S (10 * type_size t - 1))); [lia|lia|].
  apply req_bound, all_within; [lia|exact H].
Qed.
Lemma t_reads t : wf t -> reads1 (prog t).
Proof. intros W f. eapply sound_weaken; [apply (denote_sound ar fo Wide); auto|]. intros a b H. eapply adm_nonempty; eauto. Qed.

Lemma dret_b n B r : (1 <= B)%nat -> dB n B (DRet r).
Proof. intros H f Hf. destruct f; [lia|]. apply ends_lift. Qed.
Lemma sret_b n B r : (1 <= B)%nat -> sB n B (SRet r).
Proof. intros H f c Hc Hf. apply sret_ends. lia. Qed.
Lemma mret_b n B r : (1 <= B)%nat -> mB n B (MRet r).
Proof. intros H f c Hc Hf. apply mret_ends. lia. Qed.
Lemma eret_b n B r : (1 <= B)%nat -> eB n B (ERet r).
Proof. intros H f u Hf. destruct f; [lia|]. apply ends_lift. Qed.

Lemma seq_loop_b n B t acc : (3 <= B)%nat -> reads1 t -> (forall n, dB n B t) -> sB n (B + 2) (SHint (fun _ => seq_loop t acc)).
Proof.
  intros HB Hg H f c Hc Hf. destruct f as [|f]; [lia|]. change (ends n (r_seq (run f) (seq_loop t acc) c)).
  eapply (seq_bound (fun p => exists acc, p = seq_loop t acc) t B); [auto| |auto|auto|eauto|auto|lia].
  intros p (acc' & ->). eexists. split; [rewrite (sfrob_eq (seq_loop _ _)); reflexivity|]. repeat split; eauto.
Qed.
Lemma map_loop_b n B k v acc : (3 <= B)%nat -> reads1 k -> (forall n, dB n B k) -> (forall n, dB n B v) -> mB n (B + 3) (MHint (fun _ => map_loop k v acc)).
Proof.
  intros HB Hg Hk Hv f c Hc Hf. destruct f as [|f]; [lia|]. change (ends n (r_map (run f) (map_loop k v acc) c)).
  eapply (map_bound (fun p => exists acc, p = map_loop k v acc) B n); [auto| |eauto|auto|lia].
  intros p (acc' & ->). exists k. eexists. split; [rewrite (mfrob_eq (map_loop _ _ _)); reflexivity|].
  split; [auto|]. split; [auto|]. split; [eauto|]. split; [eauto|]. intros u. right. exists v. eexists. split; [reflexivity|]. split; [auto|]. split; eauto.
Qed.
Lemma tuple_b seeds : forall bs n f c acc, Forall2 (fun b sd => (1 <= b)%nat /\ forall n, dB n b (fst sd)) bs seeds -> 0 <= c ->
  (2 + list_sum bs + 3 * n <= f)%nat -> ends n (r_seq (run f) (tuple_prog DeserializeError seeds acc) c).
Proof.
  induction seeds as [|[seed d] seeds IH]; intros bs n f c acc HF Hc Hf.
  - apply sret_ends. lia.
  - inversion HF as [|b sd bs' ? [Hb Hd] HF' ]; subst. cbn [fst] in Hd. cbn [list_sum fold_right] in Hf. change (fold_right Nat.add 0%nat bs') with (list_sum bs') in Hf.
    cbn [tuple_prog]. destruct f as [|f]; [lia|].
    match goal with |- ends _ (r_seq _ (SNext ?sd ?k) _) => change (ends n (step_seq (run f) (SNext sd k) c)) end.
    cbn [step_seq]. destruct (c =? 0) eqn:Ec.
    + destruct d; [eapply IH; eauto; lia|apply sret_ends; lia].
    + apply ends_try; [apply (sr_de _ _ _ (safe_run ar fo orig (or_introl Wide) f))|apply (Hd n f); lia|].
      intros [u|e]; cbn [res_some]; [eapply IH; eauto; lia|apply sret_ends; lia].
Qed.
Lemma ident_b n B strict ns : (2 <= B)%nat -> dB n B (ident DeserializeError strict ns).
Proof.
  intros HB. apply (dB_less n n B 2); [lia|lia|]. unfold ident, request. apply req_bound.
  split; [|split; [|split; [|split]]; first [discriminate|lia]]. intros n' _. split; [apply sret_b; lia|apply mret_b; lia].
Qed.
Lemma ident_reads strict ns : reads1 (ident DeserializeError strict ns).
Proof.
  intros f. eapply sound_weaken; [apply sde_ident|]. intros a b H. destruct a; try contradiction. destruct o as [i|]; cbn in H.
  - eapply ident_enc_nonempty; eauto.
  - destruct H as [_ H]. eapply unknown_enc_nonempty; eauto.
Qed.
Lemma struct_loop_b n B names seeds absent got : (6 <= B)%nat -> (forall n seed, In seed seeds -> dB n B seed) ->
  mB n (B + 2) (struct_loop DeserializeError names seeds absent got).
Proof.
  intros HB Hs f c Hc Hf.
  eapply (map_bound (fun p => exists got, p = struct_loop DeserializeError names seeds absent got) B n); [lia| |eauto|auto|lia].
  intros p (got' & ->). exists (ident DeserializeError false names). eexists.
  split; [rewrite (mfrob_eq (struct_loop _ _ _ _ _)); reflexivity|].
  split; [intros; apply ident_b; lia|]. split; [apply ident_reads|]. split; [eauto|]. split; [eauto|]. intros u.
  assert (Hi : exists vseed k2, MVal ignored (fun r : result val mp_de_error =>
        match r with Ok _ => struct_loop DeserializeError names seeds absent got' | Err e => MRet (Err e) end) = MVal vseed k2 /\
      (forall m, (m <= n)%nat -> dB m B vseed) /\ (forall e, exists r, k2 (Err e) = MRet r) /\
      (forall u, exists got, k2 (Ok u) = struct_loop DeserializeError names seeds absent got)).
  { exists ignored. eexists. split; [reflexivity|]. split; [|split; eauto].
    intros m _. apply (dB_less m m B 6); [lia|lia|apply ignored_bound]. }
  destruct u; try (right; exact Hi). destruct o as [i|]; [|right; exact Hi].
  destruct (nth_error seeds i) as [seed|] eqn:Es; [|left; eauto]. destruct (nth_error got' i) as [[w|]|]; [left; eauto| |left; eauto].
  right. exists seed. eexists. split; [reflexivity|]. split; [intros; apply Hs; eapply nth_error_In; eauto|]. split; eauto.
Qed.
Lemma enum_b n B names cs : (6 <= B)%nat ->
  (forall k c, In (k, c) cs -> (forall n, dB n B c) /\ forall m v post, c = DReq m v post -> v_all B v) ->
  eB n (B + 1) (enum_prog DeserializeError names cs).
Proof.
  intros HB Hc f u Hf. destruct f as [|f]; [lia|].
  change (ends n (step_enum ar (run f) u (enum_prog DeserializeError names cs))). unfold enum_prog. cbn [step_enum].
  pose proof (@safe_run ar fo orig (or_introl Wide) val f) as SR.
  apply ends_try; [apply (sr_de _ _ _ SR)|apply (ident_b n B true names ltac:(lia) f); lia|].
  intros [a|e]; [|apply ends_lift]. destruct a; try (apply ends_lift). destruct o as [i|]; [|apply ends_lift].
  destruct (nth_error cs i) as [[k c]|] eqn:E; [|apply ends_lift]. apply nth_error_In in E. destruct (Hc k c E) as [Hd Hv].
  destruct k.
  - apply ends_lift.
  - apply e_variant; auto; try discriminate; [|intros ? ? [?|?]; discriminate].
    intros seed post [= <- _]. apply (Hd n f). lia.
  - destruct c as [r|k|m v post]; try apply ends_lift. specialize (Hv m v post eq_refl).
    apply e_variant; auto; try discriminate. intros v' post' [[= <- _]|?]; [|discriminate]. intros m' c' -> Hc'.
    destruct (Hv m') as (H1 & _). apply H1; auto. lia.
  - destruct c as [r|k|m v post]; try apply ends_lift. specialize (Hv m v post eq_refl).
    apply e_variant; auto; try discriminate.
    + intros v' post' [?|[= <- _]]; [discriminate|]. intros m' c' -> Hc'. destruct (Hv m') as (H1 & _). apply H1; auto. lia.
    + intros v' post' [= <- _] m' c' -> Hc'. destruct (Hv m') as (_ & H1 & _). apply H1; auto. lia.
Qed.

Lemma sB_less n B B' p : (B' <= B)%nat -> sB n B' p -> sB n B p.
Proof. intros H1 H f c Hc Hf. apply H; auto. lia. Qed.
Lemma mB_less n B B' p : (B' <= B)%nat -> mB n B' p -> mB n B p.
Proof. intros H1 H f c Hc Hf. apply H; auto. lia. Qed.
Lemma eB_less n B B' p : (B' <= B)%nat -> eB n B' p -> eB n B p.
Proof. intros H1 H f u Hf. apply H. lia. Qed.
Lemma v_all_less B B' v : (B' <= B)%nat -> v_all B' v -> v_all B v.
Proof.
  intros HB H n. destruct (H n) as (H1 & H2 & H3 & H4 & H5). split; [|split; [|split; [|split]]].
  - eapply sB_less; [|exact H1]. lia.
  - eapply mB_less; [|exact H2]. lia.
  - eapply dB_less; [| |exact H3]; lia.
  - eapply dB_less; [| |exact H4]; lia.
  - eapply eB_less; [|exact H5]. lia.
Qed.
Lemma sum_in {A} (g : A -> nat) l x : In x l -> (g x <= list_sum (map g l))%nat.
Proof. induction l as [|y l IH]; cbn; [tauto|]. intros [->|H]; [lia|]. specialize (IH H). unfold list_sum in IH. lia. Qed.
Lemma sum_scale {A} (g : A -> nat) l : list_sum (map (fun x => 10 * g x)%nat l) = (10 * list_sum (map g l))%nat.
Proof. induction l as [|x l IH]; auto. cbn in *. unfold list_sum in *. lia. Qed.

Ltac rets := first [apply sret_b; lia|apply mret_b; lia|apply dret_b; lia|apply eret_b; lia].
Lemma then_bound t f n B : t_within t -> (10 * type_size t <= B)%nat -> dB n B (then_ (prog t) f).
Proof.
  intros (m & v & post & E & H) HB. rewrite E. cbn [then_]. pose proof (size_pos t).
  apply (dB_less n n B (S (10 * type_size t - 1))); [lia|lia|]. apply req_bound, all_within; [lia|exact H].
Qed.
Lemma tuple_within l B n acc : Forall t_within l -> (10 * list_sum (map type_size l) + 2 <= B)%nat ->
  sB n B (tuple_prog DeserializeError (map (fun t => (prog t, None)) l) acc).
Proof.
  intros HF HB f c Hc Hf. eapply (tuple_b _ (map (fun t => 10 * type_size t)%nat l)); [|auto|rewrite sum_scale; lia].
  clear -HF Wide. induction HF as [|t l Ht HF IH]; cbn [map]; constructor; auto. pose proof (size_pos t).
  split; [lia|]. intros n. apply t_bound; auto.
Qed.
Lemma fields_within (fs : list (bytes * fattr * ty)) B n acc : Forall (fun f => t_within (snd f)) fs ->
  (10 * list_sum (map (fun f => type_size (snd f)) fs) + 2 <= B)%nat ->
  sB n B (tuple_prog DeserializeError (map (fun f => (prog (snd f), default_of (attr_of f))) fs) acc).
Proof.
  intros HF HB f c Hc Hf. eapply (tuple_b _ (map (fun f => 10 * type_size (snd f))%nat fs)); [|auto|rewrite (sum_scale (fun f => type_size (snd f))); lia].
  clear -HF Wide. induction HF as [|t l Ht HF IH]; cbn [map]; constructor; auto. pose proof (size_pos (snd t)).
  split; [lia|]. intros n. apply t_bound; auto.
Qed.
Lemma all_list_forall {A} (P Q R : A -> Prop) l : all_list P l -> (forall x, P x -> Q x) -> Forall (fun x => Q x -> R x) l -> Forall R l.
Proof. intros H HQ HF. induction HF as [|x l Hx HF IH]; constructor; destruct H; auto. Qed.

Theorem types_within t : wf t -> t_within t.
Proof.
  induction t using ty_ind'; intros W; unfold t_within; cbn [denote type_size]; unfold request;
    (eexists; eexists; eexists; split; [reflexivity|]); intros n; cbn [visit_seq visit_map visit_some visit_newtype visit_enum mk_visitor
      on_seq on_map on_some on_newtype on_enum v_bool v_int v_f32 v_f64 v_char v_str v_bytes v_unit v_option v_newtype v_seq v_map v_struct v_enum];
    (split; [|split; [|split; [|split]]]); try rets; cbn [wf] in W.
  - apply then_bound; auto. lia.
  - apply t_bound; auto. lia.
  - eapply sB_less; [|apply (seq_loop_b n (10 * type_size t)); [pose proof (size_pos t); lia|apply t_reads; auto|intros; apply t_bound; auto]]. lia.
  - apply tuple_within; [|lia]. destruct W as [W _]. eapply all_list_forall; eauto.
  - apply tuple_within; [|lia]. destruct W as [W _]. eapply all_list_forall; eauto.
  - destruct W as [W1 W2]. pose proof (size_pos t1).
    eapply mB_less; [|apply (map_loop_b n (10 * (type_size t1 + type_size t2))); [lia|apply t_reads; auto|intros; apply t_bound; auto; lia..]]. lia.
  - apply fields_within; [|lia]. destruct W as (_ & W). eapply all_list_forall; [exact W| |exact H]. cbn. tauto.
  - assert (HF : Forall (fun f : bytes * fattr * ty => t_within (snd f)) fs).
    { destruct W as (_ & W). eapply all_list_forall; [exact W| |exact H]. cbn. tauto. }
    eapply mB_less; [|apply (struct_loop_b n (10 * list_sum (map (fun f => type_size (snd f)) fs) + 6)); [lia|]]; [lia|].
    intros n0 seed Hin. apply in_map_iff in Hin. destruct Hin as (f & <- & Hin). rewrite Forall_forall in HF. apply t_bound; auto.
    pose proof (sum_in (fun f : bytes * fattr * ty => type_size (snd f)) fs f Hin). lia.
  - assert (HF : Forall (fun f : bytes * vkind * ty => t_within (snd f)) vs).
    { destruct W as (_ & W). eapply all_list_forall; [exact W| |exact H]. cbn. tauto. }
    eapply eB_less; [|apply (enum_b n (10 * list_sum (map (fun f => type_size (snd f)) vs) + 6)); [lia|]]; [lia|].
    intros k c Hin. apply in_map_iff in Hin. destruct Hin as (f & [= <- <-] & Hin). rewrite Forall_forall in HF.
    pose proof (sum_in (fun f : bytes * vkind * ty => type_size (snd f)) vs f Hin) as Hs. cbn beta in Hs. split.
    + intros. apply t_bound; auto. lia.
    + intros m v post E. destruct (HF f Hin) as (m' & v' & post' & E' & Hv). rewrite E in E'. injection E' as <- <- <-.
      eapply v_all_less; [|exact Hv]. lia.
Qed.
End Ends.

(** ** Whole messages *)
Section Top.
Context (ar : arch) (fo : float_ops) (A64 : arch64 ar).

Lemma ends_top p B input fuel : slice64 input -> dB ar fo input (length input) B p -> (B + 3 * length input <= fuel)%nat ->
  exists s r, mp_from_slice ar fo fuel p input = Done s r.
Proof.
  intros Hi H Hf. pose proof (init_inv ar _ (arch64_up ar A64) (slice64_of ar _ A64 Hi)) as I0. specialize (H fuel Hf (de_from_slice input) I0).
  assert (L0 : left (length input) (de_from_slice input)) by (unfold left, rest; cbn; lia). specialize (H L0).
  pose proof (from_slice_safe ar fo (arch64_up ar A64) (arch64_quiet ar A64) fuel p _ (slice64_of ar _ A64 Hi)) as S. unfold mp_from_slice, dbind in S |- *.
  destruct (r_de _ _ _) as [s [u|e]| |]; [|eauto|contradiction|congruence]. unfold de_end in *.
  destruct (_ <=? _) in S |- *; [|eauto]. destruct (_ <=? _) in S |- *; [unfold dret; eauto|contradiction].
Qed.
Theorem typed_ends t input fuel : wf t -> slice64 input -> (10 * type_size t + 3 * length input <= fuel)%nat ->
  exists s r, mp_from_slice ar fo fuel (prog t) input = Done s r.
Proof. intros W Hi Hf. eapply ends_top; [auto| |exact Hf]. apply (t_bound ar fo input (arch64_wide ar A64)); auto. apply (types_within ar fo input (arch64_wide ar A64)). auto. Qed.
Theorem ignored_ends input fuel : slice64 input -> (6 + 3 * length input <= fuel)%nat ->
  exists s r, mp_from_slice ar fo fuel ignored input = Done s r.
Proof. intros Hi Hf. eapply ends_top; [auto| |exact Hf]. apply (ignored_bound ar fo input (arch64_wide ar A64)). Qed.
Theorem any_ends input fuel : slice64 input -> (6 + 3 * length input <= fuel)%nat ->
  exists s r, mp_from_slice ar fo fuel any input = Done s r.
Proof. intros Hi Hf. eapply ends_top; [auto| |exact Hf]. apply (any_bound ar fo input (arch64_wide ar A64)). Qed.
Theorem budget_irrelevant {U} (p : deser U mp_de_error) input f g s s' r r' :
  mp_from_slice ar fo f p input = Done s r -> mp_from_slice ar fo g p input = Done s' r' -> s = s' /\ r = r'.
Proof.
  intros E1 E2. destruct (Nat.le_ge_cases f g) as [L|L].
  - pose proof (from_slice_mono ar fo f g p input L) as H. rewrite E1, E2 in H. specialize (H ltac:(discriminate)). injection H as <- <-. auto.
  - pose proof (from_slice_mono ar fo g f p input L) as H. rewrite E1, E2 in H. specialize (H ltac:(discriminate)). injection H as <- <-. auto.
Qed.
(** With the budget above, decoding decides whether the input starts with an encoding. *)
Theorem typed_decides t input fuel : wf t -> slice64 input -> (10 * type_size t + 3 * length input <= fuel)%nat ->
  (exists s v bs tail, mp_from_slice ar fo fuel (prog t) input = Done s (Ok (v, zlen bs)) /\ input = bs ++ tail /\ adm fo t v bs) \/
  (exists s e, mp_from_slice ar fo fuel (prog t) input = Done s (Err e) /\ forall v bs tail, input = bs ++ tail -> ~ adm fo t v bs).
Proof.
  intros W Hi Hf. destruct (typed_ends t input fuel W Hi Hf) as (s & [[v n]|e] & E).
  - left. destruct (typed_sound ar fo A64 fuel t input s v n W Hi E) as (bs & tail & H1 & <- & H2). exists s, v, bs, tail. auto.
  - right. exists s, e. split; auto. intros v bs tail -> Ha.
    destruct (typed_accepts ar fo (arch64_up ar A64) t v bs tail W Ha (slice64_of ar _ A64 Hi)) as [N HN]. destruct (HN N (le_n N)) as [s' E'].
    destruct (budget_irrelevant _ _ _ _ _ _ _ _ E E') as [_ D]. discriminate D.
Qed.
End Top.

(** Soundness of typed decoding: a success means the consumed bytes encode the value. *)
From Verif Require Import Prelude PreludeFacts Utf8 Utf8Spec Utf8Facts SerdeSer SerdeDe MpMagick MpSpec MpDe MpDeView MpDeReads MpDeEat
  MpDeTop MpSerSim FloatOps Types TypesFacts MpTypeSpec MpTyped MpTypedTop.
Ltac Zify.zify_post_hook ::= Z.div_mod_to_equations.

Section Sound.
Context (ar : arch) (fo : float_ops).
Local Notation M := (DM mpde mp_de_error).
Local Notation run := (@mp_run ar fo val).
Local Notation deser := (deser val mp_de_error).
Local Notation visitor := (visitor val mp_de_error).
Local Notation ate := (ate ar).

(** [m] only succeeds with [a] after consuming bytes [bs] with [P a bs]. *)
Definition sound {A} (m : M A) (P : A -> bytes -> Prop) : Prop := forall s s' a,
  ready ar s -> all_bytes (rest s) -> m s = Done s' (Ok a) -> exists bs, ate s s' bs /\ P a bs.
(** The same when the next byte is known. *)
Definition soundc {A} (c : Z) (m : M A) (P : A -> bytes -> Prop) : Prop := forall s s' a,
  ready ar s -> all_bytes (rest s) -> (exists l, rest s = c :: l) -> m s = Done s' (Ok a) -> exists bs, ate s s' bs /\ P a bs.
Definition never {A} (m : M A) : Prop := forall s s' a, m s <> Done s' (Ok a).

Lemma sound_weaken {A} (m : M A) (P Q : A -> bytes -> Prop) : sound m P -> (forall a b, P a b -> Q a b) -> sound m Q.
Proof. intros H HQ s s' a Hs Hb E. destruct (H s s' a Hs Hb E) as (bs & H1 & H2). eauto. Qed.
Lemma sound_never {A} (m : M A) P : never m -> sound m P.
Proof. intros H s s' a _ _ E. destruct (H _ _ _ E). Qed.
Lemma never_fail {A} e : never (@dfail _ _ A e).
Proof. intros s s' a. discriminate. Qed.
Lemma sound_fail {A} e P : sound (@dfail _ _ A e) P.
Proof. apply sound_never, never_fail. Qed.
Lemma sound_ret {A} (a : A) (P : A -> bytes -> Prop) : P a [] -> sound (dret a) P.
Proof. intros H s s' b Hs Hb [= <- <-]. exists []. split; auto. apply ate_refl; auto. Qed.
Lemma sound_lift {A} (r : result A mp_de_error) (P : A -> bytes -> Prop) : (forall a, r = Ok a -> P a []) -> sound (dlift r) P.
Proof. intros H s s' b Hs Hb [= <- ->]. exists []. split; auto. apply ate_refl; auto. Qed.
Lemma sound_bind {A B} (m : M A) (k : A -> M B) P Q :
  sound m P -> (forall a x, P a x -> all_bytes x -> sound (k a) (fun b y => Q b (x ++ y))) -> sound (dbind m k) Q.
Proof.
  intros Hm Hk s s' b Hs Hb E. unfold dbind in E. destruct (m s) as [s1 [a|e]| |] eqn:E1; try discriminate.
  destruct (Hm _ _ _ Hs Hb E1) as (x & A1 & Px). destruct (ate_bytes _ _ _ _ A1 Hb) as [Bx B1].
  destruct (Hk a x Px Bx s1 s' b (ate_ready _ _ _ _ A1) B1 E) as (y & A2 & Py).
  exists (x ++ y). split; auto. eapply ate_trans; eauto.
Qed.
Lemma sound_try {A B} (m : M A) (k : result A mp_de_error -> M B) P Q :
  sound m P -> (forall e, never (k (Err e))) -> (forall a x, P a x -> sound (k (Ok a)) (fun b y => Q b (x ++ y))) -> sound (dtry m k) Q.
Proof.
  intros Hm He Hk s s' b Hs Hb E. unfold dtry in E. destruct (m s) as [s1 [a|e]| |] eqn:E1; try discriminate.
  2: destruct (He _ _ _ _ E).
  destruct (Hm _ _ _ Hs Hb E1) as (x & A1 & Px). destruct (ate_bytes _ _ _ _ A1 Hb) as [Bx B1].
  destruct (Hk a x Px s1 s' b (ate_ready _ _ _ _ A1) B1 E) as (y & A2 & Py).
  exists (x ++ y). split; auto. eapply ate_trans; eauto.
Qed.
Lemma sound_post {A B} (m : M A) (g : result A mp_de_error -> result B mp_de_error) P (Q : B -> bytes -> Prop) :
  sound m P -> (forall e b, g (Err e) <> Ok b) -> (forall a b x, P a x -> g (Ok a) = Ok b -> Q b x) -> sound (dpost g m) Q.
Proof.
  intros Hm He Hk. eapply sound_try; [exact Hm|..].
  - intros e s s' b [= _ E]. exact (He _ _ E).
  - intros a x Px. apply sound_lift. intros b E. rewrite app_nil_r. eauto.
Qed.
Lemma sound_if {A} (b : bool) (m m' : M A) P : (b = true -> sound m P) -> (b = false -> sound m' P) -> sound (if b then m else m') P.
Proof. destruct b; auto. Qed.

Lemma sound_peek {A} (k : Z -> M A) P : (forall c, is_byte c -> soundc c (k c) P) -> sound (dbind peek k) P.
Proof.
  intros Hk s s' a Hs Hb E. unfold dbind in E. rewrite peek_run in E by apply Hs.
  destruct (rest s) as [|c l] eqn:Er; [discriminate|].
  assert (Hc : is_byte c) by (inversion Hb; auto). rewrite <- Er in Hb.
  exact (Hk c Hc s s' a Hs Hb (ex_intro _ l Er) E).
Qed.
Lemma soundc_sound {A} c (m : M A) P : sound m P -> soundc c m (fun a bs => P a bs /\ (bs = [] \/ exists l, bs = c :: l)).
Proof.
  intros H s s' a Hs Hb (l & Hl) E. destruct (H s s' a Hs Hb E) as (bs & A1 & P1). exists bs. split; auto. split; auto.
  destruct A1 as [_ A1]. rewrite Hl in A1. destruct bs as [|b bs]; auto. right. exists bs. cbn in A1. congruence.
Qed.
Lemma soundc_of {A} c (m : M A) (P Q : A -> bytes -> Prop) : sound m P -> (forall a bs, P a bs -> bs = [] \/ (exists l, bs = c :: l) -> Q a bs) -> soundc c m Q.
Proof. intros H HQ s s' a Hs Hb Hl E. destruct (soundc_sound c m P H s s' a Hs Hb Hl E) as (bs & A1 & P1 & P2). eauto. Qed.
Lemma soundc_if {A} c (b : bool) (m m' : M A) P : (b = true -> soundc c m P) -> (b = false -> soundc c m' P) -> soundc c (if b then m else m') P.
Proof. destruct b; auto. Qed.
Lemma soundc_eat {A} c (m : M A) P : sound m (fun a y => P a (c :: y)) -> soundc c (dbind (eat_some ar 1) (fun _ => m)) P.
Proof.
  intros H s s' a Hs Hb (l & Hl) E. unfold dbind in E. rewrite eat_some_run in E by (auto; lia).
  assert (Hle : 0 <= 1 <= zlen (rest s)) by (rewrite Hl, zlen_cons; pose proof (zlen_nonneg l); lia).
  pose proof (adv_index ar s 1 Hs Hle) as A1. 
  assert (A2 : ate s {| d_input := d_input s; d_index := d_index s + 1; d_log := d_log s |} [c]).
  { split; [exact A1|]. rewrite (adv_rest ar _ _ _ [c] l A1 Hl eq_refl). auto. }
  destruct (ate_bytes _ _ _ _ A2 Hb) as [_ B1].
  destruct (H _ _ _ (ate_ready _ _ _ _ A2) B1 E) as (y & A3 & Py).
  exists ([c] ++ y). split; auto. eapply ate_trans; eauto.
Qed.

(** ** Primitives *)
Lemma sound_fetch : sound (fetch ar) (fun c bs => bs = [c] /\ is_byte c).
Proof.
  intros s s' a Hs Hb E. pose proof (fetch_run ar s Hs) as F. destruct (rest s) as [|c l] eqn:Er; [congruence|].
  destruct F as (s1 & F & A). rewrite F in E. injection E as <- <-. exists [c]. split; auto. split; auto. inversion Hb; auto.
Qed.
Lemma sound_byte {A} (k : Z -> M A) P : (forall c, is_byte c -> sound (k c) (fun a y => P a (c :: y))) -> sound (dbind (fetch ar) k) P.
Proof. intros H. eapply sound_bind; [apply sound_fetch|]. intros a x [-> Ha] _. apply H; auto. Qed.
Lemma sound_unsigned n : 0 <= n <= 8 -> sound (fetch_unsigned ar n) (uint_be (Z.to_nat n)).
Proof.
  intros Hn s s' a Hs Hb E. destruct (fetch_unsigned_run ar n s Hs Hb Hn) as [(s1 & x & h & F & A1 & U)|[F _]]; [|congruence].
  rewrite F in E. injection E as <- <-. eauto.
Qed.
Lemma sound_signed n : 0 <= n <= 8 -> sound (fetch_signed ar n) (int_be (Z.to_nat n)).
Proof.
  intros Hn s s' a Hs Hb E. destruct (fetch_unsigned_run ar n s Hs Hb Hn) as [(s1 & x & h & F & A1 & U)|[F _]];
    unfold fetch_signed, fetch_unsigned, dbind in *; destruct (fetch_array ar n s) as [s2 [b|e]| |]; try discriminate.
  cbn in F, E. injection F as <- <-. injection E as <- <-. exists h. split; auto.
  destruct U as (U1 & U2 & U3). split; auto. split; auto. rewrite Z2Nat.id by lia. rewrite U3. auto.
Qed.
Lemma sound_usize x (P : Z -> bytes -> Prop) : P x [] -> sound (try_usize ar x) P.
Proof. intros H. apply sound_if; intros; [apply sound_ret; auto|apply sound_fail]. Qed.
Lemma sound_u32 : sound (dbind (fetch_u32 ar) (fun n => try_usize ar n)) (uint_be 4).
Proof. eapply sound_bind; [apply sound_unsigned; lia|]. intros a x H _. apply sound_usize. rewrite app_nil_r. exact H. Qed.
Lemma sound_split n : 0 <= n -> sound (split_input n) (fun x bs => sl_data x = bs /\ zlen bs = n).
Proof.
  intros Hn s s' a Hs Hb E. destruct (split_input_run ar n s Hs Hn) as [H1 H2].
  destruct (Z_le_gt_dec n (zlen (rest s))) as [Hl|Hl]; [|rewrite H2 in E by lia; discriminate].
  destruct (H1 Hl) as (s1 & F & A1 & _). rewrite F in E. injection E as <- <-. apply adv_ate in A1. destruct A1 as (bs & A1 & L).
  exists bs. split; auto. split; auto. cbn. destruct A1 as [_ ->]. replace (Z.to_nat n) with (length bs) by (unfold zlen in L; lia).
  rewrite firstn_app, firstn_all, Nat.sub_diag, firstn_O, app_nil_r. auto.
Qed.

Lemma sound_str : sound (parse_str ar) (fun x bs => valid_utf8 (sl_data x) /\ str_enc (sl_data x) bs).
Proof.
  apply sound_byte. intros c Hc. unfold is_byte in Hc.
  apply sound_bind with (P := fun n y => str_hdr n (c :: y)).
  - consts. apply sound_if; intros E.
    { apply sound_ret. rewrite land_31' with (lo := 0xa0) by lia. replace c with (0xa0 + (c - 0xa0)) at 2 by lia. apply SH_fix. lia. }
    apply sound_if; intros E1. { assert (c = 0xd9) as -> by lia. eapply sound_weaken; [apply sound_unsigned; lia|]. intros; apply SH_8; auto. }
    apply sound_if; intros E2. { assert (c = 0xda) as -> by lia. eapply sound_weaken; [apply sound_unsigned; lia|]. intros; apply SH_16; auto. }
    apply sound_if; intros E3. { assert (c = 0xdb) as -> by lia. eapply sound_weaken; [apply sound_u32|]. intros; apply SH_32; auto. }
    apply sound_fail.
  - intros n y Hh _. assert (Hn : 0 <= n) by (inversion Hh; subst; try lia; match goal with H : uint_be _ _ _ |- _ => apply uint_be_range in H; lia end).
    eapply sound_bind; [apply sound_split; auto|]. intros x z [H1 H2] _. apply sound_if; intros E; [|apply sound_fail].
    apply sound_ret. split; [apply from_utf8_ok_spec; auto|]. rewrite app_nil_r. subst. exists (c :: y). split; auto.
Qed.
Lemma sound_bin : sound (parse_bytes ar) (fun x bs => all_bytes (sl_data x) /\ exists h, bin_hdr (zlen (sl_data x)) h /\ bs = h ++ sl_data x).
Proof.
  apply sound_byte. intros c Hc. unfold is_byte in Hc.
  apply sound_bind with (P := fun n y => bin_hdr n (c :: y)).
  - consts.
    apply sound_if; intros E1. { assert (c = 0xc4) as -> by lia. eapply sound_weaken; [apply sound_unsigned; lia|]. intros; apply BH_8; auto. }
    apply sound_if; intros E2. { assert (c = 0xc5) as -> by lia. eapply sound_weaken; [apply sound_unsigned; lia|]. intros; apply BH_16; auto. }
    apply sound_if; intros E3. { assert (c = 0xc6) as -> by lia. eapply sound_weaken; [apply sound_u32|]. intros; apply BH_32; auto. }
    apply sound_fail.
  - intros n y Hh _. assert (Hn : 0 <= n) by (inversion Hh; subst; try lia; match goal with H : uint_be _ _ _ |- _ => apply uint_be_range in H; lia end).
    intros s s' x Hs Hb E. destruct (sound_split n Hn s s' x Hs Hb E) as (z & A1 & H1 & H2). exists z. split; auto.
    rewrite H1. split; [eapply ate_bytes; eauto|]. rewrite H2. exists (c :: y). split; auto.
Qed.

Lemma sound_try_int k z (P : Z -> bytes -> Prop) : (in_ikind k z -> P z []) -> sound (try_int k z) P.
Proof.
  intros H. unfold try_int. destruct (try_from k z) as [v|] eqn:E; [|apply sound_fail].
  apply try_from_some in E. destruct E as [-> E]. apply sound_ret. auto.
Qed.

Ltac code n := match goal with E : (?c =? ?k) = true |- _ => assert (c = n) as -> by lia; clear E end.
Lemma sound_num {A} c (m : Z -> M A) (Q : A -> bytes -> Prop) : is_byte c ->
  (forall z y, int_fmt z (c :: y) -> sound (m z) (fun a x => Q a (y ++ x))) ->
  forall last, sound last Q ->
  sound (if is_fixint c then m (to_signed 8 c)
  else if c =? UINT_8 then (n <-- fetch_u8 ar ;; m n)
  else if c =? UINT_16 then (n <-- fetch_u16 ar ;; m n)
  else if c =? UINT_32 then (n <-- fetch_u32 ar ;; m n)
  else if c =? UINT_64 then (n <-- fetch_u64 ar ;; m n)
  else if c =? INT_8 then (n <-- fetch_i8 ar ;; m n)
  else if c =? INT_16 then (n <-- fetch_i16 ar ;; m n)
  else if c =? INT_32 then (n <-- fetch_i32 ar ;; m n)
  else if c =? INT_64 then (n <-- fetch_i64 ar ;; m n)
  else last) Q.
Proof.
  intros Hc Hm last Hl. unfold is_byte in Hc. consts. apply sound_if; intros E.
  { apply (sound_weaken _ (fun a x => Q a ([] ++ x))); auto. apply Hm. unfold to_signed. destruct (c <? 2 ^ (8 - 1)) eqn:E1.
    - apply IF_pos. lia.
    - replace c with (256 + (c - 2 ^ 8)) at 2 by lia. apply IF_neg. lia. }
  apply sound_if; intros E1. { code 0xcc. eapply sound_bind; [apply sound_unsigned; lia|]. intros a x U _. apply Hm. apply IF_u8; auto. }
  apply sound_if; intros E2. { code 0xcd. eapply sound_bind; [apply sound_unsigned; lia|]. intros a x U _. apply Hm. apply IF_u16; auto. }
  apply sound_if; intros E3. { code 0xce. eapply sound_bind; [apply sound_unsigned; lia|]. intros a x U _. apply Hm. apply IF_u32; auto. }
  apply sound_if; intros E4. { code 0xcf. eapply sound_bind; [apply sound_unsigned; lia|]. intros a x U _. apply Hm. apply IF_u64; auto. }
  apply sound_if; intros E5. { code 0xd0. eapply sound_bind; [apply sound_signed; lia|]. intros a x U _. apply Hm. apply IF_i8; auto. }
  apply sound_if; intros E6. { code 0xd1. eapply sound_bind; [apply sound_signed; lia|]. intros a x U _. apply Hm. apply IF_i16; auto. }
  apply sound_if; intros E7. { code 0xd2. eapply sound_bind; [apply sound_signed; lia|]. intros a x U _. apply Hm. apply IF_i32; auto. }
  apply sound_if; intros E8. { code 0xd3. eapply sound_bind; [apply sound_signed; lia|]. intros a x U _. apply Hm. apply IF_i64; auto. }
  exact Hl.
Qed.
Lemma sound_integer k : sound (parse_integer ar k) (fun z bs => in_ikind k z /\ int_fmt z bs).
Proof.
  apply sound_byte. intros c Hc. apply (sound_num c (try_int k)); auto; [|apply sound_fail].
  intros z y F. apply sound_try_int. intros. rewrite app_nil_r. auto.
Qed.
Lemma sound_fetch_num c conv : is_byte c -> sound (fetch_num ar c conv) (fun x y => exists z, int_fmt z (c :: y) /\ x = conv z).
Proof.
  intros Hc. apply (sound_num c (fun z => dret (conv z))); auto; [|apply sound_fail].
  intros z y F. apply sound_ret. rewrite app_nil_r. eauto.
Qed.

(** Container headers. *)
Ltac hdr := eapply sound_weaken; [first [apply sound_u32|apply sound_unsigned; lia]|]; intros.
Lemma sound_seq {U} (R : @runner U) v (P : Z -> U * Z -> bytes -> Prop) (Q : U -> bytes -> Prop) :
  (forall n, 0 <= n -> sound (r_seq R (visit_seq v) n) (P n)) ->
  (forall n u h b, arr_hdr n h -> P n (u, 0) b -> Q u (h ++ b)) -> sound (deserialize_seq ar R v) Q.
Proof.
  intros HP HQ. apply sound_byte. intros c Hc. unfold is_byte in Hc.
  apply sound_bind with (P := fun n y => arr_hdr n (c :: y)).
  - consts. apply sound_if; intros E.
    { apply sound_ret. rewrite land_15' with (lo := 0x90) by lia. replace c with (0x90 + (c - 0x90)) at 2 by lia. apply AH_fix. lia. }
    apply sound_if; intros E2. { code 0xdc. hdr. apply AH_16; auto. }
    apply sound_if; intros E3. { code 0xdd. hdr. apply AH_32; auto. }
    apply sound_fail.
  - intros n y Hh _. assert (Hn : 0 <= n) by (inversion Hh; subst; try lia; match goal with H : uint_be _ _ _ |- _ => apply uint_be_range in H; lia end).
    eapply sound_bind; [apply HP; auto|]. intros [u m] b Pb _. unfold check_count. cbn [fst snd].
    apply sound_if; intros E; [|apply sound_fail]. apply sound_ret. rewrite app_nil_r. assert (m = 0) as -> by lia.
    apply (HQ n u (c :: y) b); auto.
Qed.
Lemma sound_map {U} (R : @runner U) v (P : Z -> U * Z -> bytes -> Prop) (Q : U -> bytes -> Prop) :
  (forall n, 0 <= n -> sound (r_map R (visit_map v) n) (P n)) ->
  (forall n u h b, map_hdr n h -> P n (u, 0) b -> Q u (h ++ b)) -> sound (deserialize_map ar R v) Q.
Proof.
  intros HP HQ. apply sound_byte. intros c Hc. unfold is_byte in Hc.
  apply sound_bind with (P := fun n y => map_hdr n (c :: y)).
  - consts. apply sound_if; intros E.
    { apply sound_ret. rewrite land_15' with (lo := 0x80) by lia. replace c with (0x80 + (c - 0x80)) at 2 by lia. apply MH_fix. lia. }
    apply sound_if; intros E2. { code 0xde. hdr. apply MH_16; auto. }
    apply sound_if; intros E3. { code 0xdf. hdr. apply MH_32; auto. }
    apply sound_fail.
  - intros n y Hh _. assert (Hn : 0 <= n) by (inversion Hh; subst; try lia; match goal with H : uint_be _ _ _ |- _ => apply uint_be_range in H; lia end).
    eapply sound_bind; [apply HP; auto|]. intros [u m] b Pb _. unfold check_count. cbn [fst snd].
    apply sound_if; intros E; [|apply sound_fail]. apply sound_ret. rewrite app_nil_r. assert (m = 0) as -> by lia.
    apply (HQ n u (c :: y) b); auto.
Qed.
Lemma sound_u32_as {A} (f : Z -> A) : sound (n <-- fetch_u32 ar ;; n <-- try_usize ar n ;; dret (f n)) (fun a y => exists n, a = f n /\ uint_be 4 n y).
Proof.
  eapply sound_bind; [apply sound_unsigned; lia|]. intros a x U _. eapply sound_bind; [apply (sound_usize a (fun n y => n = a /\ y = [])); auto|].
  intros n y [-> ->] _. apply sound_ret. rewrite !app_nil_r. eauto.
Qed.
Lemma sound_u16_as {A} (f : Z -> A) : sound (n <-- fetch_u16 ar ;; dret (f n)) (fun a y => exists n, a = f n /\ uint_be 2 n y).
Proof. eapply sound_bind; [apply sound_unsigned; lia|]. intros a x U _. apply sound_ret. rewrite app_nil_r. eauto. Qed.
Lemma sound_struct {U} (R : @runner U) v (P P' : Z -> U * Z -> bytes -> Prop) (Q : U -> bytes -> Prop) :
  (forall n, 0 <= n -> sound (r_map R (visit_map v) n) (P n)) ->
  (forall n, 0 <= n -> sound (r_seq R (visit_seq v) n) (P' n)) ->
  (forall n u h b, map_hdr n h -> P n (u, 0) b -> Q u (h ++ b)) -> 
  (forall n u h b, arr_hdr n h -> P' n (u, 0) b -> Q u (h ++ b)) -> sound (deserialize_struct ar R v) Q.
Proof.
  intros HP HP' HQ HQ'. apply sound_byte. intros c Hc. unfold is_byte in Hc.
  apply sound_bind with (P := fun (n : bool * Z) y => if fst n then map_hdr (snd n) (c :: y) else arr_hdr (snd n) (c :: y)).
  - consts. apply sound_if; intros E.
    { apply sound_ret. cbn [fst snd]. rewrite land_15' with (lo := 0x80) by lia. replace c with (0x80 + (c - 0x80)) at 2 by lia. apply MH_fix. lia. }
    apply sound_if; intros E2. { code 0xde. eapply sound_weaken; [apply sound_u16_as|]. intros ? ? (n & -> & ?). apply MH_16; auto. }
    apply sound_if; intros E3. { code 0xdf. eapply sound_weaken; [apply sound_u32_as|]. intros ? ? (n & -> & ?). apply MH_32; auto. }
    apply sound_if; intros E0.
    { apply sound_ret. cbn [fst snd]. rewrite land_15' with (lo := 0x90) by lia. replace c with (0x90 + (c - 0x90)) at 2 by lia. apply AH_fix. lia. }
    apply sound_if; intros E4. { code 0xdc. eapply sound_weaken; [apply sound_u16_as|]. intros ? ? (n & -> & ?). apply AH_16; auto. }
    apply sound_if; intros E5. { code 0xdd. eapply sound_weaken; [apply sound_u32_as|]. intros ? ? (n & -> & ?). apply AH_32; auto. }
    apply sound_fail.
  - intros [mp n] y Hh _. cbn [fst snd] in *. destruct mp.
    + assert (Hn : 0 <= n) by (inversion Hh; subst; try lia; match goal with H : uint_be _ _ _ |- _ => apply uint_be_range in H; lia end).
      eapply sound_bind; [apply HP; auto|]. intros [u m] b Pb _. unfold check_count. cbn [fst snd].
      apply sound_if; intros E; [|apply sound_fail]. apply sound_ret. rewrite app_nil_r. assert (m = 0) as -> by lia.
      apply (HQ n u (c :: y) b); auto.
    + assert (Hn : 0 <= n) by (inversion Hh; subst; try lia; match goal with H : uint_be _ _ _ |- _ => apply uint_be_range in H; lia end).
      eapply sound_bind; [apply HP'; auto|]. intros [u m] b Pb _. unfold check_count. cbn [fst snd].
      apply sound_if; intros E; [|apply sound_fail]. apply sound_ret. rewrite app_nil_r. assert (m = 0) as -> by lia.
      apply (HQ' n u (c :: y) b); auto.
Qed.

(** ** Programs *)
Definition sde (p : deser) P : Prop := forall f, sound (r_de (run f) p) P.
Definition ssq p n P : Prop := forall f, sound (r_seq (run f) p n) P.
Definition smp p n P : Prop := forall f, sound (r_map (run f) p n) P.
Definition sme m (v : visitor) P : Prop := forall f, sound (mp_method ar fo (run f) m v) P.

Lemma sound_fuel {A} (P : A -> bytes -> Prop) : sound (fun _ => OutOfFuel) P.
Proof. apply sound_never. intros s s' a. discriminate. Qed.

Lemma sde_req m v P : sme m v P -> sde (DReq m v (fun r => r)) P.
Proof.
  intros H [|f]; [apply sound_fuel|]. cbn. eapply sound_post; [apply H|discriminate|]. intros a b x Px [= ->]. auto.
Qed.
Lemma sde_request m v P : sme m (mk_visitor v) P -> sde (request m v) P.
Proof.
  intros H [|f]; [apply sound_fuel|]. cbn. eapply sound_post; [apply H|discriminate|]. intros a b x Px [= ->]. auto.
Qed.
Lemma sde_method m v P : sde (request m v) P -> sme m (mk_visitor v) P.
Proof.
  intros H f s s' a Hs Hb E. apply (H (S f) s s' a Hs Hb). cbn. unfold dpost, dtry. rewrite E. reflexivity.
Qed.
Lemma sde_then m v g P (Q : val -> bytes -> Prop) : sde (request m v) P -> (forall e b, g (Err e) <> Ok b) ->
  (forall a b x, P a x -> g (Ok a) = Ok b -> Q b x) -> sde (then_ (request m v) g) Q.
Proof.
  intros H He Hk [|f]; [apply sound_fuel|]. cbn. eapply sound_post; [apply (sde_method _ _ _ H f)|exact He|exact Hk].
Qed.

Lemma never_ret {A} e : never (@dlift mpde mp_de_error A (Err e)).
Proof. intros s s' a. discriminate. Qed.
Lemma never_seq_err f e n : never (r_seq (run f) (SRet (Err e)) n).
Proof. destruct f; intros s s' a; discriminate. Qed.
Lemma never_map_err f e n : never (r_map (run f) (MRet (Err e)) n).
Proof. destruct f; intros s s' a; discriminate. Qed.

Lemma ssq_loop seed p : sde seed p -> forall f acc n, 0 <= n ->
  sound (r_seq (run f) (seq_loop seed acc) n)
    (fun r b => snd r = 0 /\ exists l, fst r = USeq (rev acc ++ l) /\ zlen l = n /\ seq_enc (map p l) b).
Proof.
  intros Hp. induction f as [|f IH]; intros acc n Hn; [apply sound_fuel|].
  rewrite (sfrob_eq (seq_loop seed acc)). cbn [sfrob seq_loop]. cbn [mp_run r_seq step_seq].
  apply sound_if; intros E.
  - assert (n = 0) as -> by lia. destruct f; [apply sound_fuel|]. apply sound_ret. cbn. split; auto.
    exists []. rewrite app_nil_r. split; [reflexivity|]. split; reflexivity.
  - eapply sound_try; [apply Hp| |].
    + intros e. apply never_seq_err.
    + intros v x Px. cbn [res_some]. eapply sound_weaken; [apply IH; lia|]. intros [u m] b (Hm & l & Hu & Ll & Hl).
      split; auto. exists (v :: l). cbn [fst snd rev] in *. rewrite <- app_assoc in Hu. split; auto.
      split; [rewrite zlen_cons; lia|]. cbn. eauto.
Qed.

Lemma ssq_tuple (ds : list (deser * option val)) : forall (ps : list (val -> bytes -> Prop)),
  Forall2 (fun d p => sde (fst d) p) ds ps -> forall n acc f, 0 <= n ->
  sound (r_seq (run f) (tuple_prog DeserializeError ds acc) n)
    (fun r b => exists l j, fst r = USeq (rev acc ++ l) /\ length l = length ds /\ (j <= length ds)%nat /\ snd r = n - Z.of_nat j /\ 0 <= snd r /\
       seq_enc (zip (fun p v => p v) (firstn j ps) (firstn j l)) b /\
       all2 (fun d v => snd d = Some v) (skipn j ds) (skipn j l)).
Proof.
  induction ds as [|[seed d] ds IH]; intros ps F n acc f Hn; inversion F as [|? p ? ps' Hd Hds]; subst; clear F.
  - cbn [tuple_prog]. destruct f as [|f]; [apply sound_fuel|]. apply sound_ret. exists [], 0%nat. cbn [fst snd].
    rewrite app_nil_r. cbn. repeat split; auto; lia.
  - cbn [tuple_prog]. destruct f as [|f]; [apply sound_fuel|]. cbn [mp_run r_seq step_seq]. apply sound_if; intros E.
    + assert (n = 0) as -> by lia. destruct d as [d|]; [|apply sound_never, never_seq_err].
      eapply sound_weaken; [apply (IH _ Hds 0 (d :: acc) f); lia|]. intros [u m] b (l & j & Hu & Ll & Hj & Hm & Hm0 & Hb & Ha).
      assert (j = 0)%nat as -> by (cbn [snd] in *; lia). exists (d :: l), 0%nat. cbn [fst snd rev] in *. rewrite <- app_assoc in Hu.
      repeat split; auto; cbn [length]; lia.
    + eapply sound_try; [apply Hd|intros e; apply never_seq_err|]. intros v x Px. cbn [res_some].
      eapply sound_weaken; [apply (IH _ Hds (n - 1) (v :: acc) f); lia|]. intros [u m] b (l & j & Hu & Ll & Hj & Hm & Hm0 & Hb & Ha).
      exists (v :: l), (S j). cbn [fst snd rev] in *. rewrite <- app_assoc in Hu. cbn [length firstn skipn zip seq_enc]. repeat split; auto; try lia. eauto.
Qed.

Lemma smp_loop kseed vseed p q : sde kseed p -> sde vseed q -> forall f acc n, 0 <= n ->
  sound (r_map (run f) (map_loop kseed vseed acc) n)
    (fun r b => snd r = 0 /\ exists l, fst r = UMap (rev acc ++ l) /\ zlen l = n /\
       seq_enc (map (fun e b => exists x y, b = x ++ y /\ p (fst e) x /\ q (snd e) y) l) b).
Proof.
  intros Hp Hq f. induction f as [f IH] using (well_founded_induction lt_wf); intros acc n Hn.
  destruct f as [|f]; [apply sound_fuel|].
  rewrite (mfrob_eq (map_loop kseed vseed acc)). cbn [mfrob map_loop]. cbn [mp_run r_map step_map].
  apply sound_if; intros E.
  - assert (n = 0) as -> by lia. destruct f; [apply sound_fuel|]. apply sound_ret. cbn. split; auto.
    exists []. rewrite app_nil_r. split; [reflexivity|]. split; reflexivity.
  - eapply sound_try; [apply Hp|intros e; apply never_map_err|]. intros k x Px. cbn [res_some].
    destruct f as [|f]; [apply sound_fuel|]. cbn [mp_run r_map step_map].
    eapply sound_try; [apply Hq|intros e; apply never_map_err|]. intros v y Py.
    eapply sound_weaken; [apply (IH f); lia|]. intros [u m] b (Hm & l & Hu & Ll & Hl).
    split; auto. exists ((k, v) :: l). cbn [fst snd rev] in *. rewrite <- app_assoc in Hu. split; auto.
    split; [rewrite zlen_cons; lia|]. cbn. exists (x ++ y), b. rewrite app_assoc. split; auto. split; eauto.
Qed.

Lemma find_name_sound ns s : forall j i, find_name s ns j = Some i -> exists k, i = (j + k)%nat /\ nth_error ns k = Some s.
Proof.
  induction ns as [|n ns IH]; intros j i H; cbn in H; [discriminate|]. destruct (list_eqb Z.eqb s n) eqn:E.
  - apply list_eqb_Z in E. subst. injection H as <-. exists 0%nat. split; [lia|auto].
  - destruct (IH _ _ H) as (k & -> & Hk). exists (S k). split; [lia|auto].
Qed.
Lemma find_name_absent ns s : forall j, find_name s ns j = None -> ~ In s ns.
Proof.
  induction ns as [|n ns IH]; intros j H Hi; [destruct Hi|]. cbn in H. destruct Hi as [<-|Hi].
  - rewrite (proj2 (list_eqb_Z n n) eq_refl) in H. discriminate.
  - destruct (list_eqb Z.eqb s n); [discriminate|]. eapply IH; eauto.
Qed.

Lemma int_ident c z bs : between 0 MAX_POSFIXINT c || (c =? UINT_8) || (c =? UINT_16) || (c =? UINT_32) = true ->
  int_fmt z bs -> bs = [] \/ (exists l, bs = c :: l) -> ident_int z bs.
Proof.
  intros Hc Hz [->|(l & Hl)]; [inversion Hz|]. consts. inversion Hz; subst; try (apply cons_inj in H0; destruct H0; subst);
    try (apply cons_inj in H1; destruct H1; subst);
    first [apply II_pos; lia|apply II_u8; assumption|apply II_u16; assumption|apply II_u32; assumption|exfalso; lia].
Qed.

Definition ident_post (strict : bool) ns (v : val) bs : Prop :=
  match v with
  | UIdent (Some i) => ident_enc ns i bs
  | UIdent None => strict = false /\ unknown_enc ns bs
  | _ => False
  end.
Lemma sde_ident strict ns : sde (ident DeserializeError strict ns) (ident_post strict ns).
Proof.
  apply sde_request. intros f. cbn [mp_method]. unfold deserialize_identifier. apply sound_peek. intros c Hc.
  apply soundc_if; intros E.
  - eapply soundc_of with (P := fun a bs => exists z, int_fmt z bs /\ Ok a = visit_int (mk_visitor (v_ident DeserializeError strict ns)) U32 z).
    + eapply sound_bind; [apply sound_integer|]. intros z x [_ Hz] _. apply sound_lift. intros a Ha. exists z. rewrite app_nil_r. auto.
    + intros a bs (z & Hz & Ha) Hl. pose proof (int_ident _ _ _ E Hz Hl) as Hi. cbn in Ha.
      assert (0 <= z) by (inversion Hi; subst; try lia; match goal with H : uint_be _ _ _ |- _ => apply uint_be_range in H; lia end).
      destruct ((0 <=? z) && (z <? zlen ns)) eqn:E2.
      * injection Ha as ->. cbn. right. unfold zlen in E2. split; [lia|]. rewrite Z2Nat.id by lia. auto.
      * destruct strict; [discriminate|]. injection Ha as ->. cbn. split; auto. right. exists z. split; [lia|auto].
  - apply soundc_if; intros E2; [|intros s s' a _ _ _ D; discriminate D].
    eapply soundc_of with (P := ident_post strict ns); [|auto].
    eapply sound_bind; [apply sound_str|]. intros x bs [Hu Hs] _. eapply sound_bind with (P := fun _ b => b = []).
    { intros s s' a Hs' Hb D. injection D as <- <-. exists []. split; auto. split; auto. apply adv_refl in Hs'. auto. }
    intros _ y -> _. apply sound_lift. cbn. intros a Ha. rewrite app_nil_r. destruct (find_name (sl_data x) ns 0) as [i|] eqn:F.
    + injection Ha as <-. cbn. apply find_name_sound in F. destruct F as (k & -> & Hk). left. exists (sl_data x). auto.
    + destruct strict; [discriminate|]. injection Ha as <-. cbn. split; auto. left. exists (sl_data x).
      split; auto. split; auto. eapply find_name_absent; eauto.
Qed.

(** Skipping is sound where positions cannot overflow (C18). *)
Context (Wide : wide ar).

Lemma sde_ignored : sde ignored (fun _ bs => exists m, mp_fmt m bs).
Proof.
  destruct (@ignored_req mp_de_error) as (v & -> & Hv & _). apply sde_req. intros f. cbn [mp_method]. unfold deserialize_ignored_any.
  eapply sound_bind with (P := fun _ bs => exists m, mp_fmt m bs).
  - destruct f as [|f]; [apply sound_fuel|]. intros s s' a Hs Hb E. cbn [mp_run r_eat] in E.
    pose proof (proj1 (eat_sound ar Wide (S f)) s Hs Hb) as H. rewrite E in H. exact H.
  - intros _ x Hx _. apply sound_lift. intros a _. rewrite app_nil_r. auto.
Qed.

Lemma set_nth_length {A} (l : list A) : forall i a, length (set_nth l i a) = length l.
Proof. induction l; intros [|i] b; cbn; auto. Qed.
Lemma smp_struct names ps seeds absent : Forall2 sde seeds ps -> forall f got n, length got = length seeds -> 0 <= n ->
  sound (r_map (run f) (struct_loop DeserializeError names seeds absent got) n)
    (fun r b => snd r = 0 /\ exists l got', fst r = USeq l /\ entries names ps got n b got' /\ finish got' absent = Some l).
Proof.
  intros F f. induction f as [f IH] using (well_founded_induction lt_wf); intros got n Lg Hn.
  destruct f as [|f]; [apply sound_fuel|].
  rewrite (mfrob_eq (struct_loop _ names seeds absent got)). cbn [mfrob struct_loop]. cbn [mp_run r_map step_map].
  apply sound_if; intros E.
  - assert (n = 0) as -> by lia. destruct f; [apply sound_fuel|]. cbn [mp_run r_map step_map].
    destruct (finish got absent) as [l|] eqn:Ef; [|intros s s' a _ _ D; discriminate D].
    apply sound_ret. split; auto. exists l, got. split; auto. split; auto. constructor.
  - eapply sound_try; [apply sde_ident|intros e; apply never_map_err|]. intros k x Px. cbn [res_some].
    destruct k as [| | | | | | | | | | | | |[i|]]; cbn [ident_post] in Px; try contradiction.
    + destruct (nth_error seeds i) as [seed|] eqn:Es; [|apply sound_never, never_map_err].
      destruct (nth_error got i) as [[w|]|] eqn:Eg; try (apply sound_never, never_map_err).
      destruct f as [|f]; [apply sound_fuel|]. cbn [mp_run r_map step_map].
      assert (Hp : exists p, nth_error ps i = Some p /\ sde seed p).
      { clear - F Es. revert i Es. induction F; intros [|i] Es; cbn in *; try discriminate; eauto. injection Es as ->. eauto. }
      destruct Hp as (p & Ep & Hp).
      eapply sound_try; [apply Hp|intros e; apply never_map_err|]. intros v y Py.
      eapply sound_weaken; [apply (IH f)|]; [lia|rewrite set_nth_length; auto|lia|].
      intros [u m] b (Hm & l & got' & Hu & He & Hf). split; auto. exists l, got'. split; auto. split; auto.
      replace n with (1 + (n - 1)) by lia. eapply EN_field; eauto.
    + destruct Px as [_ Px]. destruct f as [|f]; [apply sound_fuel|]. cbn [mp_run r_map step_map].
      eapply sound_try; [apply sde_ignored|intros e; apply never_map_err|]. intros v y (m0 & Hm0).
      eapply sound_weaken; [apply (IH f)|]; [lia|auto|lia|].
      intros [u m] b (Hm & l & got' & Hu & He & Hf). split; auto. exists l, got'. split; auto. split; auto.
      replace n with (1 + (n - 1)) by lia. eapply EN_unknown; eauto.
Qed.

(** ** Types *)
Lemma all2_default fs : forall l, all2 (fun d v => snd d = Some v) (map (fun f => (denote DeserializeError (snd f), default_of (attr_of f))) fs) l ->
  all2 (fun (f : bytes * fattr * ty) v => attr_of f = FDefault v) fs l.
Proof.
  induction fs as [|f fs IH]; intros [|v l] H; cbn in *; try tauto. destruct H as [H1 H2]. split; auto.
  destruct (attr_of f); cbn in H1; congruence.
Qed.
Lemma finish_sound fs : forall got l, length got = length fs -> finish got (map absent_val fs) = Some l -> all_fields fs got l.
Proof.
  induction fs as [|f fs IH]; intros [|g got] l Hl H; cbn [length] in Hl; try discriminate.
  - injection H as <-. cbn. auto.
  - cbn [map finish] in H. destruct g as [w|].
    + destruct (finish got (map absent_val fs)) as [l'|] eqn:E; [|discriminate]. injection H as <-. cbn. split; auto.
    + destruct (absent_val f) as [d|] eqn:Ea; [|discriminate].
      destruct (finish got (map absent_val fs)) as [l'|] eqn:E; [|discriminate]. injection H as <-. cbn. split; auto.
      unfold absent_val, absent_ok in *. destruct (attr_of f); [|congruence]. destruct (snd f); try discriminate. injection Ea as <-. eauto.
Qed.
Lemma entries_length names ps got n b got' : entries names ps got n b got' -> length got' = length got.
Proof. induction 1; auto. rewrite IHentries, set_nth_length. auto. Qed.
Definition is_req (p : deser) : Prop := exists m v, p = request m v.
Lemma denote_req t : is_req (denote DeserializeError t).
Proof. destruct t; eexists; eexists; reflexivity. Qed.

Lemma sound_tuple ts l0 m (ps : list (val -> bytes -> Prop)) : In m [DTuple; DTupleStruct] ->
  Forall2 sde (map (denote DeserializeError) ts) ps -> l0 = map (fun t => (denote DeserializeError t, None)) ts ->
  sde (request m (v_seq DeserializeError (tuple_prog DeserializeError l0 [])))
    (fun v bs => exists l h b, v = USeq l /\ bs = h ++ b /\ arr_hdr (zlen ts) h /\ length l = length ts /\ seq_enc (zip (fun p v => p v) ps l) b).
Proof.
  intros Hm F ->. apply sde_request. intros f.
  assert (E : mp_method ar fo (run f) m (mk_visitor (v_seq DeserializeError (tuple_prog DeserializeError (map (fun t => (denote DeserializeError t, None)) ts) [])))
    = deserialize_seq ar (run f) (mk_visitor (v_seq DeserializeError (tuple_prog DeserializeError (map (fun t => (denote DeserializeError t, None)) ts) []))))
    by (destruct Hm as [<-|[<-|[]]]; reflexivity).
  rewrite E. clear E.
  eapply sound_seq; [intros n Hn; apply (ssq_tuple _ ps)|]; auto.
  { clear - F. remember (map _ ts) as ds eqn:E. revert ts E. induction F; intros [|t ts] [=]; subst; constructor; auto. }
  intros n u h b Hh (l & j & Hu & Ll & Hj & Hn0 & _ & Hb & Ha). cbn [fst snd rev app] in *. subst u.
  rewrite map_length in *. assert (j = length ts).
  { destruct (Nat.eq_dec j (length ts)); auto. exfalso.
    destruct (skipn j (map (fun t => (denote DeserializeError t, @None val)) ts)) as [|d r] eqn:E1.
    - apply (f_equal (@length _)) in E1. rewrite skipn_length, map_length in E1. cbn in E1. lia.
    - assert (Hd : snd d = None).
      { assert (In d (map (fun t => (denote DeserializeError t, @None val)) ts)) by (rewrite <- (firstn_skipn j), E1; apply in_or_app; right; left; auto).
        apply in_map_iff in H. destruct H as (t & <- & _). auto. }
      destruct (skipn j l) as [|v r'] eqn:E2; cbn in Ha; [tauto|]. destruct Ha; congruence. }
  subst j. exists l, h, b. split; auto. split; auto. split; [unfold zlen; replace (Z.of_nat (length ts)) with n by lia; auto|]. split; auto.
  assert (Lp : length ps = length ts) by (clear - F; remember (map _ ts) as ds eqn:E; revert ts E; induction F; intros [|t ts] [=]; subst; cbn; auto).
  rewrite <- Lp in Hb at 1. rewrite <- Ll in Hb. rewrite !firstn_all in Hb. exact Hb.
Qed.

Lemma denote_sound t : wf t -> sde (denote DeserializeError t) (adm fo t).
Proof.
  induction t as [| | | | | | | | |t IH|t IH|t IH|ts IH|ts IH|k v IHk IHv|fs IH|vs IH] using ty_ind'; intros W.
  - apply sde_request. intros f. cbn [mp_method]. apply sound_byte. intros c Hc. consts. apply sound_if; intros E; [|apply sound_if; intros E2; [|apply sound_fail]].
    + apply sound_lift. cbn. intros a [= <-]. replace c with 0xc3 by lia. auto.
    + apply sound_lift. cbn. intros a [= <-]. replace c with 0xc2 by lia. auto.
  - apply sde_request. intros f. cbn [mp_method]. eapply sound_bind; [apply sound_integer|]. intros z x Hz _.
    apply sound_lift. cbn. intros a. destruct (in_ikindb k z); [|discriminate]. intros [= <-]. rewrite app_nil_r. auto.
  - apply sde_request. intros f. cbn [mp_method]. apply sound_byte. intros c Hc.
    apply sound_bind with (P := fun x y => adm fo TF32 (UF32 x) (c :: y)).
    + apply sound_if; intros E. { assert (c = 0xca) as -> by (consts; lia). eapply sound_weaken; [apply sound_unsigned; lia|]. intros; left; eauto. }
      apply sound_if; intros E1. { assert (c = 0xcb) as -> by (consts; lia). eapply sound_bind; [apply sound_unsigned; lia|]. intros y h Hy _. apply sound_ret. right; left. rewrite app_nil_r. eauto. }
      apply sound_if; intros E2. { assert (c = 0xc0) as -> by (consts; lia). apply sound_ret. right; right; right. auto. }
      eapply sound_weaken; [apply sound_fetch_num; auto|]. intros x y (z & Hz & ->). right; right; left. eauto.
    + intros x y Hx _. apply sound_lift. intros a [= <-]. rewrite app_nil_r. auto.
  - apply sde_request. intros f. cbn [mp_method]. apply sound_byte. intros c Hc.
    apply sound_bind with (P := fun x y => adm fo TF64 (UF64 x) (c :: y)).
    + apply sound_if; intros E. { assert (c = 0xcb) as -> by (consts; lia). eapply sound_weaken; [apply sound_unsigned; lia|]. intros; left; eauto. }
      apply sound_if; intros E1. { assert (c = 0xca) as -> by (consts; lia). eapply sound_bind; [apply sound_unsigned; lia|]. intros y h Hy _. apply sound_ret. right; left. rewrite app_nil_r. eauto. }
      apply sound_if; intros E2. { assert (c = 0xc0) as -> by (consts; lia). apply sound_ret. right; right; right. auto. }
      eapply sound_weaken; [apply sound_fetch_num; auto|]. intros x y (z & Hz & ->). right; right; left. eauto.
    + intros x y Hx _. apply sound_lift. intros a [= <-]. rewrite app_nil_r. auto.
  - apply sde_request. intros f. cbn [mp_method]. eapply sound_bind; [apply sound_str|]. intros x bs [Hu Hs] _.
    destruct (char_from_str (sl_data x)) as [c|] eqn:E; [|apply sound_fail]. apply char_from_str_spec in E. destruct E as [E1 E2].
    apply sound_lift. intros a [= <-]. rewrite app_nil_r. cbn. split; auto. rewrite <- E2. auto.
  - apply sde_request. intros f. cbn [mp_method]. eapply sound_bind; [apply sound_str|]. intros x bs [Hu Hs] _. 
    eapply sound_bind with (P := fun _ b => b = []).
    { intros s s' a Hs' Hb D. injection D as <- <-. exists []. split; auto. split; auto. apply adv_refl in Hs'. auto. }
    intros _ y -> _. apply sound_lift. intros a [= <-]. rewrite app_nil_r. cbn. auto.
  - apply sde_request. intros f. cbn [mp_method]. eapply sound_bind; [apply sound_bin|]. intros x bs [Hu Hs] _. 
    eapply sound_bind with (P := fun _ b => b = []).
    { intros s s' a Hs' Hb D. injection D as <- <-. exists []. split; auto. split; auto. apply adv_refl in Hs'. auto. }
    intros _ y -> _. apply sound_lift. intros a [= <-]. rewrite app_nil_r. cbn. auto.
  - apply sde_request. intros f. cbn [mp_method]. apply sound_byte. intros c Hc. apply sound_if; intros E; [|apply sound_fail].
    apply sound_lift. intros a [= <-]. cbn. consts. replace c with 0xc0 by lia. auto.
  - apply sde_request. intros f. cbn [mp_method]. apply sound_byte. intros c Hc. apply sound_if; intros E; [|apply sound_fail].
    apply sound_lift. intros a [= <-]. cbn. consts. replace c with 0xc0 by lia. auto.
  - cbn [denote]. apply sde_request. intros f. cbn [mp_method]. apply sound_peek. intros c Hc. apply soundc_if; intros E.
    + apply soundc_eat. apply sound_lift. intros a [= <-]. cbn. consts. replace c with 0xc0 by lia. auto.
    + destruct (denote_req t) as (m & v & Et).
      eapply soundc_of with (P := fun a bs => exists v, a = USome v /\ adm fo t v bs).
      * cbn [visit_some mk_visitor v_option on_some]. rewrite Et in *. eapply (sde_then m v); [apply IH; exact W|discriminate|].
        intros a b x Px [= <-]. eauto.
      * intros a bs (x & -> & Hx) Hl. cbn. split; auto. intros ->. destruct Hl as [|(l & Hl)]; [discriminate|]. apply cons_inj in Hl. destruct Hl as [Hl _]. consts. lia.
  - cbn [denote]. apply sde_request. intros f. cbn [mp_method]. unfold deserialize_newtype_struct. cbn [visit_newtype mk_visitor v_newtype on_newtype].
    apply IH. exact W.
  - cbn [denote]. apply sde_request. intros f. cbn [mp_method].
    apply sound_seq with (P := fun n r b => snd r = 0 /\ exists l, fst r = USeq (rev [] ++ l) /\ zlen l = n /\ seq_enc (map (adm fo t) l) b); [intros n Hn|].
    + cbn [visit_seq mk_visitor v_seq on_seq]. destruct f as [|f]; [apply sound_fuel|]. cbn [mp_run r_seq step_seq]. exact (ssq_loop _ _ (IH W) f [] n Hn).
    + intros n u h b Hh (_ & l & Hu & Ll & Hl). cbn [fst rev app] in Hu. subst u. cbn. exists h, b. subst n. auto.
  - cbn [denote]. destruct W as [W _].
    intros f. eapply sound_weaken; [eapply (sound_tuple ts _ DTuple (map (adm fo) ts)); [cbn; auto| |reflexivity]|].
    { apply all_list_Forall in W. clear - IH W. induction IH; inversion W; subst; cbn; constructor; auto. }
    intros a bs (l & h & b & -> & -> & Hh & Ll & Hl). cbn. eauto 8.
  - cbn [denote]. destruct W as [W _].
    intros f. eapply sound_weaken; [eapply (sound_tuple ts _ DTupleStruct (map (adm fo) ts)); [cbn; auto| |reflexivity]|].
    { apply all_list_Forall in W. clear - IH W. induction IH; inversion W; subst; cbn; constructor; auto. }
    intros a bs (l & h & b & -> & -> & Hh & Ll & Hl). cbn. eauto 8.
  - cbn [denote]. destruct W as [W1 W2]. apply sde_request. intros f. cbn [mp_method]. 
    apply sound_map with (P := fun n r b => snd r = 0 /\ exists l, fst r = UMap (rev [] ++ l) /\ zlen l = n /\
       seq_enc (map (fun e b => exists x y, b = x ++ y /\ adm fo k (fst e) x /\ adm fo v (snd e) y) l) b); [intros n Hn|].
    + cbn [visit_map mk_visitor v_map on_map]. destruct f as [|f]; [apply sound_fuel|]. cbn [mp_run r_map step_map]. exact (smp_loop _ _ _ _ (IHk W1) (IHv W2) f [] n Hn).
    + intros n u h b Hh (_ & l & Hu & Ll & Hl). cbn [fst rev app] in Hu. subst u. cbn. exists h, b. subst n. auto.
  - cbn [denote]. destruct W as [_ W]. apply all_list_Forall in W.
    assert (F : Forall (fun f => sde (denote DeserializeError (snd f)) (adm fo (snd f))) fs).
    { clear - IH W. induction IH; inversion W as [|? ? [? _] ?]; subst; constructor; auto. }
    clear IH W. apply sde_request. intros f. cbn [mp_method].
    eapply sound_struct; [intros n Hn|intros n Hn|..].
    + cbn [visit_map mk_visitor v_struct on_map]. apply (smp_struct _ (map (fun f => adm fo (snd f)) fs)); auto.
      * clear - F. induction F; cbn; constructor; auto.
      * rewrite !map_length. auto.
    + cbn [visit_seq mk_visitor v_struct on_seq]. apply (ssq_tuple _ (map (fun f => adm fo (snd f)) fs)); auto.
      clear - F. induction F; cbn; constructor; auto.
    + intros n u h b Hh (_ & l & got & Hu & He & Hf). cbn [fst] in Hu. subst u. cbn [adm]. right. exists n, h, b, got. split; auto. split; auto. split; auto.
      apply finish_sound; auto. rewrite (entries_length _ _ _ _ _ _ He), map_length. auto.
    + intros n u h b Hh (l & j & Hu & Ll & Hj & Hn & _ & Hb & Ha). cbn [fst snd rev app] in *. subst u. rewrite map_length in *. cbn [adm]. left.
      exists j, h, b. split; auto. split; auto. split; [replace (Z.of_nat j) with n by lia; auto|]. split; auto. split; auto.
      rewrite skipn_map in Ha. apply all2_default. auto.
  - cbn [denote]. destruct W as [_ W]. apply all_list_Forall in W. apply sde_request. intros f. cbn [mp_method].
    apply sound_peek. intros c Hc. cbn [visit_enum mk_visitor v_enum on_enum]. apply soundc_if; intros E.
    + apply soundc_eat. destruct f as [|f]; [apply sound_fuel|]. cbn [mp_run r_enum step_enum enum_prog].
      eapply sound_try; [apply sde_ident|intros e; apply never_ret|]. intros u x Px.
      destruct u as [| | | | | | | | | | | | |[i|]]; cbn [ident_post] in Px; try contradiction; [|destruct Px; discriminate].
      rewrite nth_error_map. destruct (nth_error vs i) as [[[nm k] t]|] eqn:Ei; [|apply sound_never, never_ret].
      cbn [option_map attr_of fst snd]. assert (c = 0x81) as -> by (change (Z.lor FIXMAP 1) with 0x81 in E; lia).
      pose proof (nth_error_In _ _ Ei) as Hi. rewrite Forall_forall in IH, W. specialize (IH _ Hi). specialize (W _ Hi). cbn [attr_of fst snd] in *.
      destruct W as [W K]. specialize (IH W).
      assert (G : forall m P, k <> KUnit -> sound m P -> (forall a y, P a y -> exists v, a = UVar i v /\ adm fo t v y) ->
        sound m (fun b y => adm fo (TEnum vs) b (0x81 :: x ++ y))).
      { intros m P Hk Hm HP. eapply sound_weaken; [exact Hm|]. intros a y Pa. destruct (HP a y Pa) as (w & -> & Hw).
        cbn [adm]. rewrite nth_error_map, Ei. cbn [option_map attr_of fst snd]. destruct k; [congruence|..]; eauto 6. }
      destruct k.
      * cbn. apply sound_never, never_ret.
      * cbn [run_variant]. eapply (G _ (fun a y => exists v, a = UVar i v /\ adm fo t v y)); [discriminate| |auto].
        eapply sound_post; [apply IH|discriminate|]. intros a b y Pa [= <-]. eauto.
      * destruct t; try contradiction. cbn [denote request run_variant] in *.
        eapply (G _ (fun a y => exists v, a = UVar i v /\ adm fo (TTuple l) v y)); [discriminate| |auto].
        eapply sound_post; [exact (sde_method _ _ _ IH f)|discriminate|]. intros a b y Pa [= <-]. eauto.
      * destruct t; try contradiction. cbn [denote request run_variant] in *.
        eapply (G _ (fun a y => exists v, a = UVar i v /\ adm fo (TStruct fs) v y)); [discriminate| |auto].
        eapply sound_post; [exact (sde_method _ _ _ IH f)|discriminate|]. intros a b y Pa [= <-]. eauto.
    + eapply soundc_of with (P := adm fo (TEnum vs)); [|auto].
      destruct f as [|f]; [apply sound_fuel|]. cbn [mp_run r_enum step_enum enum_prog].
      eapply sound_try; [apply sde_ident|intros e; apply never_ret|]. intros u x Px.
      destruct u as [| | | | | | | | | | | | |[i|]]; cbn [ident_post] in Px; try contradiction; [|destruct Px; discriminate].
      rewrite nth_error_map. destruct (nth_error vs i) as [[[nm k] t]|] eqn:Ei; [|apply sound_never, never_ret].
      cbn [option_map attr_of fst snd]. destruct k.
      * cbn. apply sound_lift. intros a [= <-]. cbn [adm]. rewrite nth_error_map, Ei. cbn. rewrite app_nil_r. auto.
      * cbn. apply sound_never. intros s s' a D. discriminate D.
      * destruct (denote DeserializeError t) as [| |m v post] eqn:Ed; cbn; apply sound_never; intros s s' a D; try discriminate D.
        destruct (denote_req t) as (m' & v' & Et). rewrite Ed in Et. injection Et as _ _ ->. discriminate D.
      * destruct (denote DeserializeError t) as [| |m v post] eqn:Ed; cbn; apply sound_never; intros s s' a D; try discriminate D.
        destruct (denote_req t) as (m' & v' & Et). rewrite Ed in Et. injection Et as _ _ ->. discriminate D.
Qed.

End Sound.

Section SoundTop.
Context (ar : arch) (fo : float_ops).
Local Notation run := (@mp_run ar fo val).

Lemma typed_sound (A64 : arch64 ar) fuel t input s v n : wf t -> slice64 input ->
  mp_from_slice ar fo fuel (denote DeserializeError t) input = Done s (Ok (v, n)) ->
  exists bs tail, input = bs ++ tail /\ zlen bs = n /\ adm fo t v bs.
Proof.
  intros W Hs E. unfold mp_from_slice, dbind in E.
  assert (Hr : ready ar (de_from_slice input)).
  { apply ready64; auto. cbn. pose proof (zlen_nonneg input). lia. }
  destruct (r_de (run fuel) (denote DeserializeError t) (de_from_slice input)) as [s1 [a|e]| |] eqn:E1; try discriminate.
  assert (Hb : all_bytes (rest (de_from_slice input))) by apply Hs.
  destruct (denote_sound ar fo (arch64_wide ar A64) t W fuel _ _ _ Hr Hb E1) as (bs & A1 & P1).
  pose proof (ate_ready _ _ _ _ A1) as R1. unfold de_end in E. pose proof (rest_length _ _ R1) as L1.
  destruct (d_index s1 <=? zlen (sl_data (d_input s1))) eqn:E2; [|discriminate].
  destruct A1 as [_ A1]. change (rest (de_from_slice input)) with input in A1.
  assert (L : zlen input = zlen bs + zlen (rest s1)) by (rewrite A1 at 1; apply zlen_app).
  match type of E with (if ?b then _ else _) _ = _ => destruct b end; [|discriminate].
  injection E as _ <- <-. exists bs, (rest s1). split; auto. split; auto. lia.
Qed.

Lemma typed_exact (A64 : arch64 ar) t input v n : wf t -> slice64 input ->
  ((exists fuel s, mp_from_slice ar fo fuel (denote DeserializeError t) input = Done s (Ok (v, n))) <->
   (exists bs tail, input = bs ++ tail /\ zlen bs = n /\ adm fo t v bs)).
Proof.
  intros W Hs. split.
  - intros (fuel & s & E). eapply typed_sound; eauto.
  - intros (bs & tail & -> & <- & Ha). destruct (typed_accepts ar fo (arch64_up ar A64) t v bs tail W Ha (slice64_of ar _ A64 Hs)) as [N HN].
    exists N. apply HN. lia.
Qed.
End SoundTop.

Lemma adm_unambiguous fo t v v' bs tail : wf t -> slice64 (bs ++ tail) ->
  adm fo t v bs -> adm fo t v' (bs ++ tail) -> v = v' /\ tail = [].
Proof.
  intros W Hs H H'. set (ar := {| usize_max := 2 ^ 64 - 1; overflow_checks := true |}). assert (A64 : arch64 ar) by reflexivity.
  destruct (typed_accepts ar fo (arch64_up ar A64) t v bs tail W H (slice64_of ar _ A64 Hs)) as [N HN].
  destruct (typed_accepts ar fo (arch64_up ar A64) t v' (bs ++ tail) [] W H') as [N' HN']; [rewrite app_nil_r; apply (slice64_of ar _ A64 Hs)|].
  destruct (HN (N + N')%nat) as [s E]; [lia|]. destruct (HN' (N + N')%nat) as [s' E']; [lia|].
  rewrite app_nil_r in E'. rewrite E in E'. injection E' as _ -> L. split; auto. apply len0. rewrite zlen_app in L. lia.
Qed.

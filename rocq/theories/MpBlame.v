(** Every error of a typed decode is explained by a fault in the input (C57). *)
From Verif Require Import Prelude PreludeFacts Utf8 Utf8Spec Utf8Facts SerdeSer SerdeDe MpMagick MpSpec MpDe MpDeView MpDeReads MpDeEat
  MpDeTop MpSerSim FloatOps Types TypesFacts MpTypeSpec MpTyped MpTypedTop MpSound MpFaultSpec.
Ltac Zify.zify_post_hook ::= Z.div_mod_to_equations.

Section Blame.
Context (ar : arch) (fo : float_ops).
Local Notation M := (DM mpde mp_de_error).
Local Notation run := (@mp_run ar fo val).
Local Notation deser := (deser val mp_de_error).
Local Notation visitor := (visitor val mp_de_error).
Local Notation ate := (ate ar).
Local Notation sound := (sound ar).
Local Notation sde := (sde ar fo).

(** [m] only fails with [e] when the input ends too early or begins with bytes [bs]
    with [F e bs]. *)
Definition blame {A} (m : M A) (F : mp_de_error -> bytes -> Prop) : Prop := forall s s' e,
  ready ar s -> all_bytes (rest s) -> m s = Done s' (Err e) -> e = UnexpectedEof \/ exists bs t, rest s = bs ++ t /\ F e bs.
Definition blamec {A} (c : Z) (m : M A) (F : mp_de_error -> bytes -> Prop) : Prop := forall s s' e,
  ready ar s -> all_bytes (rest s) -> (exists l, rest s = c :: l) -> m s = Done s' (Err e) -> e = UnexpectedEof \/ exists bs t, rest s = bs ++ t /\ F e bs.
Definition none (e : mp_de_error) (bs : bytes) : Prop := False.

Lemma blame_weaken {A} (m : M A) (F G : mp_de_error -> bytes -> Prop) : blame m F -> (forall e b, F e b -> G e b) -> blame m G.
Proof. intros H HG s s' e Hs Hb E. destruct (H s s' e Hs Hb E) as [?|(bs & t & H1 & H2)]; eauto 6. Qed.
Lemma blame_none {A} (m : M A) F : blame m none -> blame m F.
Proof. intros H. eapply blame_weaken; [exact H|]. intros e b []. Qed.
Lemma blame_ext {A} (m m' : M A) F : (forall s, m s = m' s) -> blame m' F -> blame m F.
Proof. intros E H s s' e Hs Hb D. rewrite E in D. eauto. Qed.
Lemma blame_ret {A} (a : A) F : blame (dret a) F.
Proof. intros s s' e _ _ E. discriminate. Qed.
Lemma blame_lift {A} (r : result A mp_de_error) (F : mp_de_error -> bytes -> Prop) : (forall e, r = Err e -> F e []) -> blame (dlift r) F.
Proof. intros H s s' e _ _ [= <- ->]. right. exists [], (rest s). auto. Qed.
Lemma blame_fail {A} e (F : mp_de_error -> bytes -> Prop) : F e [] -> blame (@dfail _ _ A e) F.
Proof. intros H s s' e' _ _ [= <- <-]. right. exists [], (rest s). auto. Qed.
Lemma blame_bind {A B} (m : M A) (k : A -> M B) P F :
  sound m P -> blame m F -> (forall a x, P a x -> all_bytes x -> blame (k a) (fun e y => F e (x ++ y))) -> blame (dbind m k) F.
Proof.
  intros Hm Hf Hk s s' e Hs Hb E. unfold dbind in E. destruct (m s) as [s1 [a|e1]| |] eqn:E1; try discriminate.
  2:{ injection E as <- <-. eapply Hf; eauto. }
  destruct (Hm _ _ _ Hs Hb E1) as (x & A1 & Px). destruct (ate_bytes _ _ _ _ A1 Hb) as [Bx B1].
  destruct (Hk a x Px Bx s1 s' e (ate_ready _ _ _ _ A1) B1 E) as [?|(y & t & Hy & Fy)]; auto.
  right. exists (x ++ y), t. split; auto. destruct A1 as [_ ->]. rewrite Hy, app_assoc. auto.
Qed.
Lemma blame_try {A B} (m : M A) (k : result A mp_de_error -> M B) P F :
  sound m P -> blame m F -> (forall e s s' e', k (Err e) s = Done s' (Err e') -> e' = e) ->
  (forall a x, P a x -> blame (k (Ok a)) (fun e y => F e (x ++ y))) -> blame (dtry m k) F.
Proof.
  intros Hm Hf He Hk s s' e Hs Hb E. unfold dtry in E. destruct (m s) as [s1 [a|e1]| |] eqn:E1; try discriminate.
  2:{ apply He in E. subst. eapply Hf; eauto. }
  destruct (Hm _ _ _ Hs Hb E1) as (x & A1 & Px). destruct (ate_bytes _ _ _ _ A1 Hb) as [Bx B1].
  destruct (Hk a x Px s1 s' e (ate_ready _ _ _ _ A1) B1 E) as [?|(y & t & Hy & Fy)]; auto.
  right. exists (x ++ y), t. split; auto. destruct A1 as [_ ->]. rewrite Hy, app_assoc. auto.
Qed.
Lemma blame_post {A B} (m : M A) (g : result A mp_de_error -> result B mp_de_error) F :
  blame m F -> (forall e, g (Err e) = Err e) -> (forall a e, g (Ok a) <> Err e) -> blame (dpost g m) F.
Proof.
  intros Hf He Ho s s' e Hs Hb E. unfold dpost, dtry in E. destruct (m s) as [s1 [a|e1]| |] eqn:E1; try discriminate.
  - injection E as _ E. destruct (Ho _ _ E).
  - rewrite He in E. injection E as <- <-. eapply Hf; eauto.
Qed.
Lemma blame_if {A} (b : bool) (m m' : M A) F : (b = true -> blame m F) -> (b = false -> blame m' F) -> blame (if b then m else m') F.
Proof. destruct b; auto. Qed.
Lemma blame_fuel {A} F : blame (fun _ => OutOfFuel : outcome mpde A mp_de_error) F.
Proof. intros s s' e _ _ E. discriminate. Qed.
Lemma blame_peek {A} (k : Z -> M A) F : (forall c, is_byte c -> blamec c (k c) F) -> blame (dbind peek k) F.
Proof.
  intros Hk s s' e Hs Hb E. unfold dbind in E. rewrite peek_run in E by apply Hs.
  destruct (rest s) as [|c l] eqn:Er; [injection E as _ <-; auto|].
  assert (Hc : is_byte c) by (inversion Hb; auto). rewrite <- Er in *.
  exact (Hk c Hc s s' e Hs Hb (ex_intro _ l Er) E).
Qed.
Lemma blamec_of {A} c (m : M A) (F G : mp_de_error -> bytes -> Prop) : blame m F ->
  (forall e bs, F e bs -> bs = [] \/ (exists l, bs = c :: l) -> G e bs) -> blamec c m G.
Proof.
  intros H HG s s' e Hs Hb (l & Hl) E. destruct (H s s' e Hs Hb E) as [?|(bs & t & H1 & H2)]; auto. right. exists bs, t. split; auto.
  apply HG; auto. rewrite Hl in H1. destruct bs as [|b bs]; auto. right. exists bs. cbn in H1. congruence.
Qed.
Lemma blamec_if {A} c (b : bool) (m m' : M A) F : (b = true -> blamec c m F) -> (b = false -> blamec c m' F) -> blamec c (if b then m else m') F.
Proof. destruct b; auto. Qed.
Lemma blamec_fail {A} c e (F : mp_de_error -> bytes -> Prop) : F e [c] -> blamec c (@dfail _ _ A e) F.
Proof. intros H s s' e' _ _ (l & Hl) [= <- <-]. right. exists [c], l. auto. Qed.
Lemma blamec_eat {A} c (m : M A) (F : mp_de_error -> bytes -> Prop) : blame m (fun e y => F e (c :: y)) -> blamec c (dbind (eat_some ar 1) (fun _ => m)) F.
Proof.
  intros H s s' e Hs Hb (l & Hl) E. unfold dbind in E. rewrite eat_some_run in E by (auto; lia).
  assert (Hle : 0 <= 1 <= zlen (rest s)) by (rewrite Hl, zlen_cons; pose proof (zlen_nonneg l); lia).
  pose proof (adv_index ar s 1 Hs Hle) as A1. 
  assert (A2 : ate s {| d_input := d_input s; d_index := d_index s + 1; d_log := d_log s |} [c]).
  { split; [exact A1|]. rewrite (adv_rest ar _ _ _ [c] l A1 Hl eq_refl). auto. }
  destruct (ate_bytes _ _ _ _ A2 Hb) as [_ B1].
  destruct (H _ _ _ (ate_ready _ _ _ _ A2) B1 E) as [?|(y & t & Hy & Fy)]; auto.
  right. exists (c :: y), t. split; auto. destruct A2 as [_ ->]. rewrite Hy. auto.
Qed.

(** ** Primitives *)
Lemma blame_byte {A} (k : Z -> M A) (F : mp_de_error -> bytes -> Prop) :
  (forall c, is_byte c -> blame (k c) (fun e y => F e (c :: y))) -> blame (dbind (fetch ar) k) F.
Proof.
  intros H. eapply blame_bind; [apply sound_fetch| |].
  - intros s s' e Hs Hb E. pose proof (fetch_run ar s Hs) as G. destruct (rest s) as [|c l] eqn:Er.
    + rewrite G in E. injection E as _ <-. auto.
    + destruct G as (s1 & G & _). congruence.
  - intros a x [-> Ha] _. apply H; auto.
Qed.
Lemma blame_unsigned n F : 0 <= n <= 8 -> blame (fetch_unsigned ar n) F.
Proof.
  intros Hn s s' e Hs Hb E. destruct (fetch_unsigned_run ar n s Hs Hb Hn) as [(s1 & x & h & G & _)|[G _]]; rewrite G in E; [discriminate|].
  injection E as _ <-. auto.
Qed.
Lemma blame_signed n F : 0 <= n <= 8 -> blame (fetch_signed ar n) F.
Proof.
  intros Hn s s' e Hs Hb E. pose proof (blame_unsigned n F Hn s s' e Hs Hb) as H. apply H.
  unfold fetch_signed, fetch_unsigned, dbind in *. destruct (fetch_array ar n s) as [s2 [b|e2]| |]; auto; discriminate.
Qed.
Lemma blame_usize x F : x < 2 ^ 32 -> blame (try_usize ar x) F.
Proof. intros Hx s s' e Hs Hb E. rewrite try_usize_run in E by auto. discriminate. Qed.
Lemma blame_u32 {A} (k : Z -> M A) F : (forall n x, uint_be 4 n x -> blame (k n) (fun e y => F e (x ++ y))) ->
  blame (dbind (fetch_u32 ar) (fun n => dbind (try_usize ar n) k)) F.
Proof.
  intros H. eapply blame_bind; [apply sound_unsigned; lia|apply blame_unsigned; lia|]. intros n x U _.
  eapply blame_bind; [apply (sound_usize ar n (fun m y => m = n /\ y = [])); auto|apply blame_usize; eapply uint_be_lt; [exact U|lia]|].
  intros m y [-> ->] _. eapply blame_weaken; [apply H; eauto|]. auto.
Qed.
Lemma blame_u32' F : blame (dbind (fetch_u32 ar) (fun n => try_usize ar n)) F.
Proof.
  eapply blame_bind; [apply sound_unsigned; lia|apply blame_unsigned; lia|]. intros n x U _. apply blame_usize. eapply uint_be_lt; [exact U|lia].
Qed.
Lemma blame_split n F : 0 <= n -> blame (split_input n) F.
Proof.
  intros Hn s s' e Hs Hb E. destruct (split_input_run ar n s Hs Hn) as [H1 H2].
  destruct (Z_le_gt_dec n (zlen (rest s))) as [Hl|Hl].
  - destruct (H1 Hl) as (s1 & G & _). rewrite G in E. discriminate.
  - rewrite H2 in E by lia. injection E as _ <-. auto.
Qed.
Ltac code n := match goal with E : (?c =? ?k) = true |- _ => assert (c = n) as -> by lia; clear E end.
Ltac fam := unfold family_of; repeat match goal with |- context [if ?b then _ else _] => destruct b eqn:? end; try discriminate; try reflexivity; exfalso; lia.

Lemma blame_str (F : mp_de_error -> bytes -> Prop) : (forall c, is_byte c -> family_of c <> FStr -> F ExpectedString [c]) ->
  (forall s bs, all_bytes s -> ~ valid_utf8 s -> str_enc s bs -> F InvalidUnicodeCodePoint bs) -> blame (parse_str ar) F.
Proof.
  intros H1 H2. apply blame_byte. intros c Hc. pose proof (H1 c Hc) as H1c. unfold is_byte in Hc.
  apply blame_bind with (P := fun n y => str_hdr n (c :: y)).
  - consts. apply sound_if; intros E.
    { apply sound_ret. rewrite land_31' with (lo := 0xa0) by lia. replace c with (0xa0 + (c - 0xa0)) at 2 by lia. apply SH_fix. lia. }
    apply sound_if; intros E1. { code 0xd9. eapply sound_weaken; [apply sound_unsigned; lia|]. intros; apply SH_8; auto. }
    apply sound_if; intros E2. { code 0xda. eapply sound_weaken; [apply sound_unsigned; lia|]. intros; apply SH_16; auto. }
    apply sound_if; intros E3. { code 0xdb. eapply sound_weaken; [apply sound_u32|]. intros; apply SH_32; auto. }
    apply sound_fail.
  - consts. apply blame_if; intros E; [apply blame_ret|].
    apply blame_if; intros E1; [apply blame_unsigned; lia|].
    apply blame_if; intros E2; [apply blame_unsigned; lia|].
    apply blame_if; intros E3; [apply blame_u32'|]. apply blame_fail, H1c. fam.
  - intros n y Hh _. assert (Hn : 0 <= n) by (inversion Hh; subst; try lia; match goal with H : uint_be _ _ _ |- _ => apply uint_be_range in H; lia end).
    eapply blame_bind; [apply sound_split; auto|apply blame_split; auto|]. intros x z [G1 G2] Hz. apply blame_if; intros E; [apply blame_ret|].
    apply blame_fail. rewrite app_nil_r. apply (H2 z); auto.
    + intros V. apply from_utf8_ok_spec in V. congruence.
    + exists (c :: y). subst n. auto.
Qed.
Lemma blame_bin (F : mp_de_error -> bytes -> Prop) : (forall c, is_byte c -> family_of c <> FBin -> F ExpectedBin [c]) -> blame (parse_bytes ar) F.
Proof.
  intros H1. apply blame_byte. intros c Hc. pose proof (H1 c Hc) as H1c. unfold is_byte in Hc.
  apply blame_bind with (P := fun n y => 0 <= n).
  - consts.
    apply sound_if; intros E1. { eapply sound_weaken; [apply sound_unsigned; lia|]. intros a b U; apply uint_be_range in U; lia. }
    apply sound_if; intros E2. { eapply sound_weaken; [apply sound_unsigned; lia|]. intros a b U; apply uint_be_range in U; lia. }
    apply sound_if; intros E3. { eapply sound_weaken; [apply sound_u32|]. intros a b U; apply uint_be_range in U; lia. }
    apply sound_fail.
  - consts. apply blame_if; intros E1; [apply blame_unsigned; lia|].
    apply blame_if; intros E2; [apply blame_unsigned; lia|].
    apply blame_if; intros E3; [apply blame_u32'|]. apply blame_fail, H1c. fam.
  - intros n y Hn _. apply blame_split; auto.
Qed.

Lemma blame_try_int k z (F : mp_de_error -> bytes -> Prop) : (~ in_ikind k z -> F InvalidInteger []) -> blame (try_int k z) F.
Proof.
  intros H. unfold try_int. destruct (try_from k z) as [v|] eqn:E; [apply blame_ret|]. apply blame_fail, H. intros K.
  unfold try_from in E. apply in_ikindb_spec in K. rewrite K in E. discriminate.
Qed.
Lemma blame_num {A} c (m : Z -> M A) (F : mp_de_error -> bytes -> Prop) : is_byte c ->
  (forall z y, int_fmt z (c :: y) -> blame (m z) (fun e x => F e (y ++ x))) ->
  forall last, (family_of c <> FInt -> blame last F) ->
  blame (if is_fixint c then m (to_signed 8 c)
  else if c =? UINT_8 then (n <-- fetch_u8 ar ;; m n)
  else if c =? UINT_16 then (n <-- fetch_u16 ar ;; m n)
  else if c =? UINT_32 then (n <-- fetch_u32 ar ;; m n)
  else if c =? UINT_64 then (n <-- fetch_u64 ar ;; m n)
  else if c =? INT_8 then (n <-- fetch_i8 ar ;; m n)
  else if c =? INT_16 then (n <-- fetch_i16 ar ;; m n)
  else if c =? INT_32 then (n <-- fetch_i32 ar ;; m n)
  else if c =? INT_64 then (n <-- fetch_i64 ar ;; m n)
  else last) F.
Proof.
  intros Hc Hm last Hl. unfold is_byte in Hc. consts. apply blame_if; intros E.
  { apply (blame_weaken _ (fun e x => F e ([] ++ x))); auto. apply Hm. unfold to_signed. destruct (c <? 2 ^ (8 - 1)) eqn:E1.
    - apply IF_pos. lia.
    - replace c with (256 + (c - 2 ^ 8)) at 2 by lia. apply IF_neg. lia. }
  apply blame_if; intros E1. { code 0xcc. eapply blame_bind; [apply sound_unsigned; lia|apply blame_unsigned; lia|]. intros a x U _. apply Hm. apply IF_u8; auto. }
  apply blame_if; intros E2. { code 0xcd. eapply blame_bind; [apply sound_unsigned; lia|apply blame_unsigned; lia|]. intros a x U _. apply Hm. apply IF_u16; auto. }
  apply blame_if; intros E3. { code 0xce. eapply blame_bind; [apply sound_unsigned; lia|apply blame_unsigned; lia|]. intros a x U _. apply Hm. apply IF_u32; auto. }
  apply blame_if; intros E4. { code 0xcf. eapply blame_bind; [apply sound_unsigned; lia|apply blame_unsigned; lia|]. intros a x U _. apply Hm. apply IF_u64; auto. }
  apply blame_if; intros E5. { code 0xd0. eapply blame_bind; [apply sound_signed; lia|apply blame_signed; lia|]. intros a x U _. apply Hm. apply IF_i8; auto. }
  apply blame_if; intros E6. { code 0xd1. eapply blame_bind; [apply sound_signed; lia|apply blame_signed; lia|]. intros a x U _. apply Hm. apply IF_i16; auto. }
  apply blame_if; intros E7. { code 0xd2. eapply blame_bind; [apply sound_signed; lia|apply blame_signed; lia|]. intros a x U _. apply Hm. apply IF_i32; auto. }
  apply blame_if; intros E8. { code 0xd3. eapply blame_bind; [apply sound_signed; lia|apply blame_signed; lia|]. intros a x U _. apply Hm. apply IF_i64; auto. }
  apply Hl. fam.
Qed.
Lemma blame_integer k (F : mp_de_error -> bytes -> Prop) : (forall c, is_byte c -> family_of c <> FInt -> F ExpectedInteger [c]) ->
  (forall z bs, int_fmt z bs -> ~ in_ikind k z -> F InvalidInteger bs) -> blame (parse_integer ar k) F.
Proof.
  intros H1 H2. apply blame_byte. intros c Hc. apply (blame_num c (try_int k)); auto; [|intros; apply blame_fail; auto].
  intros z y G. apply blame_try_int. intros. rewrite app_nil_r. eauto.
Qed.
Lemma blame_fetch_num c conv (F : mp_de_error -> bytes -> Prop) : is_byte c -> (family_of c <> FInt -> F ExpectedNumber []) -> blame (fetch_num ar c conv) F.
Proof. intros Hc H. apply (blame_num c (fun z => dret (conv z))); auto; intros; [apply blame_ret|apply blame_fail; auto]. Qed.

(** Container headers. *)
Ltac hdr := eapply sound_weaken; [first [apply sound_u32|apply sound_unsigned; lia]|]; intros.
Lemma blame_seq {U} (R : @runner U) v (P : Z -> U * Z -> bytes -> Prop) (G : Z -> mp_de_error -> bytes -> Prop) (F : mp_de_error -> bytes -> Prop) :
  (forall n, 0 <= n -> sound (r_seq R (visit_seq v) n) (P n)) ->
  (forall n, 0 <= n -> blame (r_seq R (visit_seq v) n) (G n)) ->
  (forall c, is_byte c -> family_of c <> FArr -> F ExpectedArray [c]) ->
  (forall n h b e, arr_hdr n h -> G n e b -> F e (h ++ b)) ->
  (forall n u m h b, arr_hdr n h -> m <> 0 -> P n (u, m) b -> F TrailingElements (h ++ b)) -> blame (deserialize_seq ar R v) F.
Proof.
  intros HP HG H1 H2 H3. apply blame_byte. intros c Hc. pose proof (H1 c Hc) as H1c. unfold is_byte in Hc.
  apply blame_bind with (P := fun n y => arr_hdr n (c :: y)).
  - consts. apply sound_if; intros E.
    { apply sound_ret. rewrite land_15' with (lo := 0x90) by lia. replace c with (0x90 + (c - 0x90)) at 2 by lia. apply AH_fix. lia. }
    apply sound_if; intros E2. { code 0xdc. hdr. apply AH_16; auto. }
    apply sound_if; intros E3. { code 0xdd. hdr. apply AH_32; auto. }
    apply sound_fail.
  - consts. apply blame_if; intros E; [apply blame_ret|].
    apply blame_if; intros E2; [apply blame_unsigned; lia|].
    apply blame_if; intros E3; [apply blame_u32'|]. apply blame_fail, H1c. fam.
  - intros n y Hh _. assert (Hn : 0 <= n) by (inversion Hh; subst; try lia; match goal with H : uint_be _ _ _ |- _ => apply uint_be_range in H; lia end).
    eapply blame_bind; [apply HP; auto|eapply blame_weaken; [apply HG; auto|]; intros e b Gb; apply (H2 n (c :: y) b e); auto|].
    intros [u m] b Pb _. unfold check_count. cbn [fst snd].
    apply blame_if; intros E; [apply blame_ret|]. apply blame_fail. rewrite app_nil_r.
    apply (H3 n u m (c :: y) b); auto. lia.
Qed.
Lemma blame_map {U} (R : @runner U) v (P : Z -> U * Z -> bytes -> Prop) (G : Z -> mp_de_error -> bytes -> Prop) (F : mp_de_error -> bytes -> Prop) :
  (forall n, 0 <= n -> sound (r_map R (visit_map v) n) (P n)) ->
  (forall n, 0 <= n -> blame (r_map R (visit_map v) n) (G n)) ->
  (forall c, is_byte c -> family_of c <> FMap -> F ExpectedMap [c]) ->
  (forall n h b e, map_hdr n h -> G n e b -> F e (h ++ b)) ->
  (forall n u m h b, map_hdr n h -> m <> 0 -> P n (u, m) b -> F TrailingElements (h ++ b)) -> blame (deserialize_map ar R v) F.
Proof.
  intros HP HG H1 H2 H3. apply blame_byte. intros c Hc. pose proof (H1 c Hc) as H1c. unfold is_byte in Hc.
  apply blame_bind with (P := fun n y => map_hdr n (c :: y)).
  - consts. apply sound_if; intros E.
    { apply sound_ret. rewrite land_15' with (lo := 0x80) by lia. replace c with (0x80 + (c - 0x80)) at 2 by lia. apply MH_fix. lia. }
    apply sound_if; intros E2. { code 0xde. hdr. apply MH_16; auto. }
    apply sound_if; intros E3. { code 0xdf. hdr. apply MH_32; auto. }
    apply sound_fail.
  - consts. apply blame_if; intros E; [apply blame_ret|].
    apply blame_if; intros E2; [apply blame_unsigned; lia|].
    apply blame_if; intros E3; [apply blame_u32'|]. apply blame_fail, H1c. fam.
  - intros n y Hh _. assert (Hn : 0 <= n) by (inversion Hh; subst; try lia; match goal with H : uint_be _ _ _ |- _ => apply uint_be_range in H; lia end).
    eapply blame_bind; [apply HP; auto|eapply blame_weaken; [apply HG; auto|]; intros e b Gb; apply (H2 n (c :: y) b e); auto|].
    intros [u m] b Pb _. unfold check_count. cbn [fst snd].
    apply blame_if; intros E; [apply blame_ret|]. apply blame_fail. rewrite app_nil_r.
    apply (H3 n u m (c :: y) b); auto. lia.
Qed.
Lemma blame_struct {U} (R : @runner U) v (P P' : Z -> U * Z -> bytes -> Prop) (G G' : Z -> mp_de_error -> bytes -> Prop) (F : mp_de_error -> bytes -> Prop) :
  (forall n, 0 <= n -> sound (r_map R (visit_map v) n) (P n)) ->
  (forall n, 0 <= n -> sound (r_seq R (visit_seq v) n) (P' n)) ->
  (forall n, 0 <= n -> blame (r_map R (visit_map v) n) (G n)) ->
  (forall n, 0 <= n -> blame (r_seq R (visit_seq v) n) (G' n)) ->
  (forall c, is_byte c -> family_of c <> FMap -> family_of c <> FArr -> F ExpectedStruct [c]) ->
  (forall n h b e, map_hdr n h -> G n e b -> F e (h ++ b)) ->
  (forall n h b e, arr_hdr n h -> G' n e b -> F e (h ++ b)) ->
  (forall n u m h b, map_hdr n h -> m <> 0 -> P n (u, m) b -> F TrailingElements (h ++ b)) ->
  (forall n u m h b, arr_hdr n h -> m <> 0 -> P' n (u, m) b -> F TrailingElements (h ++ b)) -> blame (deserialize_struct ar R v) F.
Proof.
  intros HP HP' HG HG' H1 H2 H2' H3 H3'. apply blame_byte. intros c Hc. pose proof (H1 c Hc) as H1c. unfold is_byte in Hc.
  apply blame_bind with (P := fun (n : bool * Z) y => if fst n then map_hdr (snd n) (c :: y) else arr_hdr (snd n) (c :: y)).
  - consts. apply sound_if; intros E.
    { apply sound_ret. cbn [fst snd]. rewrite land_15' with (lo := 0x80) by lia. replace c with (0x80 + (c - 0x80)) at 2 by lia. apply MH_fix. lia. }
    apply sound_if; intros E2. { code 0xde. eapply sound_weaken; [apply sound_u16_as|]. intros ? ? (n & -> & ?). apply MH_16; auto. }
    apply sound_if; intros E3. { code 0xdf. eapply sound_weaken; [apply sound_u32_as|]. intros ? ? (n & -> & ?). apply MH_32; auto. }
    apply sound_if; intros E0.
    { apply sound_ret. cbn [fst snd]. rewrite land_15' with (lo := 0x90) by lia. replace c with (0x90 + (c - 0x90)) at 2 by lia. apply AH_fix. lia. }
    apply sound_if; intros E4. { code 0xdc. eapply sound_weaken; [apply sound_u16_as|]. intros ? ? (n & -> & ?). apply AH_16; auto. }
    apply sound_if; intros E5. { code 0xdd. eapply sound_weaken; [apply sound_u32_as|]. intros ? ? (n & -> & ?). apply AH_32; auto. }
    apply sound_fail.
  - consts.
    assert (U16 : forall b, blame (n <-- fetch_u16 ar ;; dret (b : bool, n)) (fun e y => F e (c :: y)))
      by (intros b; eapply blame_bind; [apply sound_unsigned; lia|apply blame_unsigned; lia|intros; apply blame_ret]).
    assert (U32 : forall b, blame (n <-- fetch_u32 ar ;; n <-- try_usize ar n ;; dret (b : bool, n)) (fun e y => F e (c :: y)))
      by (intros b; apply blame_u32; intros; apply blame_ret).
    apply blame_if; intros E; [apply blame_ret|].
    apply blame_if; intros E2; [apply U16|].
    apply blame_if; intros E3; [apply U32|].
    apply blame_if; intros E0; [apply blame_ret|].
    apply blame_if; intros E4; [apply U16|].
    apply blame_if; intros E5; [apply U32|]. apply blame_fail, H1c; fam.
  - intros [mp n] y Hh _. cbn [fst snd] in *. destruct mp.
    + assert (Hn : 0 <= n) by (inversion Hh; subst; try lia; match goal with H : uint_be _ _ _ |- _ => apply uint_be_range in H; lia end).
      eapply blame_bind; [apply HP; auto|eapply blame_weaken; [apply HG; auto|]; intros e b Gb; apply (H2 n (c :: y) b e); auto|].
      intros [u m] b Pb _. unfold check_count. cbn [fst snd].
      apply blame_if; intros E; [apply blame_ret|]. apply blame_fail. rewrite app_nil_r.
      apply (H3 n u m (c :: y) b); auto. lia.
    + assert (Hn : 0 <= n) by (inversion Hh; subst; try lia; match goal with H : uint_be _ _ _ |- _ => apply uint_be_range in H; lia end).
      eapply blame_bind; [apply HP'; auto|eapply blame_weaken; [apply HG'; auto|]; intros e b Gb; apply (H2' n (c :: y) b e); auto|].
      intros [u m] b Pb _. unfold check_count. cbn [fst snd].
      apply blame_if; intros E; [apply blame_ret|]. apply blame_fail. rewrite app_nil_r.
      apply (H3' n u m (c :: y) b); auto. lia.
Qed.

(** ** Programs *)
Definition bde (p : deser) F : Prop := forall f, blame (r_de (run f) p) F.
Definition bme m (v : visitor) F : Prop := forall f, blame (mp_method ar fo (run f) m v) F.

Lemma bde_req m v F : bme m v F -> bde (DReq m v (fun r => r)) F.
Proof. intros H [|f]; [apply blame_fuel|]. cbn. apply blame_post; [apply H|auto|discriminate]. Qed.
Lemma bde_request m v F : bme m (mk_visitor v) F -> bde (request m v) F.
Proof. intros H [|f]; [apply blame_fuel|]. cbn. apply blame_post; [apply H|auto|discriminate]. Qed.
Lemma bde_method m v F : bde (request m v) F -> bme m (mk_visitor v) F.
Proof. intros H f s s' a Hs Hb E. apply (H (S f) s s' a Hs Hb). cbn. unfold dpost, dtry. rewrite E. reflexivity. Qed.
Lemma bde_then m v g F : bde (request m v) F -> (forall e, g (Err e) = Err e) -> (forall a e, g (Ok a) <> Err e) ->
  bde (then_ (request m v) g) F.
Proof. intros H He Hk [|f]; [apply blame_fuel|]. cbn. apply blame_post; [apply (bde_method _ _ _ H f)|exact He|exact Hk]. Qed.

Lemma err_seq f e n s s' e' : r_seq (run f) (SRet (Err e)) n s = Done s' (Err e') -> e' = e.
Proof. destruct f; intros E; inversion E; auto. Qed.
Lemma err_map f e n s s' e' : r_map (run f) (MRet (Err e)) n s = Done s' (Err e') -> e' = e.
Proof. destruct f; intros E; inversion E; auto. Qed.
Lemma err_lift {A} e s s' e' : @dlift mpde mp_de_error A (Err e) s = Done s' (Err e') -> e' = e.
Proof. intros E; inversion E; auto. Qed.
Lemma blame_seq_err f e n (F : mp_de_error -> bytes -> Prop) : F e [] -> blame (r_seq (run f) (SRet (Err e)) n) F.
Proof. intros H s s' e' _ _ E. apply err_seq in E. subst. right. exists [], (rest s). auto. Qed.
Lemma blame_map_err f e n (F : mp_de_error -> bytes -> Prop) : F e [] -> blame (r_map (run f) (MRet (Err e)) n) F.
Proof. intros H s s' e' _ _ E. apply err_map in E. subst. right. exists [], (rest s). auto. Qed.

Lemma bsq_loop seed p (q : mp_de_error -> bytes -> Prop) : sde seed p -> bde seed q -> forall f acc n, 0 <= n ->
  blame (r_seq (run f) (seq_loop seed acc) n)
    (fun e b => exists l bs b', b = bs ++ b' /\ zlen l < n /\ seq_enc (map p l) bs /\ q e b').
Proof.
  intros Hp Hq. induction f as [|f IH]; intros acc n Hn; [apply blame_fuel|].
  rewrite (sfrob_eq (seq_loop seed acc)). cbn [sfrob seq_loop]. cbn [mp_run r_seq step_seq].
  apply blame_if; intros E.
  - destruct f; [apply blame_fuel|]. apply blame_ret.
  - eapply blame_try; [apply Hp|eapply blame_weaken; [apply Hq|]|intros *; apply err_seq|].
    + intros e b Hb. exists [], [], b. split; auto. split; [change (zlen (@nil val)) with 0; lia|]. cbn. auto.
    + intros v x Px. cbn [res_some]. eapply blame_weaken; [apply IH; lia|]. intros e b (l & bs & b' & -> & Hl & Hs & Hq').
      exists (v :: l), (x ++ bs), b'. rewrite app_assoc. split; auto. split; [rewrite zlen_cons; lia|]. cbn. eauto 8.
Qed.

Lemma bmp_loop kseed vseed p q (r t : mp_de_error -> bytes -> Prop) : sde kseed p -> sde vseed q -> bde kseed r -> bde vseed t -> forall f acc n, 0 <= n ->
  blame (r_map (run f) (map_loop kseed vseed acc) n)
    (fun e b => exists l bs b', b = bs ++ b' /\ zlen l < n /\
       seq_enc (map (fun x b => exists y z, b = y ++ z /\ p (fst x) y /\ q (snd x) z) l) bs /\
       (r e b' \/ exists u a b'', b' = a ++ b'' /\ p u a /\ t e b'')).
Proof.
  intros Hp Hq Hr Ht f. induction f as [f IH] using (well_founded_induction lt_wf); intros acc n Hn.
  destruct f as [|f]; [apply blame_fuel|].
  rewrite (mfrob_eq (map_loop kseed vseed acc)). cbn [mfrob map_loop]. cbn [mp_run r_map step_map].
  apply blame_if; intros E.
  - destruct f; [apply blame_fuel|]. apply blame_ret.
  - assert (Z0 : zlen (@nil (val * val)) < n) by (change (zlen (@nil (val * val))) with 0; lia).
    eapply blame_try; [apply Hp|eapply blame_weaken; [apply Hr|]|intros *; apply err_map|].
    { intros e b Hb. exists [], [], b. split; auto. split; auto. split; [reflexivity|auto]. }
    intros k x Px. cbn [res_some].
    destruct f as [|f]; [apply blame_fuel|]. cbn [mp_run r_map step_map].
    eapply blame_try; [apply Hq|eapply blame_weaken; [apply Ht|]|intros *; apply err_map|].
    { intros e b Hb. exists [], [], (x ++ b). split; auto. split; auto. split; [reflexivity|]. right. eauto 6. }
    intros v y Py. eapply blame_weaken; [apply (IH f); lia|]. intros e b (l & bs & b' & -> & Hl & Hs & Hb').
    exists ((k, v) :: l), ((x ++ y) ++ bs), b'. rewrite <- !app_assoc. split; auto. split; [rewrite zlen_cons; lia|]. split; auto.
    cbn. exists (x ++ y), bs. rewrite app_assoc. split; auto. split; eauto.
Qed.

(** Tuples: an element at fault after good ones, or an element without default missing. *)
Definition tuple_blame (ds : list (deser * option val)) (ps : list (val -> bytes -> Prop)) (qs : list (mp_de_error -> bytes -> Prop)) n e b : Prop :=
  (exists j l bs b' q, b = bs ++ b' /\ Z.of_nat j < n /\ length l = j /\ (j <= length ps)%nat /\
     seq_enc (zip (fun p v => p v) (firstn j ps) l) bs /\ nth_error qs j = Some q /\ q e b') \/
  (e = DeserializeError /\ exists j l i d, Z.of_nat j = n /\ length l = j /\ (j <= i)%nat /\ seq_enc (zip (fun p v => p v) (firstn j ps) l) b /\
     nth_error ds i = Some d /\ snd d = None /\ forall i' d', (j <= i' < i)%nat -> nth_error ds i' = Some d' -> snd d' <> None).

(** What is left over after a tuple. *)
Lemma ssq_rest (ds : list (deser * option val)) : forall (ps : list (val -> bytes -> Prop)),
  Forall2 (fun d p => sde (fst d) p) ds ps -> forall n acc f, 0 <= n ->
  sound (r_seq (run f) (tuple_prog DeserializeError ds acc) n)
    (fun r b => snd r = 0 \/ exists l, length l = length ds /\ snd r = n - zlen ds /\ zlen ds < n /\ seq_enc (zip (fun p v => p v) ps l) b).
Proof.
  induction ds as [|[seed d] ds IH]; intros ps F n acc f Hn; inversion F as [|? p ? ps' Hd Hds]; subst; clear F.
  - cbn [tuple_prog]. destruct f as [|f]; [apply sound_fuel|]. apply sound_ret. cbn [snd]. destruct (Z.eq_dec n 0); auto.
    right. exists []. change (zlen (@nil (deser * option val))) with 0. split; auto. split; [lia|]. split; [lia|]. reflexivity.
  - cbn [tuple_prog]. destruct f as [|f]; [apply sound_fuel|]. cbn [mp_run r_seq step_seq]. apply sound_if; intros E.
    + assert (n = 0) as -> by lia. destruct d as [d|]; [|apply sound_never, never_seq_err].
      eapply sound_weaken; [apply (IH _ Hds 0 (d :: acc) f); lia|]. intros [u m] b [H|(l & _ & _ & H & _)]; auto. pose proof (zlen_nonneg ds). lia.
    + eapply sound_try; [apply Hd|intros e; apply never_seq_err|]. intros v x Px. cbn [res_some].
      eapply sound_weaken; [apply (IH _ Hds (n - 1) (v :: acc) f); lia|]. intros [u m] b [H|(l & Hl & Hm & Hn' & Hb)]; auto.
      right. exists (v :: l). rewrite zlen_cons. cbn [length snd] in *. split; auto. split; [lia|]. split; [lia|]. cbn. eauto.
Qed.
Lemma tuple_blame_cons d ds (p : val -> bytes -> Prop) ps q qs n e b v x : 0 < n -> p v x -> tuple_blame ds ps qs (n - 1) e b -> tuple_blame (d :: ds) (p :: ps) (q :: qs) n e (x ++ b).
Proof.
  intros Hn Pv [(j & l & bs & b' & q' & -> & Hj & Hl & Hp & Hs & Hq & Hb)|(-> & j & l & i & d' & Hj & Hl & Hi & Hs & Hd & Hd' & Hall)].
  - left. exists (S j), (v :: l), (x ++ bs), b', q'. rewrite app_assoc. split; auto. split; [lia|]. split; [cbn; auto|]. split; [cbn; lia|]. split; auto.
    cbn. eauto.
  - right. split; auto. exists (S j), (v :: l), (S i), d'. split; [lia|]. split; [cbn; auto|]. split; [lia|]. split; [cbn; eauto|]. split; auto. split; auto.
    intros [|i'] d2 Hi2 E; [lia|]. apply (Hall i'); auto. lia.
Qed.
Lemma bsq_tuple (ds : list (deser * option val)) : forall (ps : list (val -> bytes -> Prop)) qs,
  Forall2 (fun d p => sde (fst d) p) ds ps -> Forall2 (fun d q => bde (fst d) q) ds qs -> forall n acc f, 0 <= n ->
  blame (r_seq (run f) (tuple_prog DeserializeError ds acc) n) (tuple_blame ds ps qs n).
Proof.
  induction ds as [|[seed d] ds IH]; intros ps qs F G n acc f Hn; inversion F as [|? p ? ps' Hd Hds]; inversion G as [|? q ? qs' Bd Bds]; subst; clear F G.
  - cbn [tuple_prog]. destruct f as [|f]; [apply blame_fuel|]. apply blame_ret.
  - cbn [tuple_prog]. destruct f as [|f]; [apply blame_fuel|]. cbn [mp_run r_seq step_seq]. apply blame_if; intros E.
    + assert (n = 0) as -> by lia. destruct d as [d|].
      * eapply blame_weaken; [apply (IH _ _ Hds Bds 0 (d :: acc) f); lia|].
        intros e b [(j & l & bs & b' & q' & _ & Hj & _)|(-> & j & l & i & d' & Hj & Hl & Hi & Hs & Hd2 & Hd' & Hall)]; [lia|].
        assert (j = 0)%nat as -> by lia. right. split; auto. exists 0%nat, l, (S i), d'. split; auto. split; auto. split; [lia|]. split; auto. split; auto. split; auto.
        intros [|i'] d2 Hi2 E2; [injection E2 as <-; discriminate|]. apply (Hall i'); auto. lia.
      * apply blame_seq_err. right. split; auto. exists 0%nat, [], 0%nat, (seed, None). repeat split; auto. intros i' d' Hi. lia.
    + eapply blame_try; [apply Hd|eapply blame_weaken; [apply Bd|]|intros *; apply err_seq|].
      * intros e b Hb. left. exists 0%nat, [], [], b, q. repeat split; auto; try lia; cbn; lia.
      * intros v x Px. cbn [res_some]. eapply blame_weaken; [apply (IH _ _ Hds Bds (n - 1) (v :: acc) f); lia|].
        intros e b Hb. eapply tuple_blame_cons; eauto. lia.
Qed.

(** Identifiers. *)
Lemma ident_byte c : is_byte c -> between 0 MAX_POSFIXINT c || (c =? UINT_8) || (c =? UINT_16) || (c =? UINT_32) = false ->
  between FIXSTR FIXSTR_MAX c || (c =? STR_8) || (c =? STR_16) || (c =? STR_32) = false -> ident_start c = false.
Proof. intros Hc H1 H2. unfold is_byte in Hc. consts. unfold ident_start, family_of.
  repeat match goal with |- context [if ?b then _ else _] => destruct b eqn:? end; cbv beta iota; try reflexivity; lia. Qed.
Lemma ident_int_of c z bs : between 0 MAX_POSFIXINT c || (c =? UINT_8) || (c =? UINT_16) || (c =? UINT_32) = true ->
  int_fmt z bs -> bs = [] \/ (exists l, bs = c :: l) -> ident_int z bs /\ in_ikind U32 z.
Proof.
  intros H1 H2 H3. pose proof (int_ident _ _ _ H1 H2 H3) as H. split; auto. unfold in_ikind. cbn.
  inversion H; subst; try lia; match goal with H : uint_be _ _ _ |- _ => apply uint_be_range in H end; cbn in *; lia.
Qed.
Lemma bde_ident strict ns (F : mp_de_error -> bytes -> Prop) : (forall e k, key_fault k e -> F e k) ->
  (strict = true -> forall k, unknown_enc ns k -> F DeserializeError k) -> bde (ident DeserializeError strict ns) F.
Proof.
  intros H1 H2. apply bde_request. intros f. cbn [mp_method]. unfold deserialize_identifier. apply blame_peek. intros c Hc.
  apply blamec_if; intros E.
  - eapply blamec_of with (F := fun e bs => (e = ExpectedInteger /\ exists c, bs = [c] /\ is_byte c /\ family_of c <> FInt) \/ (exists z, int_fmt z bs /\
      (~ in_ikind U32 z \/ Err e = visit_int (mk_visitor (v_ident DeserializeError strict ns)) U32 z))).
    + eapply blame_bind; [apply sound_integer|apply blame_integer|].
      * intros c' Hc' Hf. left. eauto.
      * intros z bs Hz Hk. right. eauto.
      * intros z x [_ Hz] _. apply blame_lift. intros e He. right. exists z. rewrite app_nil_r. auto.
    + intros e bs [(-> & c' & -> & Hc' & Hf)|(z & Hz & Ha)] Hl.
      { exfalso. destruct Hl as [|(l & Hl)]; [discriminate|]. injection Hl as <- _. unfold is_byte in *. consts. apply Hf. fam. }
      destruct (ident_int_of _ _ _ E Hz Hl) as [Hi Hk]. destruct Ha as [?|Ha]; [tauto|]. cbn in Ha.
      assert (0 <= z) by (inversion Hi; subst; try lia; match goal with H : uint_be _ _ _ |- _ => apply uint_be_range in H; lia end).
      destruct ((0 <=? z) && (z <? zlen ns)) eqn:E2; [discriminate|]. destruct strict; [|discriminate].
      injection Ha as ->. apply H2; auto. right. exists z. split; [lia|auto].
  - apply blamec_if; intros E2; [|apply blamec_fail; apply H1, K_kind; auto; apply ident_byte; auto].
    eapply blamec_of with (F := fun e bs => (e = ExpectedString /\ exists c, bs = [c] /\ is_byte c /\ family_of c <> FStr) \/
       (e = InvalidUnicodeCodePoint /\ exists s, all_bytes s /\ ~ valid_utf8 s /\ str_enc s bs) \/ 
       (e = DeserializeError /\ strict = true /\ unknown_enc ns bs)).
    + eapply blame_bind; [apply sound_str|apply blame_str|].
      * intros c' Hc' Hf. left. eauto.
      * intros s bs Hs Hu Hb. right. left. eauto.
      * intros x bs [Hu Hs] _. eapply blame_bind with (P := fun _ b => b = []).
        { intros s s' a Hs' Hb D. injection D as <- <-. exists []. split; auto. split; auto. apply adv_refl in Hs'. auto. }
        { intros s s' e _ _ D. discriminate D. }
        intros _ y -> _. apply blame_lift. cbn. intros e He. rewrite app_nil_r. destruct (find_name (sl_data x) ns 0) as [i|] eqn:G; [discriminate|].
        destruct strict; [|discriminate]. injection He as <-. right. right. split; auto. split; auto. left. exists (sl_data x). split; auto. split; auto.
        eapply find_name_absent; eauto.
    + intros e bs [(-> & c' & -> & Hc' & Hf)|[(-> & s & Hs & Hu & Hb)|(-> & Hst & Hu)]] Hl.
      * exfalso. destruct Hl as [|(l & Hl)]; [discriminate|]. injection Hl as <- _. unfold is_byte in *. consts. apply Hf. fam.
      * apply H1. eapply K_utf8; eauto.
      * apply H2; auto.
Qed.

(** Skipped messages. *)
Context (Wide : wide ar).
Lemma blame_header : blame (eat_header ar) (fun e b => e = ReservedCode /\ b = [0xc1]).
Proof.
  intros s s' e Hs Hb E. destruct (eat_header_run ar Wide s Hs Hb) as (s1 & r & E1 & H). rewrite E1 in E. injection E as -> ->.
  destruct H as [_ [->|(-> & l & Hl)]]; auto. right. exists [0xc1], l. auto.
Qed.
Lemma sound_header : sound (eat_header ar) (fun t h => hd_ok t h /\ h <> []).
Proof.
  intros s s' a Hs Hb E. destruct (eat_header_run ar Wide s Hs Hb) as (s1 & r & E1 & H). rewrite E1 in E. injection E as -> ->.
  destruct H as (h & A & Hh & Hne). eauto.
Qed.
Lemma sound_eat f : sound (eat_message ar f) (fun _ bs => exists m, mp_fmt m bs).
Proof. intros s s' a Hs Hb E. pose proof (proj1 (eat_sound ar Wide f) s Hs Hb) as H. rewrite E in H. exact H. Qed.

Lemma blame_eat f :
  blame (eat_message ar f) (fun e b => e = ReservedCode /\ skip_fault b) /\
  (forall n, 0 <= n -> blame (eat_items ar f false n) (fun e b => e = ReservedCode /\ exists l bs b', b = bs ++ b' /\ zlen l < n /\ mp_fmt_list l bs /\ skip_fault b')) /\
  (forall n, 0 <= n -> blame (eat_items ar f true n) (fun e b => e = ReservedCode /\ exists l bs b', b = bs ++ b' /\ zlen l < n /\ mp_fmt_pairs l bs /\
     (skip_fault b' \/ exists m x y, b' = x ++ y /\ mp_fmt m x /\ skip_fault y))).
Proof.
  induction f as [|f (IHm & IHl & IHp)].
  - split; [|split].
    + apply blame_fuel.
    + intros n Hn. cbn [eat_items]. apply blame_if; intros; [apply blame_ret|apply blame_fuel].
    + intros n Hn. cbn [eat_items]. apply blame_if; intros; [apply blame_ret|apply blame_fuel].
  - split; [|split].
    + intros s s' e Hs Hb E. rewrite eat_message_S in E. revert s s' e Hs Hb E. 
      change (blame (dbind (eat_header ar) (eat_rest ar f)) (fun e b => e = ReservedCode /\ skip_fault b)).
      eapply blame_bind; [apply sound_header|eapply blame_weaken; [apply blame_header|]|].
      { intros e b [-> ->]. split; auto. apply S_here. }
      intros [n|n|n] h [Hh Hne] _; cbn [eat_rest hd_ok] in *.
      * intros s s' e Hs Hb E. unfold eat_single, dbind, get_index in E.
        rewrite uadd_run in E by (unfold wide in Wide; destruct Hs; lia). cbv iota beta in E.
        destruct (zlen (sl_data (d_input s)) <? d_index s + n); inversion E; auto.
      * destruct Hh as [Hn Hh]. eapply blame_weaken; [apply IHl; auto|]. intros e b (-> & l & bs & b' & -> & Hl & Hs & Hf). split; auto.
        eapply S_arr; eauto.
      * destruct Hh as [Hn Hh]. eapply blame_weaken; [apply IHp; auto|]. intros e b (-> & l & bs & b' & -> & Hl & Hs & [Hf|(m & x & y & -> & Hm & Hf)]); split; auto.
        -- eapply S_key; eauto.
        -- eapply S_value; eauto.
    + intros n Hn. destruct (n <=? 0) eqn:E.
      { intros s s' e _ _ D. rewrite eat_items_le in D by lia. discriminate D. }
      assert (EQ : forall s, eat_items ar (S f) false n s = dbind (eat_message ar f) (fun _ => eat_items ar f false (n - 1)) s).
      { intros s. rewrite eat_items_S by lia. unfold dbind, dret. destruct (eat_message ar f s) as [? [|]| |]; auto. }
      eapply blame_ext; [exact EQ|].
      eapply blame_bind; [apply sound_eat|eapply blame_weaken; [apply IHm|]|].
      * intros e b [-> Hb]. split; auto. exists [], [], b. split; auto. split; [change (zlen (@nil mpv)) with 0; lia|]. split; auto. constructor.
      * intros _ x (m & Hm) _. eapply blame_weaken; [apply IHl; lia|]. intros e b (-> & l & bs & b' & -> & Hl & Hs & Hf). split; auto.
        exists (m :: l), (x ++ bs), b'. rewrite app_assoc. split; auto. split; [rewrite zlen_cons; lia|]. split; auto. constructor; auto.
    + intros n Hn. destruct (n <=? 0) eqn:E.
      { intros s s' e _ _ D. rewrite eat_items_le in D by lia. discriminate D. }
      assert (EQ : forall s, eat_items ar (S f) true n s = dbind (eat_message ar f) (fun _ => dbind (eat_message ar f) (fun _ => eat_items ar f true (n - 1))) s).
      { intros s. rewrite eat_items_S by lia. unfold dbind, dret. destruct (eat_message ar f s) as [? [|]| |]; auto. }
      eapply blame_ext; [exact EQ|].
      assert (Z0 : zlen (@nil (mpv * mpv)) < n) by (change (zlen (@nil (mpv * mpv))) with 0; lia).
      eapply blame_bind; [apply sound_eat|eapply blame_weaken; [apply IHm|]|].
      * intros e b [-> Hb]. split; auto. exists [], [], b. split; auto. split; auto. split; auto. constructor.
      * intros _ x (m & Hm) _. eapply blame_bind; [apply sound_eat|eapply blame_weaken; [apply IHm|]|].
        -- intros e b [-> Hb]. split; auto. exists [], [], (x ++ b). split; auto. split; auto. split; [constructor|]. right. eauto 6.
        -- intros _ y (m' & Hm') _. eapply blame_weaken; [apply IHp; lia|]. intros e b (-> & l & bs & b' & -> & Hl & Hs & Hf). split; auto.
           exists ((m, m') :: l), (x ++ y ++ bs), b'. rewrite <- !app_assoc. split; auto. split; [rewrite zlen_cons; lia|]. split; auto. constructor; auto.
Qed.
Lemma bde_ignored : bde ignored (fun e b => e = ReservedCode /\ skip_fault b).
Proof.
  destruct (@ignored_req mp_de_error) as (v & -> & Hv & Hv'). apply bde_req. intros f. cbn [mp_method]. unfold deserialize_ignored_any.
  eapply blame_bind with (P := fun _ _ => True).
  - intros s s' a Hs Hb E. destruct f as [|f]; [discriminate|]. cbn [mp_run r_eat] in E. destruct (sound_eat (S f) s s' a Hs Hb E) as (bs & A & _). eauto.
  - destruct f as [|f]; [apply blame_fuel|]. apply (proj1 (blame_eat (S f))).
  - intros _ x _ _. apply blame_lift. intros e He. exfalso. congruence.
Qed.

(** Structs as maps. *)
Definition struct_blame names (ps : list (val -> bytes -> Prop)) (qs : list (mp_de_error -> bytes -> Prop)) absent got n e b : Prop :=
  exists m bs got' b', b = bs ++ b' /\ entries names ps got m bs got' /\
   (m < n /\ (key_fault b' e \/
      (exists k y, b' = k ++ y /\ unknown_enc names k /\ e = ReservedCode /\ skip_fault y) \/
      (exists i q k y, b' = k ++ y /\ nth_error got' i = Some None /\ nth_error qs i = Some q /\ ident_enc names i k /\ q e y) \/
      (exists i v, nth_error got' i = Some (Some v) /\ ident_enc names i b' /\ e = DeserializeError)) \/
    m = n /\ b' = [] /\ e = DeserializeError /\ finish got' absent = None).
Lemma struct_blame_entry names ps qs absent got got1 n x e b :
  (forall m bs got', entries names ps got1 m bs got' -> entries names ps got (1 + m) (x ++ bs) got') ->
  struct_blame names ps qs absent got1 (n - 1) e b -> struct_blame names ps qs absent got n e (x ++ b).
Proof.
  intros H (m & bs & got' & b' & -> & He & Hc). exists (1 + m), (x ++ bs), got', b'. rewrite app_assoc. split; auto. split; auto.
  destruct Hc as [[Hm Hc]|(Hm & Hc)]; [left|right]; (split; [lia|auto]).
Qed.
Lemma struct_blame_now names ps qs absent got n e b : 0 < n -> 
  (key_fault b e \/
      (exists k y, b = k ++ y /\ unknown_enc names k /\ e = ReservedCode /\ skip_fault y) \/
      (exists i q k y, b = k ++ y /\ nth_error got i = Some None /\ nth_error qs i = Some q /\ ident_enc names i k /\ q e y) \/
      (exists i v, nth_error got i = Some (Some v) /\ ident_enc names i b /\ e = DeserializeError)) ->
  struct_blame names ps qs absent got n e b.
Proof. intros Hn H. exists 0, [], got, b. split; auto. split; [constructor|]. left. split; auto. Qed.
Lemma ident_enc_lt names i k : ident_enc names i k -> (i < length names)%nat.
Proof. intros [(s & H & _)|[H _]]; auto. apply nth_error_Some. congruence. Qed.
Lemma Forall2_nth {A B} (R : A -> B -> Prop) l l' : Forall2 R l l' -> forall i a, nth_error l i = Some a -> exists b, nth_error l' i = Some b /\ R a b.
Proof. induction 1; intros [|i] a E; cbn in *; try discriminate; eauto. injection E as ->. eauto. Qed.

Lemma bmp_struct names ps qs seeds absent : Forall2 sde seeds ps -> Forall2 bde seeds qs -> length names = length seeds ->
  forall f got n, length got = length seeds -> 0 <= n ->
  blame (r_map (run f) (struct_loop DeserializeError names seeds absent got) n) (struct_blame names ps qs absent got n).
Proof.
  intros F G Ln f. induction f as [f IH] using (well_founded_induction lt_wf); intros got n Lg Hn.
  destruct f as [|f]; [apply blame_fuel|].
  rewrite (mfrob_eq (struct_loop _ names seeds absent got)). cbn [mfrob struct_loop]. cbn [mp_run r_map step_map].
  apply blame_if; intros E.
  - assert (n = 0) as -> by lia. destruct f; [apply blame_fuel|]. cbn [mp_run r_map step_map].
    destruct (finish got absent) as [l|] eqn:Ef; [apply blame_ret|]. intros s s' e _ _ D. injection D as _ <-.
    right. exists [], (rest s). split; auto. exists 0, [], got, []. split; auto. split; [constructor|]. right. auto.
  - eapply blame_try; [apply sde_ident|apply bde_ident|intros *; apply err_map|].
    { intros e k Hk. apply struct_blame_now; [lia|]. auto. }
    { discriminate. }
    intros k x Px. cbn [res_some].
    destruct k as [| | | | | | | | | | | | |[i|]]; cbn [ident_post] in Px; try contradiction.
    + pose proof (ident_enc_lt _ _ _ Px) as Hi.
      destruct (nth_error seeds i) as [seed|] eqn:Es; [|apply nth_error_None in Es; lia].
      destruct (nth_error got i) as [[w|]|] eqn:Eg; [| |apply nth_error_None in Eg; lia].
      { apply blame_map_err. rewrite app_nil_r. apply struct_blame_now; [lia|]. right. right. right. eauto. }
      destruct f as [|f]; [apply blame_fuel|]. cbn [mp_run r_map step_map].
      destruct (Forall2_nth _ _ _ F _ _ Es) as (p & Ep & Hp). destruct (Forall2_nth _ _ _ G _ _ Es) as (q & Eq & Hq).
      eapply blame_try; [apply Hp|eapply blame_weaken; [apply Hq|]|intros *; apply err_map|].
      { intros e b Hb. apply struct_blame_now; [lia|]. right. right. left. exists i, q, x, b. auto. }
      intros v y Py. eapply blame_weaken; [apply (IH f)|]; [lia|rewrite set_nth_length; auto|lia|].
      intros e b Hb. rewrite app_assoc. eapply struct_blame_entry; [|exact Hb]. intros m bs got' He. rewrite <- app_assoc. eapply EN_field; eauto.
    + destruct Px as [_ Px]. destruct f as [|f]; [apply blame_fuel|]. cbn [mp_run r_map step_map].
      eapply blame_try; [apply sde_ignored; exact Wide|eapply blame_weaken; [apply bde_ignored|]|intros *; apply err_map|].
      { intros e b [-> Hb]. apply struct_blame_now; [lia|]. right. left. eauto 6. }
      intros v y (m0 & Hm0). eapply blame_weaken; [apply (IH f)|]; [lia|auto|lia|].
      intros e b Hb. rewrite app_assoc. eapply struct_blame_entry; [|exact Hb]. intros m bs got' He. rewrite <- app_assoc. eapply EN_unknown; eauto.
Qed.

(** ** Types *)
Lemma split_nth {A} (l : list A) i a : nth_error l i = Some a -> l = firstn i l ++ a :: skipn (S i) l /\ length (firstn i l) = i.
Proof.
  intros H. split.
  - revert i H. induction l; intros [|i] H; cbn in *; try discriminate; [injection H as ->; auto|]. f_equal. auto.
  - rewrite firstn_length. assert (i < length l)%nat by (apply nth_error_Some; congruence). lia.
Qed.
Lemma finish_missing fs : forall got, length got = length fs -> finish got (map absent_val fs) = None ->
  exists i f, nth_error fs i = Some f /\ nth_error got i = Some None /\ absent_val f = None.
Proof.
  induction fs as [|f fs IH]; intros [|g got] Hl H; cbn [length] in Hl; try discriminate.
  cbn [map finish] in H. assert (R : finish got (map absent_val fs) = None -> exists i f', nth_error (f :: fs) i = Some f' /\ nth_error (g :: got) i = Some None /\ absent_val f' = None).
  { intros E. destruct (IH got ltac:(lia) E) as (i & f' & H1 & H2 & H3). exists (S i), f'. auto. }
  destruct g as [w|].
  - destruct (finish got (map absent_val fs)); [discriminate|]. auto.
  - destruct (absent_val f) as [d|] eqn:Ea; [|exists 0%nat, f; auto]. destruct (finish got (map absent_val fs)); [discriminate|]. auto.
Qed.
Lemma absent_none f : absent_val f = None -> attr_of f = FPlain /\ forall t, snd f <> TOption t.
Proof. unfold absent_val. destruct (attr_of f); [|discriminate]. intros H. split; auto. intros t E. rewrite E in H. discriminate. Qed.

Lemma blame_tuple ts m T : T = TTuple \/ T = TTupleStruct -> In m [DTuple; DTupleStruct] ->
  Forall (fun t => sde (denote DeserializeError t) (adm fo t)) ts -> Forall (fun t => bde (denote DeserializeError t) (fun e b => mp_fault fo t b e)) ts ->
  bme m (mk_visitor (v_seq DeserializeError (tuple_prog DeserializeError (map (fun t => (denote DeserializeError t, None)) ts) []))) (fun e b => mp_fault fo (T ts) b e).
Proof.
  intros HT Hm Fs Fb f.
  assert (E : mp_method ar fo (run f) m (mk_visitor (v_seq DeserializeError (tuple_prog DeserializeError (map (fun t => (denote DeserializeError t, None)) ts) [])))
    = deserialize_seq ar (run f) (mk_visitor (v_seq DeserializeError (tuple_prog DeserializeError (map (fun t => (denote DeserializeError t, None)) ts) []))))
    by (destruct Hm as [<-|[<-|[]]]; reflexivity).
  rewrite E. clear E.
  assert (F1 : Forall2 (fun d p => sde (fst d) p) (map (fun t => (denote DeserializeError t, @None val)) ts) (map (adm fo) ts)).
  { clear - Fs. induction Fs; cbn; constructor; auto. }
  assert (F2 : Forall2 (fun d q => bde (fst d) q) (map (fun t => (denote DeserializeError t, @None val)) ts) (map (fun t e b => mp_fault fo t b e) ts)).
  { clear - Fb. induction Fb; cbn; constructor; auto. }
  eapply blame_seq; [intros n Hn; apply (ssq_rest _ (map (adm fo) ts)); auto|intros n Hn; cbn [visit_seq mk_visitor v_seq on_seq]; apply (bsq_tuple _ (map (adm fo) ts) (map (fun t e b => mp_fault fo t b e) ts)); auto|..].
  - intros c Hc Hf. apply X_kind; auto. destruct HT as [->| ->]; cbn; destruct (family_of c); congruence.
  - intros n h b e Hh [(j & l & bs & b' & q & -> & Hj & Hl & Hp & Hs & Hq & Hb)|(-> & j & l & i & d & Hj & Hl & Hi & Hs & Hd & Hd' & Hall)].
    + rewrite nth_error_map in Hq. destruct (nth_error ts j) as [t|] eqn:Et; [|discriminate]. injection Hq as <-.
      destruct (split_nth _ _ _ Et) as [Es El]. rewrite Es. eapply X_elem with (l := l); eauto; [unfold zlen; lia|lia|].
      rewrite firstn_map in Hs. exact Hs.
    + rewrite nth_error_map in Hd. destruct (nth_error ts i) as [ti|] eqn:Ei; [|discriminate].
      assert (i < length ts)%nat by (apply nth_error_Some; congruence).
      destruct (nth_error ts j) as [t|] eqn:Et; [|apply nth_error_None in Et; lia].
      destruct (split_nth _ _ _ Et) as [Es El]. rewrite Es. eapply X_few with (l := l); eauto; [unfold zlen; rewrite El, Hj; auto|lia|].
      rewrite firstn_map in Hs. exact Hs.
  - intros n u m' h b Hh Hm' [H|(l & Hl & Hn & Hlt & Hb)]; cbn [snd] in *; [congruence|]. unfold zlen in Hn, Hlt. rewrite map_length in *.
    eapply X_many with (n := n) (l := l); eauto.
Qed.

Lemma blame_bind_ok {A B} (m : M A) (k : A -> M B) F : blame m F -> (forall a s s' e, k a s <> Done s' (Err e)) -> blame (dbind m k) F.
Proof.
  intros H Hk s s' e Hs Hb E. unfold dbind in E. destruct (m s) as [s1 [a|e1]| |] eqn:E1; try discriminate; [destruct (Hk _ _ _ _ E)|].
  injection E as <- <-. eapply H; eauto.
Qed.

Lemma arr_hdr_ne n h : arr_hdr n h -> h <> [].
Proof. intros H; inversion H; discriminate. Qed.
Lemma map_hdr_ne n h : map_hdr n h -> h <> [].
Proof. intros H; inversion H; discriminate. Qed.
Lemma str_enc_ne s b : str_enc s b -> b <> [].
Proof. intros (h & Hh & ->). inversion Hh; discriminate. Qed.
Lemma ident_int_ne z b : ident_int z b -> b <> [].
Proof. intros H; inversion H; discriminate. Qed.
Lemma ident_enc_ne ns i b : ident_enc ns i b -> b <> [].
Proof. intros [(s & _ & H)|[_ H]]; [eapply str_enc_ne; eauto|eapply ident_int_ne; eauto]. Qed.
Lemma unknown_enc_ne ns b : unknown_enc ns b -> b <> [].
Proof. intros [(s & _ & _ & H)|(z & _ & H)]; [eapply str_enc_ne; eauto|eapply ident_int_ne; eauto]. Qed.
Lemma app_ne {A} (a b : list A) : a <> [] -> a ++ b <> [].
Proof. destruct a; [congruence|discriminate]. Qed.
Lemma fault_ne t b e : mp_fault fo t b e -> b <> [].
Proof.
  induction 1; try discriminate; auto; try (apply app_ne; first [eapply arr_hdr_ne; eassumption|eapply map_hdr_ne; eassumption]).
  - inversion H; discriminate.
  - eapply str_enc_ne; eauto.
  - eapply str_enc_ne; eauto.
  - eapply unknown_enc_ne; eauto.
  - eapply ident_enc_ne; eauto.
Qed.
Lemma denote_blame t : wf t -> bde (denote DeserializeError t) (fun e b => mp_fault fo t b e).
Proof.
  induction t as [| | | | | | | | |t IH|t IH|t IH|ts IH|ts IH|k v IHk IHv|fs IH|vs IH] using ty_ind'; intros W.
  - apply bde_request. intros f. cbn [mp_method]. apply blame_byte. intros c Hc. consts. apply blame_if; intros E; [|apply blame_if; intros E2].
    + apply blame_lift. discriminate.
    + apply blame_lift. discriminate.
    + apply blame_fail, X_kind; auto. unfold is_byte in Hc. cbn. assert (H : family_of c <> FBool) by fam. destruct (family_of c); congruence.
  - apply bde_request. intros f. cbn [mp_method]. eapply blame_bind; [apply sound_integer|apply blame_integer|].
    + intros c Hc Hf. apply X_kind; auto. cbn. destruct (family_of c); congruence.
    + intros z bs Hz Hk. eapply X_range; eauto.
    + intros z x [Hz _] _. apply blame_lift. cbn. intros e. apply in_ikindb_spec in Hz. rewrite Hz. discriminate.
  - apply bde_request. intros f. cbn [mp_method]. apply blame_byte. intros c Hc. apply blame_bind_ok; [|discriminate].
    apply blame_if; intros E; [apply blame_unsigned; lia|].
    apply blame_if; intros E1; [apply blame_bind_ok; [apply blame_unsigned; lia|discriminate]|].
    apply blame_if; intros E2; [apply blame_ret|]. apply blame_fetch_num; auto. intros Hf. apply X_kind; auto. unfold is_byte in Hc. consts. cbn.
    assert (H1 : family_of c <> FFloat) by fam. assert (H2 : family_of c <> FNil) by fam. destruct (family_of c); congruence.
  - apply bde_request. intros f. cbn [mp_method]. apply blame_byte. intros c Hc. apply blame_bind_ok; [|discriminate].
    apply blame_if; intros E; [apply blame_unsigned; lia|].
    apply blame_if; intros E1; [apply blame_bind_ok; [apply blame_unsigned; lia|discriminate]|].
    apply blame_if; intros E2; [apply blame_ret|]. apply blame_fetch_num; auto. intros Hf. apply X_kind; auto. unfold is_byte in Hc. consts. cbn.
    assert (H1 : family_of c <> FFloat) by fam. assert (H2 : family_of c <> FNil) by fam. destruct (family_of c); congruence.
  - apply bde_request. intros f. cbn [mp_method]. eapply blame_bind; [apply sound_str|apply blame_str|].
    + intros c Hc Hf. apply X_kind; auto. cbn. destruct (family_of c); congruence.
    + intros s bs Hs Hu Hb. eapply X_utf8; eauto.
    + intros x bs [Hu Hs] _. destruct (char_from_str (sl_data x)) as [c|] eqn:E; [apply blame_lift; discriminate|]. apply blame_fail. rewrite app_nil_r.
      eapply X_char; eauto. intros c Hc Hx. assert (E' : char_from_str (sl_data x) = Some c) by (apply char_from_str_spec; auto). congruence.
  - apply bde_request. intros f. cbn [mp_method]. apply blame_bind_ok; [apply blame_str|].
    + intros c Hc Hf. apply X_kind; auto. cbn. destruct (family_of c); congruence.
    + intros s bs Hs Hu Hb. eapply X_utf8; eauto.
    + intros a s s' e D. discriminate D.
  - apply bde_request. intros f. cbn [mp_method]. apply blame_bind_ok; [apply blame_bin|].
    + intros c Hc Hf. apply X_kind; auto. cbn. destruct (family_of c); congruence.
    + intros a s s' e D. discriminate D.
  - apply bde_request. intros f. cbn [mp_method]. apply blame_byte. intros c Hc. apply blame_if; intros E; [apply blame_lift; discriminate|].
    apply blame_fail, X_kind; auto. unfold is_byte in Hc. consts. cbn. assert (H : family_of c <> FNil) by fam. destruct (family_of c); congruence.
  - apply bde_request. intros f. cbn [mp_method]. apply blame_byte. intros c Hc. apply blame_if; intros E; [apply blame_lift; discriminate|].
    apply blame_fail, X_kind; auto. unfold is_byte in Hc. consts. cbn. assert (H : family_of c <> FNil) by fam. destruct (family_of c); congruence.
  - cbn [denote]. apply bde_request. intros f. cbn [mp_method]. apply blame_peek. intros c Hc. apply blamec_if; intros E.
    + apply blamec_eat. apply blame_lift. discriminate.
    + destruct (denote_req t) as (m & v & Et).
      eapply blamec_of with (F := fun e b => mp_fault fo t b e).
      * cbn [visit_some mk_visitor v_option on_some]. rewrite Et in *. eapply (bde_then m v); [apply IH; exact W|auto|discriminate].
      * intros e bs Hf Hl. destruct Hl as [->|(l & ->)]; [apply fault_ne in Hf; congruence|]. apply X_some; auto. consts. lia.
  - cbn [denote]. apply bde_request. intros f. cbn [mp_method]. unfold deserialize_newtype_struct. cbn [visit_newtype mk_visitor v_newtype on_newtype].
    eapply blame_weaken; [apply IH; exact W|]. intros e b Hb. apply X_newtype; auto.
  - cbn [denote]. apply bde_request. intros f. cbn [mp_method]. pose proof (denote_sound ar fo Wide t W) as Ht. specialize (IH W).
    apply blame_seq with (P := fun n r b => snd r = 0 /\ exists l, fst r = USeq (rev [] ++ l) /\ zlen l = n /\ seq_enc (map (adm fo t) l) b)
      (G := fun n e b => exists l bs b', b = bs ++ b' /\ zlen l < n /\ seq_enc (map (adm fo t) l) bs /\ mp_fault fo t b' e).
    + intros n Hn. cbn [visit_seq mk_visitor v_seq on_seq]. destruct f as [|f]; [apply sound_fuel|]. cbn [mp_run r_seq step_seq]. exact (ssq_loop ar fo _ _ Ht f [] n Hn).
    + intros n Hn. cbn [visit_seq mk_visitor v_seq on_seq]. destruct f as [|f]; [apply blame_fuel|]. cbn [mp_run r_seq step_seq].
      exact (bsq_loop _ _ (fun e b => mp_fault fo t b e) Ht IH f [] n Hn).
    + intros c Hc Hf. apply X_kind; auto. cbn. destruct (family_of c); congruence.
    + intros n h b e Hh (l & bs & b' & -> & Hl & Hs & Hf). eapply X_seq; eauto.
    + intros n u m h b Hh Hm [E _]. cbn in E. congruence.
  - cbn [denote]. destruct W as [W _]. apply bde_request. apply all_list_Forall in W. apply (blame_tuple ts DTuple TTuple); cbn; auto.
    + clear - W Wide. induction W; constructor; auto. apply denote_sound; auto.
    + clear - IH W. induction IH; inversion W; subst; constructor; auto.
  - cbn [denote]. destruct W as [W _]. apply bde_request. apply all_list_Forall in W. apply (blame_tuple ts DTupleStruct TTupleStruct); cbn; auto.
    + clear - W Wide. induction W; constructor; auto. apply denote_sound; auto.
    + clear - IH W. induction IH; inversion W; subst; constructor; auto.
  - cbn [denote]. destruct W as [W1 W2]. apply bde_request. intros f. cbn [mp_method].
    pose proof (denote_sound ar fo Wide k W1) as Hk. pose proof (denote_sound ar fo Wide v W2) as Hv. specialize (IHk W1). specialize (IHv W2).
    apply blame_map with (P := fun n r b => snd r = 0 /\ exists l, fst r = UMap (rev [] ++ l) /\ zlen l = n /\
       seq_enc (map (fun e b => exists x y, b = x ++ y /\ adm fo k (fst e) x /\ adm fo v (snd e) y) l) b)
      (G := fun n e b => exists l bs b', b = bs ++ b' /\ zlen l < n /\
       seq_enc (map (fun x b => exists y z, b = y ++ z /\ adm fo k (fst x) y /\ adm fo v (snd x) z) l) bs /\
       (mp_fault fo k b' e \/ exists u a b'', b' = a ++ b'' /\ adm fo k u a /\ mp_fault fo v b'' e)).
    + intros n Hn. cbn [visit_map mk_visitor v_map on_map]. destruct f as [|f]; [apply sound_fuel|]. cbn [mp_run r_map step_map]. exact (smp_loop ar fo _ _ _ _ Hk Hv f [] n Hn).
    + intros n Hn. cbn [visit_map mk_visitor v_map on_map]. destruct f as [|f]; [apply blame_fuel|]. cbn [mp_run r_map step_map].
      exact (bmp_loop _ _ _ _ (fun e b => mp_fault fo k b e) (fun e b => mp_fault fo v b e) Hk Hv IHk IHv f [] n Hn).
    + intros c Hc Hf. apply X_kind; auto. cbn. destruct (family_of c); congruence.
    + intros n h b e Hh (l & bs & b' & -> & Hl & Hs & [Hf|(u & a & b'' & -> & Hu & Hf)]); [eapply X_key; eauto|eapply X_value; eauto].
    + intros n u m h b Hh Hm [E _]. cbn in E. congruence.
  - cbn [denote]. destruct W as [_ W]. apply all_list_Forall in W.
    assert (Fs : Forall (fun f => sde (denote DeserializeError (snd f)) (adm fo (snd f))) fs).
    { clear - W Wide. induction W as [|? ? [? _] ?]; constructor; auto. apply denote_sound; auto. }
    assert (Fb : Forall (fun f => bde (denote DeserializeError (snd f)) (fun e b => mp_fault fo (snd f) b e)) fs).
    { clear - IH W. induction IH; inversion W as [|? ? [? _] ?]; subst; constructor; auto. }
    clear IH W. apply bde_request. intros f. cbn [mp_method].
    set (ps := map (fun f => adm fo (snd f)) fs). set (qs := map (fun (f : bytes * fattr * ty) e b => mp_fault fo (snd f) b e) fs).
    assert (F1 : Forall2 sde (map (fun f => denote DeserializeError (snd f)) fs) ps) by (clear - Fs; subst ps; induction Fs; cbn; constructor; auto).
    assert (F2 : Forall2 bde (map (fun f => denote DeserializeError (snd f)) fs) qs) by (clear - Fb; subst qs; induction Fb; cbn; constructor; auto).
    assert (F3 : Forall2 (fun d p => sde (fst d) p) (map (fun f => (denote DeserializeError (snd f), default_of (attr_of f))) fs) ps) by (clear - Fs; subst ps; induction Fs; cbn; constructor; auto).
    assert (F4 : Forall2 (fun d q => bde (fst d) q) (map (fun f => (denote DeserializeError (snd f), default_of (attr_of f))) fs) qs) by (clear - Fb; subst qs; induction Fb; cbn; constructor; auto).
    eapply blame_struct; [intros n Hn|intros n Hn|intros n Hn|intros n Hn|..].
    + cbn [visit_map mk_visitor v_struct on_map]. apply (smp_struct ar fo Wide _ ps); auto. rewrite !map_length. auto.
    + cbn [visit_seq mk_visitor v_struct on_seq]. apply (ssq_rest _ ps); auto.
    + cbn [visit_map mk_visitor v_struct on_map]. apply (bmp_struct _ ps qs); auto; rewrite !map_length; auto.
    + cbn [visit_seq mk_visitor v_struct on_seq]. apply (bsq_tuple _ ps qs); auto.
    + intros c Hc H1 H2. apply X_kind; auto. cbn. destruct (family_of c); congruence.
    + intros n h b e Hh (m & bs & got & b' & -> & He & [[Hm [Hk|[(k & y & -> & Hk & -> & Hy)|[(i & q & k & y & -> & Hg & Hq & Hk & Hy)|(i & v & Hg & Hk & ->)]]]]|(-> & -> & -> & Hf)]).
      * eapply X_field_key; eauto.
      * eapply X_field_skip; eauto.
      * unfold qs in Hq. rewrite nth_error_map in Hq. destruct (nth_error fs i) as [g|] eqn:Ei; [|discriminate]. injection Hq as <-. eapply X_field_value; eauto.
      * eapply X_field_again; eauto.
      * rewrite app_nil_r. pose proof (entries_length _ _ _ _ _ _ He) as Lg. rewrite map_length in Lg.
        destruct (finish_missing _ _ Lg Hf) as (i & g & Hi & Hg & Ha). apply absent_none in Ha. destruct Ha. eapply X_field_missing; eauto.
    + intros n h b e Hh [(j & l & bs & b' & q & -> & Hj & Hl & Hp & Hs & Hq & Hb)|(-> & j & l & i & d & Hj & Hl & Hi & Hs & Hd & Hd' & Hall)].
      * unfold qs in Hq. rewrite nth_error_map in Hq. destruct (nth_error fs j) as [t|] eqn:Et; [|discriminate]. injection Hq as <-.
        destruct (split_nth _ _ _ Et) as [Es El]. rewrite Es. eapply X_field with (l := l); eauto; [unfold zlen; lia|lia|].
        unfold ps in Hs. rewrite firstn_map in Hs. exact Hs.
      * rewrite nth_error_map in Hd. destruct (nth_error fs i) as [ti|] eqn:Ei; [|discriminate]. injection Hd as <-.
        destruct (split_nth _ _ _ Ei) as [Es El]. rewrite Es. rewrite <- (firstn_skipn j (firstn i fs)), <- app_assoc.
        assert (Hfj : firstn j (firstn i fs) = firstn j fs) by (rewrite firstn_firstn; f_equal; lia). rewrite Hfj.
        assert (Li : (i < length fs)%nat) by (apply nth_error_Some; congruence).
        eapply X_fields_few with (l := l).
        -- unfold zlen. rewrite firstn_length. replace (Z.of_nat (Nat.min j (length fs))) with n by lia. auto.
        -- rewrite firstn_length. lia.
        -- unfold ps in Hs. rewrite firstn_map in Hs. exact Hs.
        -- apply Forall_forall. intros g Hg E. apply In_nth_error in Hg. destruct Hg as [k Hk].
           assert (Hlt : (k < length (skipn j (firstn i fs)))%nat) by (apply nth_error_Some; congruence). rewrite skipn_length, El in Hlt.
           assert (Hn2 : nth_error fs (j + k) = Some g).
           { rewrite <- (firstn_skipn i fs), nth_error_app1 by lia. rewrite <- (firstn_skipn j (firstn i fs)), nth_error_app2; rewrite firstn_length, El; [|lia].
             replace (j + k - Nat.min j i)%nat with k by lia. auto. }
           apply (Hall (j + k)%nat (denote DeserializeError (snd g), default_of (attr_of g))); [lia| |cbn; rewrite E; auto].
           rewrite nth_error_map, Hn2. auto.
        -- cbn in Hd'. destruct (attr_of ti); [auto|discriminate].
    + intros n u m h b Hh Hm [E _]. cbn in E. congruence.
    + intros n u m h b Hh Hm [H|(l & Hl & Hn & Hlt & Hb)]; cbn [snd] in *; [congruence|]. unfold zlen in Hn, Hlt. rewrite map_length in *.
      eapply X_fields_many with (n := n) (l := l); eauto.
  - cbn [denote]. destruct W as [_ W]. apply all_list_Forall in W. apply bde_request. intros f. cbn [mp_method].
    apply blame_peek. intros c Hc. cbn [visit_enum mk_visitor v_enum on_enum]. apply blamec_if; intros E.
    + apply blamec_eat. destruct f as [|f]; [apply blame_fuel|]. cbn [mp_run r_enum step_enum enum_prog].
      assert (c = 0x81) as -> by (change (Z.lor FIXMAP 1) with 0x81 in E; lia).
      eapply blame_try; [apply sde_ident|apply bde_ident|intros *; apply err_lift|].
      { intros e k Hk. apply X_variant_data; auto. }
      { intros _ k Hk. apply X_unknown_data; auto. }
      intros u x Px.
      destruct u as [| | | | | | | | | | | | |[i|]]; cbn [ident_post] in Px; try contradiction; [|destruct Px; discriminate].
      pose proof (ident_enc_lt _ _ _ Px) as Hi. rewrite map_length in Hi.
      rewrite nth_error_map. destruct (nth_error vs i) as [[[nm k] t]|] eqn:Ei; [|apply nth_error_None in Ei; lia].
      cbn [option_map attr_of fst snd].
      pose proof (nth_error_In _ _ Ei) as Hin. rewrite Forall_forall in IH, W. specialize (IH _ Hin). specialize (W _ Hin). cbn [attr_of fst snd] in *.
      destruct W as [W K]. specialize (IH W).
      assert (G : k <> KUnit -> forall e y, mp_fault fo t y e -> mp_fault fo (TEnum vs) (0x81 :: x ++ y) e).
      { intros Hk e y Hy. eapply X_content; eauto. }
      destruct k.
      * cbn. apply blame_lift. intros e [= <-]. rewrite app_nil_r. eapply X_data; eauto.
      * cbn [run_variant]. apply blame_post; [|auto|discriminate]. eapply blame_weaken; [apply IH|]. apply G. discriminate.
      * destruct t; try contradiction. cbn [denote request run_variant] in *.
        apply blame_post; [|auto|discriminate]. eapply blame_weaken; [exact (bde_method _ _ _ IH f)|]. apply G. discriminate.
      * destruct t; try contradiction. cbn [denote request run_variant] in *.
        apply blame_post; [|auto|discriminate]. eapply blame_weaken; [exact (bde_method _ _ _ IH f)|]. apply G. discriminate.
    + assert (Hc81 : c <> 0x81) by (change (Z.lor FIXMAP 1) with 0x81 in E; lia).
      eapply blamec_of with (F := fun e b => key_fault b e \/ mp_fault fo (TEnum vs) b e).
      2:{ intros e b [Hk|Hf] Hl; auto. destruct Hl as [->|(l & ->)]; [|apply X_variant; auto].
          inversion Hk as [|? ? ? ? Hs]; subst. apply str_enc_ne in Hs. congruence. }
      destruct f as [|f]; [apply blame_fuel|]. cbn [mp_run r_enum step_enum enum_prog].
      eapply blame_try; [apply sde_ident|apply bde_ident|intros *; apply err_lift|].
      { auto. }
      { intros _ k Hk. right. apply X_unknown; auto. }
      intros u x Px.
      destruct u as [| | | | | | | | | | | | |[i|]]; cbn [ident_post] in Px; try contradiction; [|destruct Px; discriminate].
      pose proof (ident_enc_lt _ _ _ Px) as Hi. rewrite map_length in Hi.
      rewrite nth_error_map. destruct (nth_error vs i) as [[[nm k] t]|] eqn:Ei; [|apply nth_error_None in Ei; lia].
      cbn [option_map attr_of fst snd].
      assert (G : k <> KUnit -> mp_fault fo (TEnum vs) (x ++ []) InvalidType).
      { intros Hk. rewrite app_nil_r. eapply X_no_data; eauto. }
      destruct k.
      * cbn. apply blame_lift. discriminate.
      * cbn [run_variant]. apply blame_post; [|auto|discriminate]. apply blame_fail. right. apply G. discriminate.
      * destruct (denote_req t) as (m' & v' & Et). rewrite Et. cbn [request run_variant]. apply blame_post; [|auto|discriminate].
        apply blame_fail. right. apply G. discriminate.
      * destruct (denote_req t) as (m' & v' & Et). rewrite Et. cbn [request run_variant]. apply blame_post; [|auto|discriminate].
        apply blame_fail. right. apply G. discriminate.
Qed.

Lemma key_fault_err k e : key_fault k e -> e <> UnexpectedEof.
Proof. intros H; inversion H; discriminate. Qed.
Lemma refuses_err t c e : refuses t c = Some e -> e <> UnexpectedEof.
Proof.
  induction t; cbn; intros H; try (destruct (family_of c); solve [congruence|auto]); auto.
  destruct ((c =? 129) || ident_start c); congruence.
Qed.
Lemma fault_err t b e : mp_fault fo t b e -> e <> UnexpectedEof.
Proof.
  induction 1; try discriminate; auto; try (eapply key_fault_err; eassumption). eapply refuses_err; eauto.
Qed.
End Blame.

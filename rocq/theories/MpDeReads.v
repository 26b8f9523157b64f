(** How the parsing functions of the MessagePack deserializer read well-formed
    and truncated encodings. *)
From Verif Require Import Prelude PreludeFacts Utf8 Utf8Spec Utf8Facts SerdeSer SerdeDe MpMagick MpSpec MpDe MpDeView.
Ltac Zify.zify_post_hook ::= Z.div_mod_to_equations.

Ltac consts := unfold is_fixint, between, NIL, RESERVED, FALSE, TRUE, FIXMAP, MAX_FIXMAP_SIZE, FIXMAP_MAX, FIXARRAY,
  MAX_FIXARRAY_SIZE, FIXARRAY_MAX, FIXSTR, MAX_FIXSTR_SIZE, FIXSTR_MAX, BIN_8, BIN_16, BIN_32, EXT_8, EXT_16,
  EXT_32, FLOAT_32, FLOAT_64, UINT_8, UINT_16, UINT_32, UINT_64, INT_8, INT_16, INT_32, INT_64, FIXEXT_1,
  FIXEXT_2, FIXEXT_4, FIXEXT_8, FIXEXT_16, STR_8, STR_16, STR_32, ARRAY_16, ARRAY_32, MAP_16, MAP_32,
  NEGFIXINT, MAX_POSFIXINT in *.
(** Decide the conditions of a cascade of [if]s on a byte code. *)
Ltac ifs := repeat match goal with
  | |- context [if ?b then _ else _] =>
    let E := fresh "Eif" in
    first [assert (E : b = true) by (consts; lia) | assert (E : b = false) by (consts; lia)]; rewrite E; clear E
  end.

Lemma land_low c k : 0 <= k -> Z.land c (2 ^ k - 1) = c mod 2 ^ k.
Proof. intros. rewrite <- (Z.land_ones c k) by lia. rewrite Z.ones_equiv. reflexivity. Qed.
Lemma land_15 b n : 0 <= n < 16 -> b mod 16 = 0 -> Z.land (b + n) 0xf = n.
Proof. intros. change 0xf with (2 ^ 4 - 1). rewrite land_low by lia. change (2 ^ 4) with 16. lia. Qed.
Lemma land_31 b n : 0 <= n < 32 -> b mod 32 = 0 -> Z.land (b + n) 0x1f = n.
Proof. intros. change 0x1f with (2 ^ 5 - 1). rewrite land_low by lia. change (2 ^ 5) with 32. lia. Qed.

Lemma cons_inj {A} (a b : A) l m : a :: l = b :: m -> a = b /\ l = m.
Proof. intros H. split; congruence. Qed.

Section Reads.
Context (ar : arch) (fo : float_ops).
Local Notation M := (DM mpde mp_de_error).
Local Notation reads := (reads ar).

Lemma reads_cons {A} (k : Z -> M A) c bs r : reads (k c) bs r -> reads (dbind (fetch ar) k) (c :: bs) r.
Proof. intros H. change (c :: bs) with ([c] ++ bs). eapply reads_bind; [apply reads_fetch|exact H]. Qed.

Lemma reads_nil_r {A} (m : M A) bs r : reads m (bs ++ []) r -> reads m bs r.
Proof. rewrite app_nil_r. auto. Qed.

Lemma reads_bind_nil {A B} (m : M A) (k : A -> M B) x b r :
  reads m [] (Ok x) -> reads (k x) b r -> reads (dbind m k) b r.
Proof. intros. change b with ([] ++ b). eapply reads_bind; eauto. Qed.

Lemma reads_bind_end {A B} (m : M A) (k : A -> M B) x a r :
  reads m a (Ok x) -> reads (k x) [] r -> reads (dbind m k) a r.
Proof. intros. apply reads_nil_r. eapply reads_bind; eauto. Qed.

Lemma reads_fail {A} e : reads (@dfail _ _ A e) [] (Err e).
Proof. apply (reads_lift ar (Err e)). Qed.

Lemma uint_be_len n x h : uint_be n x h -> zlen h = Z.of_nat n.
Proof. intros [H _]. unfold zlen. lia. Qed.
Lemma uint_be_range n x h : uint_be n x h -> 0 <= x < 256 ^ Z.of_nat n.
Proof. intros (H & B & <-). rewrite <- H. fold (zlen h). apply be_val_bound. auto. Qed.

Lemma reads_unsigned n x h : uint_be n x h -> (n <= 8)%nat -> reads (fetch_unsigned ar (Z.of_nat n)) h (Ok x).
Proof.
  intros H Hn. pose proof (uint_be_len _ _ _ H) as L. destruct H as (H & B & <-). unfold fetch_unsigned.
  rewrite <- L. eapply reads_bind_end; [apply reads_fetch_array; lia|]. apply reads_ret.
Qed.
Lemma reads_signed n x h : int_be n x h -> (n <= 8)%nat -> reads (fetch_signed ar (Z.of_nat n)) h (Ok x).
Proof.
  intros (H & B & <-) Hn. assert (L : zlen h = Z.of_nat n) by (unfold zlen; lia). unfold fetch_signed.
  rewrite <- L. eapply reads_bind_end; [apply reads_fetch_array; lia|]. apply reads_ret.
Qed.

Lemma reads_u8 x h : uint_be 1 x h -> reads (fetch_u8 ar) h (Ok x).
Proof. intros. apply (reads_unsigned 1 x h); auto; lia. Qed.
Lemma reads_u16 x h : uint_be 2 x h -> reads (fetch_u16 ar) h (Ok x).
Proof. intros. apply (reads_unsigned 2 x h); auto; lia. Qed.
Lemma reads_u32 x h : uint_be 4 x h -> reads (fetch_u32 ar) h (Ok x).
Proof. intros. apply (reads_unsigned 4 x h); auto; lia. Qed.
Lemma reads_u64 x h : uint_be 8 x h -> reads (fetch_u64 ar) h (Ok x).
Proof. intros. apply (reads_unsigned 8 x h); auto; lia. Qed.
Lemma reads_f32 x h : uint_be 4 x h -> reads (fetch_f32 ar) h (Ok x).
Proof. apply reads_u32. Qed.
Lemma reads_f64 x h : uint_be 8 x h -> reads (fetch_f64 ar) h (Ok x).
Proof. apply reads_u64. Qed.
Lemma reads_i8 x h : int_be 1 x h -> reads (fetch_i8 ar) h (Ok x).
Proof. intros. apply (reads_signed 1 x h); auto; lia. Qed.
Lemma reads_i16 x h : int_be 2 x h -> reads (fetch_i16 ar) h (Ok x).
Proof. intros. apply (reads_signed 2 x h); auto; lia. Qed.
Lemma reads_i32 x h : int_be 4 x h -> reads (fetch_i32 ar) h (Ok x).
Proof. intros. apply (reads_signed 4 x h); auto; lia. Qed.
Lemma reads_i64 x h : int_be 8 x h -> reads (fetch_i64 ar) h (Ok x).
Proof. intros. apply (reads_signed 8 x h); auto; lia. Qed.

(** A [u32] fits into [usize], so [try_usize] cannot fail. *)
Lemma reads_try_usize {A} x (k : Z -> M A) b r : x < 2 ^ 32 -> reads (k x) b r ->
  reads (dbind (try_usize ar x) k) b r.
Proof.
  intros Hx H s Hs Hf. assert (E : try_usize ar x s = Done s (Ok x)).
  { unfold try_usize. destruct Hs as (_ & Hs & _).
    destruct (x <=? usize_max ar) eqn:E; [reflexivity|lia]. }
  unfold dbind. rewrite E. apply H; auto.
Qed.

Lemma reads_usize x h : uint_be 4 x h -> reads (dbind (fetch_u32 ar) (fun n => try_usize ar n)) h (Ok x).
Proof.
  intros H s Hs Hf. assert (E : forall s, ready ar s -> try_usize ar x s = Done s (Ok x)).
  { clear s Hs. intros s Hs. unfold try_usize. destruct Hs as (_ & Hs & _).
    pose proof (uint_be_range _ _ _ H). change (256 ^ Z.of_nat 4) with (2 ^ 32) in *.
    destruct (x <=? usize_max ar) eqn:E; [reflexivity|lia]. }
  destruct (reads_u32 _ _ H s Hs Hf) as [H1 H2]. split.
  - intros t Ht. destruct (H1 _ Ht) as (s1 & E1 & A1). exists s1. unfold dbind. rewrite E1, E; auto.
    apply A1.
  - intros c q Eq. destruct (H2 _ _ Eq) as (s1 & E1 & A1). exists s1. unfold dbind. rewrite E1. auto.
Qed.

Lemma reads_split {A} (k : sl -> M A) bs b r :
  (forall o, reads (k {| sl_off := o; sl_data := bs |}) b r) ->
  reads (dbind (split_input (zlen bs)) k) (bs ++ b) r.
Proof.
  intros Hk s Hs Hf. destruct (fits_app _ _ _ Hf) as [_ Fb]. destruct (split_input_run ar (zlen bs) s Hs (zlen_nonneg _)) as [H1 H2].
  split.
  - intros t Ht. rewrite <- app_assoc in Ht. destruct H1 as (s1 & E1 & A1 & _).
    { rewrite Ht, zlen_app. pose proof (zlen_nonneg (b ++ t)). lia. }
    unfold dbind. rewrite E1. rewrite Ht.
    replace (firstn (Z.to_nat (zlen bs)) (bs ++ b ++ t)) with bs.
    2:{ unfold zlen. rewrite Nat2Z.id, firstn_app, firstn_all, Nat.sub_diag, firstn_O, app_nil_r. auto. }
    assert (R1 : rest s1 = b ++ t) by (eapply adv_rest; eauto).
    destruct (Hk (pos s) s1 (adv_ready _ _ _ _ A1) Fb) as [K1 _]. destruct (K1 _ R1) as (s2 & E2 & A2).
    exists s2. split; [exact E2|]. rewrite zlen_app. eapply adv_trans; eauto.
  - intros c q E. apply app_eq_split in E. destruct E as [(y & p & E)|(c' & E1 & E2)].
    + exists s. unfold dbind. rewrite H2; auto. rewrite E, zlen_app, zlen_cons. pose proof (zlen_nonneg p). lia.
    + destruct H1 as (s1 & F1 & A1 & _). { rewrite E1, zlen_app. pose proof (zlen_nonneg c'). lia. }
      unfold dbind. rewrite F1, E1.
      replace (firstn (Z.to_nat (zlen bs)) (bs ++ c')) with bs.
      2:{ unfold zlen. rewrite Nat2Z.id, firstn_app, firstn_all, Nat.sub_diag, firstn_O, app_nil_r. auto. }
      assert (R1 : rest s1 = c') by (eapply adv_rest; eauto).
      destruct (Hk (pos s) s1 (adv_ready _ _ _ _ A1) Fb) as [_ K2]. rewrite <- R1 in E2.
      destruct (K2 _ _ E2) as (s2 & F2 & A2). exists s2. auto.
Qed.

Lemma reads_handed is_str x : reads (handed is_str x) [] (Ok tt).
Proof.
  intros s Hs. split.
  - intros t Ht. eexists. split; [reflexivity|]. cbn. change (zlen (@nil Z)) with 0.
    pose proof (adv_refl ar s Hs) as A. exact A.
  - intros c q E. destruct (rest s); discriminate.
Qed.

Lemma reads_try_int k z : reads (try_int k z) [] (match try_from k z with Some v => Ok v | None => Err InvalidInteger end).
Proof. unfold try_int. destruct (try_from k z); [apply reads_ret|apply reads_fail]. Qed.

Ltac code := apply reads_cons; consts; ifs; try (exfalso; lia).

(** C23 core: any integer encoding is read exactly or rejected. *)
Lemma reads_parse_integer k z bs : int_fmt z bs ->
  reads (parse_integer ar k) bs (if in_ikindb k z then Ok z else Err InvalidInteger).
Proof.
  intros H. unfold parse_integer.
  assert (T : forall x, reads (try_int k x) [] (if in_ikindb k x then Ok x else Err InvalidInteger)).
  { intros x. pose proof (reads_try_int k x) as T. unfold try_from in T. destruct (in_ikindb k x); auto. }
  inversion H; subst; code.
  1,2: replace (to_signed 8 _) with z by (unfold to_signed; ifs; change (2 ^ (8 - 1)) with 128; change (2 ^ 8) with 256; lia); apply T.
  all: eapply reads_bind_end;
       [first [apply reads_u8; eassumption|apply reads_u16; eassumption|apply reads_u32; eassumption|apply reads_u64; eassumption
              |apply reads_i8; eassumption|apply reads_i16; eassumption|apply reads_i32; eassumption|apply reads_i64; eassumption]|apply T].
Qed.

Lemma reads_fetch_num conv z c bs : int_fmt z (c :: bs) -> reads (fetch_num ar c conv) bs (Ok (conv z)).
Proof.
  intros H. unfold fetch_num. remember (c :: bs) as l eqn:El.
  destruct H; apply cons_inj in El; destruct El as [<- <-]; consts; ifs; try (exfalso; lia).
  1,2: match goal with |- MpDeView.reads _ (dret (?cv ?a)) _ (Ok (?cv ?b)) => replace a with b by (unfold to_signed; ifs; change (2 ^ (8 - 1)) with 128; change (2 ^ 8) with 256; lia) end; apply reads_ret.
  all: eapply reads_bind_end;
       [first [apply reads_u8; eassumption|apply reads_u16; eassumption|apply reads_u32; eassumption|apply reads_u64; eassumption
              |apply reads_i8; eassumption|apply reads_i16; eassumption|apply reads_i32; eassumption|apply reads_i64; eassumption]|apply reads_ret].
Qed.

(** Strings: [k] may look at the bytes only. *)
Lemma reads_str {A} (k : sl -> M A) s h r : valid_utf8 s -> str_hdr (zlen s) h ->
  (forall o, reads (k {| sl_off := o; sl_data := s |}) [] r) ->
  reads (dbind (parse_str ar) k) (h ++ s) r.
Proof.
  intros Hu Hh Hk. apply from_utf8_ok_spec in Hu.
  assert (Hbody : reads (dbind (split_input (zlen s)) (fun x => dbind (if from_utf8_ok (sl_data x) then dret x else dfail InvalidUnicodeCodePoint) k)) s r).
  { apply reads_nil_r. apply reads_split. intros o. cbn [sl_data]. rewrite Hu.
    eapply reads_ext; [|apply Hk]. intros s0. reflexivity. }
  eapply reads_ext with (m := dbind (fetch ar) (fun c => dbind (if between FIXSTR FIXSTR_MAX c then dret (Z.land c MAX_FIXSTR_SIZE)
           else if c =? STR_8 then fetch_u8 ar
           else if c =? STR_16 then fetch_u16 ar
           else if c =? STR_32 then dbind (fetch_u32 ar) (fun n => try_usize ar n)
           else dfail ExpectedString) (fun len => dbind (split_input len) (fun x => dbind (if from_utf8_ok (sl_data x) then dret x else dfail InvalidUnicodeCodePoint) k)))).
  { intros s0. unfold parse_str, dbind.
    repeat match goal with |- context [match ?x with _ => _ end] => match x with context [match _ with _ => _ end] => fail 1 | _ => destruct x end end; reflexivity. }
  inversion Hh; subst; cbn [app]; code.
  - rewrite land_31 by (auto; reflexivity). eapply reads_bind_nil; [apply reads_ret|]. exact Hbody.
  - eapply reads_bind; [apply reads_u8; eassumption|]. exact Hbody.
  - eapply reads_bind; [apply reads_u16; eassumption|]. exact Hbody.
  - eapply reads_bind; [apply reads_usize; eassumption|]. exact Hbody.
Qed.

Lemma reads_bytes {A} (k : sl -> M A) s h r : bin_hdr (zlen s) h ->
  (forall o, reads (k {| sl_off := o; sl_data := s |}) [] r) ->
  reads (dbind (parse_bytes ar) k) (h ++ s) r.
Proof.
  intros Hh Hk.
  assert (Hbody : reads (dbind (split_input (zlen s)) k) s r).
  { apply reads_nil_r. apply reads_split. exact Hk. }
  eapply reads_ext with (m := dbind (fetch ar) (fun c => dbind (if c =? BIN_8 then fetch_u8 ar
           else if c =? BIN_16 then fetch_u16 ar
           else if c =? BIN_32 then dbind (fetch_u32 ar) (fun n => try_usize ar n)
           else dfail ExpectedBin) (fun len => dbind (split_input len) k))).
  { intros s0. unfold parse_bytes, dbind.
    repeat match goal with |- context [match ?x with _ => _ end] => match x with context [match _ with _ => _ end] => fail 1 | _ => destruct x end end; reflexivity. }
  inversion Hh; subst; cbn [app]; code.
  - eapply reads_bind; [apply reads_u8; eassumption|]. exact Hbody.
  - eapply reads_bind; [apply reads_u16; eassumption|]. exact Hbody.
  - eapply reads_bind; [apply reads_usize; eassumption|]. exact Hbody.
Qed.

(** ** [eat_message] *)
Lemma reads_eat_single bs : zlen bs <= 2 ^ 32 -> reads (eat_single ar (zlen bs)) bs (Ok tt).
Proof.
  intros Hn s Hs Hf. unfold fits, wide in Hf. pose proof (rest_length _ _ Hs) as L. pose proof (zlen_nonneg bs).
  unfold eat_single, dbind, get_index. rewrite uadd_run by (destruct Hs as [? ?]; lia). cbv iota beta. split.
  - intros t Ht. rewrite Ht, zlen_app in L. pose proof (zlen_nonneg t).
    destruct (zlen (sl_data (d_input s)) <? d_index s + zlen bs) eqn:E; [lia|].
    eexists. split; [reflexivity|]. apply adv_index; auto. rewrite Ht, zlen_app. lia.
  - intros c q E. assert (zlen bs = zlen (rest s) + 1 + zlen q) by (rewrite E, zlen_app, zlen_cons; lia).
    pose proof (zlen_nonneg q).
    destruct (zlen (sl_data (d_input s)) <? d_index s + zlen bs) eqn:E'; [|lia]. exists s. auto.
Qed.

Lemma reads_uadd {A} a b (k : Z -> M A) bs r : a + b <= usize_max ar -> reads (k (a + b)) bs r ->
  reads (dbind (uadd ar a b) k) bs r.
Proof. intros H Hk s Hs Hf. unfold dbind. rewrite uadd_run by auto. apply Hk; auto. Qed.

Definition eat_rest f (t : msg_type) : M unit :=
  match t with
  | Single len => eat_single ar len
  | Array len => eat_items ar f false len
  | Map len => eat_items ar f true len
  end.

Lemma eat_message_S f : eat_message ar (S f) = dbind (eat_header ar) (eat_rest f).
Proof. reflexivity. Qed.

Lemma dbind_assoc {A B C} (m : M A) (k : A -> M B) (h : B -> M C) s :
  dbind (dbind m k) h s = dbind m (fun x => dbind (k x) h) s.
Proof. unfold dbind. destruct (m s) as [s' [a|e]| |]; auto. Qed.

Lemma dbind_ext {A B} (m : M A) (k k' : A -> M B) s : (forall a s, k a s = k' a s) -> dbind m k s = dbind m k' s.
Proof. intros H. unfold dbind. destruct (m s) as [s' [a|e]| |]; auto. Qed.

Lemma dbind_if {A B} (b : bool) (m m' : M A) (k : A -> M B) s :
  dbind (if b then m else m') k s = (if b then dbind m k else dbind m' k) s.
Proof. destruct b; auto. Qed.

Lemma reads_assoc {A B C} (m : M A) (k : A -> M B) (h : B -> M C) bs r :
  reads (dbind m (fun x => dbind (k x) h)) bs r -> reads (dbind (dbind m k) h) bs r.
Proof. apply reads_ext. intros s. symmetry. apply dbind_assoc. Qed.

Lemma reads_ret_bind {A B} (a : A) (k : A -> M B) bs r : reads (k a) bs r -> reads (dbind (dret a) k) bs r.
Proof. apply reads_ext. reflexivity. Qed.

(** One header case: pick the arm. *)
Ltac hdr := unfold eat_header; apply reads_assoc; apply reads_cons; consts; ifs; apply reads_assoc.

End Reads.

(** What the MessagePack serializers output, against [MpSpec]. *)
From Verif Require Import Prelude PreludeFacts Utf8Spec Utf8 Utf8Facts Writer SerMonad SerdeSer
  MpSpec MpSer MpErrMap MpSerSim.
Ltac Zify.zify_post_hook ::= Z.div_mod_to_equations.

Section P.
Context {E : Type}.
Local Notation X := (mp_ser_error E).
Local Notation VW := (@VecWriter E).

(** On the list writer: [m] appends [out] and returns [r]. *)
Definition emits {A} (m : SM bytes X A) (out : bytes) (r : result A X) : Prop :=
  forall w, m w = (w ++ out, r).
Definition errs {A} (m : SM bytes X A) : Prop := exists out e, emits m out (Err e).

Lemma emits_ret {A} (a : A) : emits (sret a) [] (Ok a).
Proof. intros w. rewrite app_nil_r. auto. Qed.
Lemma emits_fail {A} e : emits (@sfail bytes X A e) [] (Err e).
Proof. intros w. rewrite app_nil_r. auto. Qed.
Lemma emits_bind {A B} (m : SM bytes X A) (f : A -> SM bytes X B) o1 a o2 r :
  emits m o1 (Ok a) -> emits (f a) o2 r -> emits (sbind m f) (o1 ++ o2) r.
Proof. intros H1 H2 w. unfold sbind. rewrite H1, H2, app_assoc. auto. Qed.
Lemma emits_bind_err {A B} (m : SM bytes X A) (f : A -> SM bytes X B) o1 e :
  emits m o1 (Err e) -> emits (sbind m f) o1 (Err e).
Proof. intros H1 w. unfold sbind. rewrite H1. auto. Qed.
Lemma errs_bind1 {A B} (m : SM bytes X A) (f : A -> SM bytes X B) : errs m -> errs (sbind m f).
Proof. intros (o & e & H). exists o, e. apply emits_bind_err; auto. Qed.
Lemma errs_bind2 {A B} (m : SM bytes X A) (f : A -> SM bytes X B) o a :
  emits m o (Ok a) -> errs (f a) -> errs (sbind m f).
Proof. intros H (o2 & e & H2). exists (o ++ o2), e. eapply emits_bind; eauto. Qed.
Lemma errs_fail {A} e : errs (@sfail bytes X A e).
Proof. exists [], e. apply emits_fail. Qed.

Lemma emits_w bs : emits (write VW bs) bs (Ok tt).
Proof. intros w. reflexivity. Qed.
Lemma emits_wb b : emits (write_byte VW b) [b] (Ok tt).
Proof. intros w. reflexivity. Qed.
Lemma emits_ws bs : emits (out_write_str VW bs) bs (Ok tt).
Proof. intros w. reflexivity. Qed.
Lemma emits_wbw b bs : emits (sbind (write_byte VW b) (fun _ => write VW bs)) (b :: bs) (Ok tt).
Proof. intros w. cbn. rewrite <- app_assoc. auto. Qed.
Lemma emits_wbwb b c : emits (sbind (write_byte VW b) (fun _ => write_byte VW c)) [b; c] (Ok tt).
Proof. intros w. cbn. rewrite <- app_assoc. auto. Qed.

Lemma uint_be_bytes n x : 0 <= x < 256 ^ Z.of_nat n -> uint_be n x (be_bytes n x).
Proof.
  intros. repeat split; auto using be_bytes_length, be_bytes_all. apply be_val_be_bytes_small; auto.
Qed.
Lemma uint_be_byte x : is_byte x -> uint_be 1 x [x].
Proof. intros. unfold uint_be. split; [auto|]. split; [constructor; auto|]. unfold be_val. cbn. lia. Qed.
Lemma int_be_bytes n x b : b = 8 * Z.of_nat n -> 0 < b -> - 2 ^ (b - 1) <= x < 2 ^ (b - 1) ->
  int_be n x (be_bytes n (x mod 2 ^ b)).
Proof.
  intros -> Hn H. repeat split; auto using be_bytes_length, be_bytes_all.
  assert (E1 : 256 ^ Z.of_nat n = 2 ^ (8 * Z.of_nat n)) by (rewrite Z.pow_mul_r by lia; reflexivity).
  assert (E2 : 2 ^ (8 * Z.of_nat n) = 2 * 2 ^ (8 * Z.of_nat n - 1)).
  { rewrite <- Z.pow_succ_r by lia. f_equal. lia. }
  pose proof (Z.mod_pos_bound x (2 ^ (8 * Z.of_nat n))).
  rewrite be_val_be_bytes_small by lia.
  unfold to_signed. destruct (_ <? _) eqn:L.
  - assert (0 <= x) by (destruct (Z.lt_ge_cases x 0); [|auto];
      rewrite <- (Z_mod_plus_full x 1) in L; rewrite Z.mod_small in L by lia; lia).
    apply Z.mod_small. lia.
  - assert (x < 0) by (destruct (Z.lt_ge_cases x 0); [auto|]; rewrite Z.mod_small in L by lia; lia).
    rewrite <- (Z_mod_plus_full x 1), Z.mod_small by lia. lia.
Qed.
Lemma int_be_byte x : -128 <= x < 128 -> int_be 1 x [as_u8 x].
Proof.
  intros. repeat split; auto.
  - constructor; [|constructor]. unfold as_u8, is_byte. lia.
  - unfold to_signed, be_val, as_u8. cbn [fold_left].
    change (2 ^ (8 * Z.of_nat 1 - 1)) with 128. change (2 ^ (8 * Z.of_nat 1)) with 256.
    destruct (_ <? _) eqn:L; lia.
Qed.

Lemma uint_be_range n x h : uint_be n x h -> 0 <= x < 256 ^ Z.of_nat n /\ length h = n.
Proof. intros (<- & H2 & <-). split; auto. apply (be_val_bound h H2). Qed.

Lemma int_be_range n x h : (0 < n)%nat -> int_be n x h ->
  - 2 ^ (8 * Z.of_nat n - 1) <= x < 2 ^ (8 * Z.of_nat n - 1) /\ length h = n.
Proof.
  intros Hn (<- & H2 & <-). split; auto. pose proof (be_val_bound h H2) as B. unfold zlen in B.
  assert (E1 : 256 ^ Z.of_nat (length h) = 2 ^ (8 * Z.of_nat (length h))) by (rewrite Z.pow_mul_r by lia; reflexivity).
  assert (E2 : 2 ^ (8 * Z.of_nat (length h)) = 2 * 2 ^ (8 * Z.of_nat (length h) - 1)).
  { rewrite <- Z.pow_succ_r by lia. f_equal. lia. }
  unfold to_signed. destruct (_ <? _) eqn:L; lia.
Qed.

Lemma lor_fix k n : k = 0xa0 \/ k = 0x90 \/ k = 0x80 ->
  0 <= n < (if k =? 0xa0 then 32 else 16) -> Z.lor k (as_u8 n) = k + n.
Proof.
  intros Hk Hn. unfold as_u8. rewrite Z.mod_small by (destruct (k =? 160); lia).
  rewrite Z.lor_comm. destruct Hk as [->|[->| ->]]; cbn [Z.eqb Pos.eqb] in Hn.
  - rewrite (lor_add_small 5); [lia|change (2^5) with 32; lia|lia|reflexivity|lia].
  - rewrite (lor_add_small 4); [lia|change (2^4) with 16; lia|lia|reflexivity|lia].
  - rewrite (lor_add_small 4); [lia|change (2^4) with 16; lia|lia|reflexivity|lia].
Qed.

Ltac inv H := inversion H; subst; clear H.
Ltac tf_case k n E :=
  let H := fresh "R" in
  destruct (try_from k n) eqn:E;
    [apply try_from_some in E; destruct E as [-> H]; unfold in_ikind in H; cbn [imin imax] in H
    |apply try_from_none in E; unfold in_ikind in E; cbn [imin imax] in E].

Ltac minlen H :=
  inv H;
  repeat match goal with
  | U : uint_be _ _ _ |- _ => apply uint_be_range in U
  | U : int_be _ _ _ |- _ => apply int_be_range in U; [|lia]
  end;
  cbn [length] in *; rewrite ?be_bytes_length;
  repeat match goal with U : _ /\ length _ = _ |- _ => let A := fresh in let B := fresh in destruct U as [A B]; rewrite ?B; cbn in A end;
  lia.

Lemma str_len_ok n : 0 <= n < 2 ^ 32 ->
  exists h, emits (write_str_len VW n) h (Ok tt) /\ str_hdr n h /\
    forall h', str_hdr n h' -> (length h <= length h')%nat.
Proof.
  intros H. unfold write_str_len, MAX_FIXSTR_SIZE, FIXSTR.
  destruct (n <=? 0x1f) eqn:L.
  { exists [0xa0 + n]. rewrite lor_fix; [|auto|cbn; lia]. split; [apply emits_wb|]. split; [constructor; lia|].
    intros h' H'. inv H'; cbn; lia. }
  tf_case U8 n E1.
  { eexists. split; [apply emits_wbwb|]. split; [apply SH_8, uint_be_byte; unfold is_byte; lia|].
    intros h' H'. minlen H'. }
  tf_case U16 n E2.
  { eexists. split; [apply emits_wbw|]. split; [apply SH_16, uint_be_bytes; cbn; lia|].
    intros h' H'. minlen H'. }
  tf_case U32 n E3.
  { eexists. split; [apply emits_wbw|]. split; [apply SH_32, uint_be_bytes; cbn; lia|].
    intros h' H'. minlen H'. }
  lia.
Qed.

Lemma str_len_err n : 2 ^ 32 <= n -> emits (write_str_len VW n) [] (Err MStrLength).
Proof.
  intros H. unfold write_str_len, MAX_FIXSTR_SIZE.
  replace (n <=? _) with false by lia.
  tf_case U8 n E1; [lia|]. tf_case U16 n E2; [lia|]. tf_case U32 n E3; [lia|]. apply emits_fail.
Qed.

Lemma array_len_ok n : 0 <= n < 2 ^ 32 ->
  exists h, emits (write_array_len VW n) h (Ok tt) /\ arr_hdr n h /\
    forall h', arr_hdr n h' -> (length h <= length h')%nat.
Proof.
  intros H. unfold write_array_len, MAX_FIXARRAY_SIZE, FIXARRAY.
  destruct (n <=? 0xf) eqn:L.
  { exists [0x90 + n]. rewrite lor_fix; [|auto|cbn; lia]. split; [apply emits_wb|]. split; [constructor; lia|].
    intros h' H'. inv H'; cbn; lia. }
  tf_case U16 n E2.
  { eexists. split; [apply emits_wbw|]. split; [apply AH_16, uint_be_bytes; cbn; lia|].
    intros h' H'. minlen H'. }
  tf_case U32 n E3.
  { eexists. split; [apply emits_wbw|]. split; [apply AH_32, uint_be_bytes; cbn; lia|].
    intros h' H'. minlen H'. }
  lia.
Qed.

Lemma array_len_err n : 2 ^ 32 <= n -> emits (write_array_len VW n) [] (Err MSeqLength).
Proof.
  intros H. unfold write_array_len, MAX_FIXARRAY_SIZE.
  replace (n <=? _) with false by lia.
  tf_case U16 n E2; [lia|]. tf_case U32 n E3; [lia|]. apply emits_fail.
Qed.

Lemma map_len_ok n : 0 <= n < 2 ^ 32 ->
  exists h, emits (write_map_len VW n) h (Ok tt) /\ map_hdr n h /\
    forall h', map_hdr n h' -> (length h <= length h')%nat.
Proof.
  intros H. unfold write_map_len, MAX_FIXMAP_SIZE, FIXMAP.
  destruct (n <=? 0xf) eqn:L.
  { exists [0x80 + n]. rewrite lor_fix; [|auto|cbn; lia]. split; [apply emits_wb|]. split; [constructor; lia|].
    intros h' H'. inv H'; cbn; lia. }
  tf_case U16 n E2.
  { eexists. split; [apply emits_wbw|]. split; [apply MH_16, uint_be_bytes; cbn; lia|].
    intros h' H'. minlen H'. }
  tf_case U32 n E3.
  { eexists. split; [apply emits_wbw|]. split; [apply MH_32, uint_be_bytes; cbn; lia|].
    intros h' H'. minlen H'. }
  lia.
Qed.

Lemma map_len_err n : 2 ^ 32 <= n -> emits (write_map_len VW n) [] (Err MMapLength).
Proof.
  intros H. unfold write_map_len, MAX_FIXMAP_SIZE.
  replace (n <=? _) with false by lia.
  tf_case U16 n E2; [lia|]. tf_case U32 n E3; [lia|]. apply emits_fail.
Qed.

(** [out] is a shortest encoding of [m]. *)
Definition best (m : mpv) (out : bytes) : Prop :=
  mp_fmt m out /\ forall b, mp_fmt m b -> (length out <= length b)%nat.
Definition best_list (ms : list mpv) (out : bytes) : Prop :=
  mp_fmt_list ms out /\ forall b, mp_fmt_list ms b -> (length out <= length b)%nat.
Definition best_pairs (ms : list (mpv * mpv)) (out : bytes) : Prop :=
  mp_fmt_pairs ms out /\ forall b, mp_fmt_pairs ms b -> (length out <= length b)%nat.

Lemma int_ok k z : in_ikind k z ->
  exists b, emits (serialize_int VW k z) b (Ok tt) /\ int_fmt z b /\
    forall b', int_fmt z b' -> (length b <= length b')%nat.
Proof.
  assert (Hpos : forall z, 0 <= z < 128 -> emits (write_byte VW (as_u8 z)) [z] (Ok tt)).
  { intros x Hx. unfold as_u8. rewrite Z.mod_small by lia. apply emits_wb. }
  assert (Hneg : forall z, -32 <= z < 0 -> emits (write_byte VW (as_u8 z)) [256 + z] (Ok tt)).
  { intros x Hx. unfold as_u8. rewrite <- (Z_mod_plus_full x 1), Z.mod_small by lia.
    replace (x + 1 * 256) with (256 + x) by lia. apply emits_wb. }
  assert (Hfix : forall z, -32 <= z < 128 -> exists b, emits (write_byte VW (as_u8 z)) b (Ok tt) /\ int_fmt z b /\
     forall b', int_fmt z b' -> (length b <= length b')%nat).
  { intros x Hx. destruct (Z.lt_ge_cases x 0).
    - eexists. split; [apply Hneg; lia|]. split; [constructor; lia|]. intros b' Hb. minlen Hb.
    - eexists. split; [apply Hpos; lia|]. split; [constructor; lia|]. intros b' Hb. minlen Hb. }
  intros R. unfold in_ikind in R. cbn [imin imax] in R.
  destruct k; cbn [serialize_int imin imax] in *;
    unfold serialize_i8, serialize_i16, serialize_i32, serialize_i64,
           serialize_u8, serialize_u16, serialize_u32, serialize_u64, write_u32,
           fixint_contains, MIN_NEGFIXINT, MAX_POSFIXINT.
  1-4: (match goal with |- context [if ?b then _ else _] => destruct b eqn:L end; [apply Hfix; lia|]).
  5-8: (match goal with |- context [if ?b then _ else _] => destruct b eqn:L end;
        [first [apply Hfix; lia | (eexists; split; [apply emits_wb|]; split; [constructor; lia|]; intros b' Hb; minlen Hb)]|]).
  all: repeat match goal with |- context [match try_from ?k ?v with _ => _ end] =>
         let EE := fresh "EE" in tf_case k v EE end.
  all: eexists; (split; [apply emits_wbw || apply emits_wbwb|]).
  all: (split;
    [ first [ apply IF_u8, uint_be_byte; unfold is_byte; lia
            | apply IF_i8, int_be_byte; lia
            | apply IF_u16, uint_be_bytes; cbn; lia
            | apply IF_u32, uint_be_bytes; cbn; lia
            | apply IF_u64, uint_be_bytes; cbn; lia
            | apply IF_i16, (int_be_bytes 2 _ 16); [reflexivity|lia|cbn; lia]
            | apply IF_i32, (int_be_bytes 4 _ 32); [reflexivity|lia|cbn; lia]
            | apply IF_i64, (int_be_bytes 8 _ 64); [reflexivity|lia|cbn; lia] ]
    | intros b' Hb; minlen Hb ]).
Qed.

(** ** Sequences, maps and structs *)
Variables (cfg : mp_cfg) (fl : flavour).
Local Notation st := (style_of fl).

Definition okm (m : SM bytes X unit) (v : mpv) : Prop := exists out, emits m out (Ok tt) /\ best v out.
Definition good (m : SM bytes X unit) (o : option mpv) : Prop :=
  match o with Some v => okm m v | None => errs m end.

Lemma best_list_nil : best_list [] [].
Proof. split; [constructor|]. intros; cbn; lia. Qed.
Lemma best_pairs_nil : best_pairs [] [].
Proof. split; [constructor|]. intros; cbn; lia. Qed.
Lemma best_list_cons v l a b : best v a -> best_list l b -> best_list (v :: l) (a ++ b).
Proof.
  intros [H1 M1] [H2 M2]. split; [constructor; auto|].
  intros c Hc. inv Hc. rewrite !app_length.
  match goal with A : mp_fmt _ ?x, B : mp_fmt_list _ ?y |- (_ <= length ?x + length ?y)%nat =>
    specialize (M1 _ A); specialize (M2 _ B) end. lia.
Qed.
Lemma best_pairs_cons k v l a b c : best k a -> best v b -> best_pairs l c -> best_pairs ((k, v) :: l) (a ++ b ++ c).
Proof.
  intros [H1 M1] [H2 M2] [H3 M3]. split; [constructor; auto|].
  intros d Hd. inv Hd. rewrite !app_length.
  match goal with A : mp_fmt _ ?x, B : mp_fmt _ ?y, C : mp_fmt_pairs _ ?z |- (_ <= length ?x + (length ?y + length ?z))%nat =>
    specialize (M1 _ A); specialize (M2 _ B); specialize (M3 _ C) end. lia.
Qed.
Lemma best_arr l h bs : arr_hdr (zlen l) h -> (forall h', arr_hdr (zlen l) h' -> (length h <= length h')%nat) ->
  best_list l bs -> best (VArr l) (h ++ bs).
Proof.
  intros H M [H2 M2]. split; [constructor; auto|]. intros b Hb. inv Hb. rewrite !app_length.
  match goal with A : arr_hdr _ ?x, B : mp_fmt_list _ ?y |- (_ <= length ?x + length ?y)%nat =>
    specialize (M _ A); specialize (M2 _ B) end. lia.
Qed.
Lemma best_map l h bs : map_hdr (zlen l) h -> (forall h', map_hdr (zlen l) h' -> (length h <= length h')%nat) ->
  best_pairs l bs -> best (VMap l) (h ++ bs).
Proof.
  intros H M [H2 M2]. split; [constructor; auto|]. intros b Hb. inv Hb. rewrite !app_length.
  match goal with A : map_hdr _ ?x, B : mp_fmt_pairs _ ?y |- (_ <= length ?x + length ?y)%nat =>
    specialize (M _ A); specialize (M2 _ B) end. lia.
Qed.

Lemma best_int z b : int_fmt z b -> (forall b', int_fmt z b' -> (length b <= length b')%nat) -> best (VInt z) b.
Proof. intros H M. split; [constructor; auto|]. intros b' Hb. inv Hb. auto. Qed.

Lemma good_int k z : in_ikind k z -> good (serialize_int VW k z) (Some (VInt z)).
Proof. intros H. destruct (int_ok k z H) as (b & H1 & H2 & H3). exists b. auto using best_int. Qed.

Lemma good_str s : all_bytes s -> good (write_str VW s) (doc_str s).
Proof.
  intros Hs. unfold doc_str, lt32, write_str. assert (0 <= zlen s) by (unfold zlen; lia).
  destruct (_ && _) eqn:L.
  - destruct (str_len_ok (zlen s)) as (h & E1 & H1 & M1); [lia|].
    exists (h ++ s). split; [eapply emits_bind; eauto using emits_ws|].
    split; [constructor; auto|]. intros b Hb. inv Hb. rewrite !app_length.
    match goal with A : str_hdr _ ?x |- (_ <= length ?x + _)%nat => specialize (M1 _ A) end. lia.
  - apply errs_bind1. exists [], MStrLength. apply str_len_err. lia.
Qed.

Lemma good_bytes s : all_bytes s -> good (serialize_bytes VW s) (if lt32 (zlen s) then Some (VBin s) else None).
Proof.
  intros Hs. unfold lt32, serialize_bytes. assert (0 <= zlen s) by (unfold zlen; lia).
  set (n := zlen s) in *.
  destruct (_ && _) eqn:L.
  - assert (exists h, emits (match try_from U8 n with
   | Some size => sbind (write_byte VW BIN_8) (fun _ => write_byte VW size)
   | None => match try_from U16 n with
   | Some size => sbind (write_byte VW BIN_16) (fun _ => write VW (be_bytes 2 size))
   | None => match try_from U32 n with
   | Some size => sbind (write_byte VW BIN_32) (fun _ => write VW (be_bytes 4 size))
   | None => sfail MDataLength
   end end end) h (Ok tt) /\ bin_hdr n h /\ forall h', bin_hdr n h' -> (length h <= length h')%nat) as (h & E1 & H1 & M1).
    { tf_case U8 n E1.
      { eexists. split; [apply emits_wbwb|]. split; [apply BH_8, uint_be_byte; unfold is_byte; lia|].
        intros h' H'. minlen H'. }
      tf_case U16 n E2.
      { eexists. split; [apply emits_wbw|]. split; [apply BH_16, uint_be_bytes; cbn; lia|].
        intros h' H'. minlen H'. }
      tf_case U32 n E3.
      { eexists. split; [apply emits_wbw|]. split; [apply BH_32, uint_be_bytes; cbn; lia|].
        intros h' H'. minlen H'. }
      lia. }
    exists (h ++ s). split; [eapply emits_bind; eauto using emits_w|].
    split; [constructor; auto|]. intros b Hb. inv Hb. rewrite !app_length.
    match goal with A : bin_hdr _ ?x |- (_ <= length ?x + _)%nat => specialize (M1 _ A) end. lia.
  - apply errs_bind1. tf_case U8 n E1; [lia|]. tf_case U16 n E2; [lia|]. tf_case U32 n E3; [lia|].
    apply errs_fail.
Qed.

Lemma dec_ok n e : 1 <= n -> emits (@checked_dec bytes E n e) [] (Ok (n - 1)).
Proof. intros. unfold checked_dec. replace (n <? 1) with false by lia. apply emits_ret. Qed.
Lemma dec_err n e : n < 1 -> emits (@checked_dec bytes E n e) [] (Err e).
Proof. intros. unfold checked_dec. replace (n <? 1) with true by lia. apply emits_fail. Qed.

Lemma zlen_nonneg {A} (l : list A) : 0 <= zlen l.
Proof. unfold zlen. lia. Qed.
Lemma zlen_cons {A} (a : A) l : zlen (a :: l) = 1 + zlen l.
Proof. unfold zlen. cbn [length]. lia. Qed.

Lemma items_good (f : sval -> SM bytes X unit) (g : sval -> option mpv) l :
  Forall (fun x => good (f x) (g x)) l ->
  match omap g l with
  | Some vs => forall n, 0 <= n ->
      (zlen vs <= n -> exists out, emits (ser_items f l n) out (Ok (n - zlen vs)) /\ best_list vs out) /\
      (n < zlen vs -> errs (ser_items f l n))
  | None => forall n, errs (ser_items f l n)
  end.
Proof.
  induction 1 as [|x l Hx Hl IH]; cbn [omap ser_items].
  { intros n Hn. change (zlen []) with 0. split; intros; [|lia].
    exists []. split; [|apply best_list_nil]. replace (n - 0) with n by lia. apply emits_ret. }
  unfold seq_serialize_element.
  assert (D : forall n, n < 1 -> errs (ser_items f (x :: l) n)).
  { intros n Hn. cbn. apply errs_bind1, errs_bind1. eexists _, _. apply dec_err. lia. }
  destruct (g x) as [v|].
  - destruct Hx as (o1 & E1 & B1).
    assert (S1 : forall n, 1 <= n -> emits (seq_serialize_element (f x) n) o1 (Ok (n - 1))).
    { intros n Hn. unfold seq_serialize_element. rewrite <- (app_nil_l o1), <- (app_nil_r o1).
      eapply emits_bind; [apply dec_ok; auto|]. eapply emits_bind; eauto using emits_ret. }
    destruct (omap g l) as [vs|].
    + intros n Hn. rewrite zlen_cons. pose proof (zlen_nonneg vs). split; intros Hn'.
      * destruct (IH (n - 1) ltac:(lia)) as [IH1 _]. destruct IH1 as (o2 & E2 & B2); [lia|].
        exists (o1 ++ o2). split; [|apply best_list_cons; auto].
        replace (n - (1 + zlen vs)) with (n - 1 - zlen vs) by lia.
        eapply emits_bind; [apply S1; lia|auto].
      * destruct (Z.lt_ge_cases n 1); [apply D; auto|].
        eapply errs_bind2; [apply S1; auto|]. apply IH; lia.
    + intros n. destruct (Z.lt_ge_cases n 1); [apply D; auto|].
      eapply errs_bind2; [apply S1; auto|]. apply IH; lia.
  - intros n. destruct (Z.lt_ge_cases n 1); [apply D; auto|].
    apply errs_bind1. eapply errs_bind2; [apply dec_ok; auto|]. apply errs_bind1. auto.
Qed.

Lemma array_good l len f g (hdr : SM bytes X Z) : 0 <= len ->
  hdr = sbind (write_array_len VW len) (fun _ => sret len) ->
  Forall (fun x => good (f x) (g x)) l ->
  good (sbind hdr (fun n => sbind (ser_items f l n) (fun n => seq_end n))) (doc_array len (omap g l)).
Proof.
  intros Hl -> HF. pose proof (items_good f g l HF) as HI. unfold doc_array, lt32.
  destruct (Z.lt_ge_cases len (2 ^ 32)) as [L|L].
  - destruct (array_len_ok len) as (h & E1 & H1 & M1); [lia|].
    assert (EH : emits (sbind (write_array_len VW len) (fun _ => @sret bytes X Z len)) h (Ok len)).
    { rewrite <- (app_nil_r h). eapply emits_bind; eauto using emits_ret. }
    destruct (omap g l) as [vs|].
    + destruct (HI len Hl) as [HI1 HI2]. destruct (Z.lt_ge_cases len (zlen vs)).
      * replace (len =? zlen vs) with false by lia. cbn [andb].
        eapply errs_bind2; [exact EH|]. apply errs_bind1. apply HI2; lia.
      * destruct HI1 as (o & E2 & B2); [lia|].
        destruct (len =? zlen vs) eqn:LL.
        -- replace (_ && _) with true by lia.
           assert (Hv : len = zlen vs) by lia. rewrite Hv in H1, M1.
           exists (h ++ o). split; [|apply best_arr; auto].
           eapply emits_bind; [exact EH|]. rewrite <- (app_nil_r o). eapply emits_bind; [exact E2|].
           unfold seq_end. replace (_ =? 0) with true by lia. apply emits_ret.
        -- cbn [andb]. eapply errs_bind2; [exact EH|]. eapply errs_bind2; [exact E2|].
           unfold seq_end. replace (_ =? 0) with false by lia. apply errs_fail.
    + eapply errs_bind2; [exact EH|]. apply errs_bind1. apply HI.
  - assert (errs (sbind (sbind (write_array_len VW len) (fun _ => sret len)) (fun n : Z => sbind (ser_items f l n) (fun n => seq_end n)))).
    { apply errs_bind1, errs_bind1. eexists _, _. apply array_len_err. auto. }
    destruct (omap g l); [|auto]. replace (_ && _) with false by lia. auto.
Qed.

(** Maps: a well-formed alternation of keys and values. *)
Lemma entries_good (f : sval -> SM bytes X unit) (g : sval -> option mpv) l ps :
  Forall (fun x => good (f (snd x)) (g (snd x))) l -> pair_up l = Some ps ->
  match omap (fun o => option_map (pair (fst o)) (g (snd o))) l with
  | Some vs => exists kvs, pair_up vs = Some kvs /\ forall n, 0 <= n ->
      (zlen kvs <= n -> exists out, emits (ser_entries f l n) out (Ok (n - zlen kvs)) /\ best_pairs kvs out) /\
      (n < zlen kvs -> errs (ser_entries f l n))
  | None => forall n, errs (ser_entries f l n)
  end.
Proof.
  revert ps. induction l as [l IH] using list_ind_strong. intros ps HF HP.
  destruct l as [|[[] k] l]; cbn in HP; try discriminate.
  { cbn. eexists. split; eauto. intros n Hn. change (zlen []) with 0. split; intros; [|lia].
    exists []. split; [|apply best_pairs_nil]. replace (n - 0) with n by lia. apply emits_ret. }
  destruct l as [|[[] v] l]; try discriminate.
  destruct (pair_up l) as [ps'|] eqn:PU; try discriminate.
  inv HF. match goal with HH : Forall _ (_ :: _) |- _ => inv HH end.
  cbn [snd] in *.
  match goal with HH : Forall _ l |- _ => specialize (IH l ltac:(cbn; lia) ps' HH PU) end.
  match goal with A : good (f k) _, B : good (f v) _ |- _ => rename A into Hk; rename B into Hv end.
  cbn [omap fst snd]. 
  assert (D : forall n, n < 1 -> errs (ser_entries f ((true, k) :: (false, v) :: l) n)).
  { intros n Hn. cbn. apply errs_bind1, errs_bind1. eexists _, _. apply dec_err. lia. }
  destruct (g k) as [mk|]; cbn [option_map].
  2: { intros n. destruct (Z.lt_ge_cases n 1); [apply D; auto|]. cbn [ser_entries].
       apply errs_bind1. eapply errs_bind2; [apply dec_ok; auto|]. apply errs_bind1. auto. }
  destruct Hk as (o1 & E1 & B1).
  assert (S1 : forall n, 1 <= n -> emits (map_serialize_key (f k) n) o1 (Ok (n - 1))).
  { intros n Hn. unfold map_serialize_key. rewrite <- (app_nil_l o1), <- (app_nil_r o1).
    eapply emits_bind; [apply dec_ok; auto|]. eapply emits_bind; eauto using emits_ret. }
  destruct (g v) as [mv|]; cbn [option_map].
  2: { intros n. destruct (Z.lt_ge_cases n 1); [apply D; auto|]. cbn [ser_entries].
       eapply errs_bind2; [apply S1; auto|]. apply errs_bind1. apply errs_bind1. auto. }
  destruct Hv as (o2 & E2 & B2).
  assert (S2 : forall n, emits (map_serialize_value (f v) n) o2 (Ok n)).
  { intros n. unfold map_serialize_value. rewrite <- (app_nil_r o2). eapply emits_bind; eauto using emits_ret. }
  destruct (omap _ l) as [vs|].
  - destruct IH as (kvs & PV & IH). exists ((mk, mv) :: kvs). cbn [pair_up]. rewrite PV. split; [auto|].
    intros n Hn. rewrite zlen_cons. pose proof (zlen_nonneg kvs). split; intros Hn'.
    + destruct (IH (n - 1) ltac:(lia)) as [IH1 _]. destruct IH1 as (o3 & E3 & B3); [lia|].
      exists (o1 ++ o2 ++ o3). split; [|apply best_pairs_cons; auto].
      replace (n - (1 + zlen kvs)) with (n - 1 - zlen kvs) by lia.
      cbn [ser_entries]. eapply emits_bind; [apply S1; lia|]. eapply emits_bind; [apply S2|]. auto.
    + destruct (Z.lt_ge_cases n 1); [apply D; auto|]. cbn [ser_entries].
      eapply errs_bind2; [apply S1; auto|]. eapply errs_bind2; [apply S2|]. apply IH; lia.
  - intros n. destruct (Z.lt_ge_cases n 1); [apply D; auto|]. cbn [ser_entries].
    eapply errs_bind2; [apply S1; auto|]. eapply errs_bind2; [apply S2|]. apply IH; lia.
Qed.

Lemma map_good_gen {S} (kvs : option (list (mpv * mpv))) len (body : Z -> SM bytes X S) (lenof : S -> Z) (hdr : SM bytes X Z) (fin : S -> SM bytes X unit) :
  0 <= len ->
  hdr = sbind (write_map_len VW len) (fun _ => sret len) ->
  (forall s, lenof s = 0 -> fin s = sret tt) -> (forall s, lenof s <> 0 -> exists e, fin s = sfail e) ->
  match kvs with
  | Some kvs => forall n, 0 <= n ->
      (zlen kvs <= n -> exists out s, emits (body n) out (Ok s) /\ lenof s = n - zlen kvs /\ best_pairs kvs out) /\
      (n < zlen kvs -> errs (body n))
  | None => forall n, errs (body n)
  end ->
  good (sbind hdr (fun n => sbind (body n) fin)) (doc_map len kvs).
Proof.
  intros Hl -> Hf0 Hf1 HI. unfold doc_map, lt32.
  destruct (Z.lt_ge_cases len (2 ^ 32)) as [L|L].
  - destruct (map_len_ok len) as (h & E1 & H1 & M1); [lia|].
    assert (EH : emits (sbind (write_map_len VW len) (fun _ => @sret bytes X Z len)) h (Ok len)).
    { rewrite <- (app_nil_r h). eapply emits_bind; eauto using emits_ret. }
    destruct kvs as [vs|].
    + destruct (HI len Hl) as [HI1 HI2]. destruct (Z.lt_ge_cases len (zlen vs)).
      * replace (len =? zlen vs) with false by lia. cbn [andb].
        eapply errs_bind2; [exact EH|]. apply errs_bind1. apply HI2; lia.
      * destruct HI1 as (o & s & E2 & Ls & B2); [lia|].
        destruct (len =? zlen vs) eqn:LL.
        -- replace (_ && _) with true by lia.
           assert (Hv : len = zlen vs) by lia. rewrite Hv in H1, M1.
           exists (h ++ o). split; [|apply best_map; auto].
           eapply emits_bind; [exact EH|]. rewrite <- (app_nil_r o). eapply emits_bind; [exact E2|].
           rewrite Hf0 by lia. apply emits_ret.
        -- cbn [andb]. eapply errs_bind2; [exact EH|]. eapply errs_bind2; [exact E2|].
           destruct (Hf1 s) as [e ->]; [lia|]. apply errs_fail.
    + eapply errs_bind2; [exact EH|]. apply errs_bind1. apply HI.
  - assert (errs (sbind (sbind (write_map_len VW len) (fun _ => sret len)) (fun n => sbind (body n) fin))).
    { apply errs_bind1, errs_bind1. eexists _, _. apply map_len_err. auto. }
    destruct kvs; [|auto]. replace (_ && _) with false by lia. auto.
Qed.

(** Structs. *)
Definition fdoc (g : sval -> option mpv) (f : bytes * option sval) : option (bytes * option mpv) :=
  match snd f with
  | None => Some (fst f, None)
  | Some x => option_map (fun m => (fst f, Some m)) (g x)
  end.

Definition fgood (f : sval -> SM bytes X unit) (g : sval -> option mpv) (x : bytes * option sval) : Prop :=
  all_bytes (fst x) /\ forall v, snd x = Some v -> good (f v) (g v).

(** Index map. *)
Lemma fields_idx f g l : fl = StructMapIdx -> Forall (fgood f g) l ->
  match omap (fdoc g) l with
  | Some vs => forall i n, 0 <= n -> 0 <= i -> i + zlen l < 2 ^ 32 ->
      let kvs := doc_fields_index i vs in
      (zlen kvs <= n -> exists out s, emits (ser_fields VW fl f l (n, i)) out (Ok s) /\ fst s = n - zlen kvs /\ best_pairs kvs out) /\
      (n < zlen kvs -> errs (ser_fields VW fl f l (n, i)))
  | None => forall i n, 0 <= i -> i + zlen l < 2 ^ 32 -> errs (ser_fields VW fl f l (n, i))
  end.
Proof.
  intros Hfl. induction 1 as [|[k x] l [_ Hx] Hl IH]; cbn [omap].
  { intros i n Hn Hi _. cbn. change (zlen []) with 0. split; intros; [|lia].
    exists [], (n, i). split; [apply emits_ret|]. split; [cbn; lia|apply best_pairs_nil]. }
  cbn [snd fst] in Hx. pose proof (zlen_nonneg l) as Zl.
  assert (Hu : forall i, 0 <= i < 2 ^ 32 -> okm (serialize_u32 VW i) (VInt i)).
  { intros i Hi. apply (good_int U32). unfold in_ikind. cbn. lia. }
  destruct x as [x|]; unfold fdoc at 1; cbn [fst snd].
  - specialize (Hx x eq_refl).
    assert (D : forall i n, n < 1 -> errs (ser_fields VW fl f ((k, Some x) :: l) (n, i))).
    { intros i n Hn. cbn. apply errs_bind1. unfold struct_serialize_field. rewrite Hfl.
      apply errs_bind1. eexists _, _. apply dec_err. lia. }
    destruct (g x) as [mv|]; cbn [option_map].
    + destruct Hx as (o2 & E2 & B2).
      assert (S1 : forall i n, 1 <= n -> 0 <= i -> i + 1 < 2 ^ 32 -> exists o1, best (VInt i) o1 /\
         emits (struct_serialize_field VW fl k (f x) (n, i)) (o1 ++ o2) (Ok (n - 1, i + 1))).
      { intros i n Hn Hi Hi'. destruct (Hu i ltac:(lia)) as (o1 & E1 & B1). exists o1. split; [auto|].
        rewrite <- (Z.mod_small (i + 1) (2 ^ 32)) by lia.
        unfold struct_serialize_field. rewrite Hfl. rewrite <- (app_nil_l (o1 ++ o2)).
        eapply emits_bind; [apply dec_ok; auto|]. eapply emits_bind; [exact E1|].
        rewrite <- (app_nil_r o2). eapply emits_bind; eauto using emits_ret. }
      destruct (omap (fdoc g) l) as [vs|].
      * intros i n Hn Hi. rewrite zlen_cons. intros Hi'. cbn zeta. cbn [doc_fields_index]. rewrite zlen_cons.
        pose proof (zlen_nonneg (doc_fields_index (i + 1) vs)).
        split; intros Hn'.
        -- destruct (S1 i n) as (o1 & B1 & E1); [lia..|].
           destruct (IH (i + 1) (n - 1)) as [IH1 _]; [lia..|]. destruct IH1 as (o3 & s & E3 & Ls & B3); [lia|].
           exists (o1 ++ o2 ++ o3), s. split; [|split; [lia|apply best_pairs_cons; auto]].
           cbn [ser_fields]. rewrite app_assoc. eapply emits_bind; eauto.
        -- destruct (Z.lt_ge_cases n 1); [apply D; auto|].
           destruct (S1 i n) as (o1 & B1 & E1); [lia..|]. cbn [ser_fields].
           eapply errs_bind2; [exact E1|]. apply IH; lia.
      * intros i n Hi. rewrite zlen_cons. intros Hi'. destruct (Z.lt_ge_cases n 1); [apply D; auto|].
        destruct (S1 i n) as (o1 & B1 & E1); [lia..|]. cbn [ser_fields].
        eapply errs_bind2; [exact E1|]. apply IH; lia.
    + intros i n Hi. rewrite zlen_cons. intros Hi'. destruct (Z.lt_ge_cases n 1); [apply D; auto|].
      cbn [ser_fields]. apply errs_bind1. unfold struct_serialize_field. rewrite Hfl.
      destruct (Hu i ltac:(lia)) as (o1 & E1 & B1).
      eapply errs_bind2; [apply dec_ok; auto|]. eapply errs_bind2; [exact E1|]. apply errs_bind1. auto.
  - assert (S1 : forall i n, 0 <= i -> i + 1 < 2 ^ 32 ->
         emits (@struct_skip_field bytes E fl (n, i)) [] (Ok (n, i + 1))).
    { intros i n Hi Hi'. unfold struct_skip_field. rewrite Hfl, Z.mod_small by lia. apply emits_ret. }
    destruct (omap (fdoc g) l) as [vs|]; cbn [option_map].
    + intros i n Hn Hi. rewrite zlen_cons. intros Hi'. cbn zeta. cbn [doc_fields_index ser_fields].
      destruct (IH (i + 1) n) as [IH1 IH2]; [lia..|]. split; intros Hn'.
      * destruct IH1 as (o & s & E3 & Ls & B3); [lia|]. exists o, s. split; [|auto].
        rewrite <- (app_nil_l o). eapply emits_bind; [apply S1; lia|auto].
      * eapply errs_bind2; [apply S1; lia|auto].
    + intros i n Hi. rewrite zlen_cons. intros Hi'. cbn [ser_fields].
      eapply errs_bind2; [apply S1; lia|]. apply IH; lia.
Qed.

(** Name map. *)
Lemma fields_name f g l : fl = StructMapStr -> Forall (fgood f g) l ->
  match (match omap (fdoc g) l with Some vs => doc_fields_name vs | None => None end) with
  | Some kvs => forall i n, 0 <= n ->
      (zlen kvs <= n -> exists out s, emits (ser_fields VW fl f l (n, i)) out (Ok s) /\ fst s = n - zlen kvs /\ best_pairs kvs out) /\
      (n < zlen kvs -> errs (ser_fields VW fl f l (n, i)))
  | None => forall i n, errs (ser_fields VW fl f l (n, i))
  end.
Proof.
  intros Hfl. induction 1 as [|[k x] l [Hk Hx] Hl IH]; cbn [omap].
  { intros i n Hn. cbn. change (zlen []) with 0. split; intros; [|lia].
    exists [], (n, i). split; [apply emits_ret|]. split; [cbn; lia|apply best_pairs_nil]. }
  cbn [snd fst] in Hx, Hk. pose proof (good_str k Hk) as Gk.
  destruct x as [x|]; unfold fdoc at 1; cbn [fst snd].
  - specialize (Hx x eq_refl).
    assert (D : forall i n, n < 1 -> errs (ser_fields VW fl f ((k, Some x) :: l) (n, i))).
    { intros i n Hn. cbn. apply errs_bind1. unfold struct_serialize_field. rewrite Hfl.
      apply errs_bind1. eexists _, _. apply dec_err. lia. }
    destruct (doc_str k) as [mk|] eqn:DK.
    2: { assert (R : forall i n, errs (ser_fields VW fl f ((k, Some x) :: l) (n, i))).
         { intros i n. destruct (Z.lt_ge_cases n 1); [apply D; auto|]. cbn. apply errs_bind1.
           unfold struct_serialize_field. rewrite Hfl. eapply errs_bind2; [apply dec_ok; auto|].
           apply errs_bind1. exact Gk. }
         destruct (g x) as [mv|]; cbn [option_map]; [|auto].
         destruct (omap (fdoc g) l) as [vs|]; [|auto].
         cbn [doc_fields_name]. rewrite DK. auto. }
    destruct Gk as (o1 & E1 & B1).
    destruct (g x) as [mv|]; cbn [option_map].
    + destruct Hx as (o2 & E2 & B2).
      assert (S1 : forall i n, 1 <= n ->
         emits (struct_serialize_field VW fl k (f x) (n, i)) (o1 ++ o2) (Ok (n - 1, i))).
      { intros i n Hn.
        unfold struct_serialize_field. rewrite Hfl. rewrite <- (app_nil_l (o1 ++ o2)).
        eapply emits_bind; [apply dec_ok; auto|]. eapply emits_bind; [exact E1|].
        rewrite <- (app_nil_r o2). eapply emits_bind; eauto using emits_ret. }
      destruct (omap (fdoc g) l) as [vs|].
      * cbn [doc_fields_name]. rewrite DK. destruct (doc_fields_name vs) as [kvs|].
        -- intros i n Hn. rewrite zlen_cons. pose proof (zlen_nonneg kvs). split; intros Hn'.
           ++ destruct (IH i (n - 1)) as [IH1 _]; [lia..|]. destruct IH1 as (o3 & s & E3 & Ls & B3); [lia|].
              exists (o1 ++ o2 ++ o3), s. split; [|split; [lia|apply best_pairs_cons; auto]].
              cbn [ser_fields]. rewrite app_assoc. eapply emits_bind; [apply S1; lia|eauto].
           ++ destruct (Z.lt_ge_cases n 1); [apply D; auto|]. cbn [ser_fields].
              eapply errs_bind2; [apply S1; auto|]. apply IH; lia.
        -- intros i n. destruct (Z.lt_ge_cases n 1); [apply D; auto|]. cbn [ser_fields].
           eapply errs_bind2; [apply S1; auto|]. apply IH; lia.
      * intros i n. destruct (Z.lt_ge_cases n 1); [apply D; auto|]. cbn [ser_fields].
        eapply errs_bind2; [apply S1; auto|]. apply IH; lia.
    + intros i n. destruct (Z.lt_ge_cases n 1); [apply D; auto|].
      cbn [ser_fields]. apply errs_bind1. unfold struct_serialize_field. rewrite Hfl.
      eapply errs_bind2; [apply dec_ok; auto|]. eapply errs_bind2; [exact E1|]. apply errs_bind1. auto.
  - assert (S1 : forall i n, emits (@struct_skip_field bytes E fl (n, i)) [] (Ok (n, i))).
    { intros i n. unfold struct_skip_field. rewrite Hfl. apply emits_ret. }
    assert (R : forall i n o r, emits (ser_fields VW fl f l (n, i)) o r ->
       emits (ser_fields VW fl f ((k, None) :: l) (n, i)) o r).
    { intros i n o r Hr. cbn [ser_fields]. rewrite <- (app_nil_l o). eapply emits_bind; [apply S1|auto]. }
    assert (R2 : forall i n, errs (ser_fields VW fl f l (n, i)) -> errs (ser_fields VW fl f ((k, None) :: l) (n, i))).
    { intros i n (o & e & Hr). exists o, e. apply R; auto. }
    assert (EQ : (match (match omap (fdoc g) l with Some ys => Some ((k, None) :: ys) | None => None end) with
                  Some vs => doc_fields_name vs | None => None end)
                 = match omap (fdoc g) l with Some vs => doc_fields_name vs | None => None end)
      by (destruct (omap (fdoc g) l); auto).
    rewrite EQ. destruct (match omap (fdoc g) l with Some vs => doc_fields_name vs | None => None end) as [kvs|].
    + intros i n Hn. destruct (IH i n Hn) as [IH1 IH2]. split; intros Hn'.
      * destruct (IH1 Hn') as (o & s & E3 & Ls & B3). exists o, s. auto.
      * auto.
    + intros i n. auto.
Qed.

(** Array. *)
Lemma fields_array f g l : fl = Compact -> Forall (fgood f g) l ->
  match (match omap (fdoc g) l with Some vs => doc_fields_array vs | None => None end) with
  | Some vs => forall i n, 0 <= n ->
      (zlen vs = n -> exists out s, emits (ser_fields VW fl f l (n, i)) out (Ok s) /\ fst s = 0 /\ best_list vs out) /\
      (n <> zlen vs -> errs (ser_fields VW fl f l (n, i)) \/
         exists out s, emits (ser_fields VW fl f l (n, i)) out (Ok s) /\ fst s <> 0)
  | None => forall i n, errs (ser_fields VW fl f l (n, i)) \/
         exists out s, emits (ser_fields VW fl f l (n, i)) out (Ok s) /\ fst s <> 0
  end.
Proof.
  intros Hfl. induction 1 as [|[k x] l [_ Hx] Hl IH]; cbn [omap].
  { intros i n Hn. cbn. change (zlen []) with 0. split; intros.
    - exists [], (n, i). split; [apply emits_ret|]. split; [cbn; lia|apply best_list_nil].
    - right. exists [], (n, i). split; [apply emits_ret|]. cbn. lia. }
  cbn [snd fst] in Hx.
  destruct x as [x|]; unfold fdoc at 1; cbn [fst snd].
  - specialize (Hx x eq_refl).
    assert (D : forall i n, n < 1 -> errs (ser_fields VW fl f ((k, Some x) :: l) (n, i))).
    { intros i n Hn. cbn. apply errs_bind1. unfold struct_serialize_field. rewrite Hfl.
      apply errs_bind1. eexists _, _. apply dec_err. lia. }
    destruct (g x) as [mv|]; cbn [option_map].
    + destruct Hx as (o1 & E1 & B1).
      assert (S1 : forall i n, 1 <= n ->
         emits (struct_serialize_field VW fl k (f x) (n, i)) o1 (Ok (n - 1, i))).
      { intros i n Hn.
        unfold struct_serialize_field. rewrite Hfl. rewrite <- (app_nil_l o1), <- (app_nil_r o1).
        eapply emits_bind; [apply dec_ok; auto|]. eapply emits_bind; eauto using emits_ret. }
      assert (R : forall i n, (errs (ser_fields VW fl f l (n - 1, i)) \/
         exists out s, emits (ser_fields VW fl f l (n - 1, i)) out (Ok s) /\ fst s <> 0) ->
         errs (ser_fields VW fl f ((k, Some x) :: l) (n, i)) \/
         exists out s, emits (ser_fields VW fl f ((k, Some x) :: l) (n, i)) out (Ok s) /\ fst s <> 0).
      { intros i n HR. destruct (Z.lt_ge_cases n 1); [left; apply D; auto|].
        destruct HR as [(o & e & HR)|(o & s & HR & Hs)]; [left|right]; cbn [ser_fields].
        - eapply errs_bind2; [apply S1; auto|]. exists o, e. auto.
        - exists (o1 ++ o), s. split; [|auto]. eapply emits_bind; [apply S1; auto|auto]. }
      assert (EQ : (match (match omap (fdoc g) l with Some ys => Some ((k, Some mv) :: ys) | None => None end) with
                    Some vs => doc_fields_array vs | None => None end)
                   = option_map (cons mv) (match omap (fdoc g) l with Some vs => doc_fields_array vs | None => None end))
        by (destruct (omap (fdoc g) l); auto).
      rewrite EQ. destruct (match omap (fdoc g) l with Some vs => doc_fields_array vs | None => None end) as [vs|]; cbn [option_map].
      * intros i n Hn. rewrite zlen_cons. pose proof (zlen_nonneg vs). split; intros Hn'.
        -- destruct (IH i (n - 1)) as [IH1 _]; [lia..|]. destruct IH1 as (o3 & s & E3 & Ls & B3); [lia|].
           exists (o1 ++ o3), s. split; [|split; [lia|apply best_list_cons; auto]].
           cbn [ser_fields]. eapply emits_bind; [apply S1; lia|eauto].
        -- destruct (Z.lt_ge_cases n 1); [left; apply D; auto|]. apply R. apply IH; lia.
      * intros i n. apply R. apply IH.
    + assert (R : forall i n, errs (ser_fields VW fl f ((k, Some x) :: l) (n, i))).
      { intros i n. destruct (Z.lt_ge_cases n 1); [apply D; auto|].
        cbn [ser_fields]. apply errs_bind1. unfold struct_serialize_field. rewrite Hfl.
        eapply errs_bind2; [apply dec_ok; auto|]. apply errs_bind1. auto. }
      auto.
  - (* a skipped field: only allowed once all announced elements are written *)
    assert (S1 : forall i, emits (@struct_skip_field bytes E fl (0, i)) [] (Ok (0, i))).
    { intros i. unfold struct_skip_field. rewrite Hfl. apply emits_ret. }
    assert (S2 : forall i n, n <> 0 -> errs (ser_fields VW fl f ((k, None) :: l) (n, i))).
    { intros i n Hn. cbn [ser_fields]. apply errs_bind1. unfold struct_skip_field. rewrite Hfl.
      replace (n =? 0) with false by lia. apply errs_fail. }
    assert (A0 : forall i vs, omap (fdoc g) l = Some vs ->
      (forallb (fun f => match snd f with None => true | Some _ => false end) vs = true ->
         emits (ser_fields VW fl f l (0, i)) [] (Ok (0, i))) /\
      (forallb (fun f => match snd f with None => true | Some _ => false end) vs = false ->
         errs (ser_fields VW fl f l (0, i)))).
    { clear IH S2. intros i. induction Hl as [|[k' x'] l [_ Hx'] Hl IH]; cbn [omap]; intros vs Hvs.
      - injection Hvs as <-. cbn. split; [intros; apply emits_ret|discriminate].
      - unfold fdoc in Hvs at 1. cbn [fst snd] in Hvs.
        destruct x' as [x'|].
        + destruct (g x') as [m|]; [|discriminate]. cbn [option_map] in Hvs.
          destruct (omap (fdoc g) l) as [vs'|]; [|discriminate]. injection Hvs as <-. cbn [ser_fields forallb snd andb].
          split; [discriminate|intros _]. apply errs_bind1. unfold struct_serialize_field. rewrite Hfl.
          apply errs_bind1. eexists _, _. apply dec_err. lia.
        + destruct (omap (fdoc g) l) as [vs'|]; [|discriminate]. injection Hvs as <-.
          destruct (IH vs' eq_refl) as [IH1 IH2]. cbn [forallb snd andb ser_fields]. split; intros HH.
          * rewrite <- (app_nil_l []). eapply emits_bind; [apply S1|auto].
          * eapply errs_bind2; [apply S1|auto]. }
    assert (A1 : forall i, omap (fdoc g) l = None -> errs (ser_fields VW fl f l (0, i))).
    { clear IH A0 S2. intros i. induction Hl as [|[k' x'] l [_ Hx'] Hl IH]; cbn [omap]; intros Hvs.
      - discriminate.
      - unfold fdoc in Hvs at 1. cbn [fst snd] in Hvs.
        destruct x' as [x'|].
        + cbn [ser_fields]. apply errs_bind1. unfold struct_serialize_field. rewrite Hfl.
          apply errs_bind1. eexists _, _. apply dec_err. lia.
        + destruct (omap (fdoc g) l) as [vs'|]; [discriminate|].
          cbn [ser_fields]. eapply errs_bind2; [apply S1|auto]. }
    destruct (omap (fdoc g) l) as [vs|].
    + cbn [doc_fields_array]. destruct (forallb _ vs) eqn:FB.
      * intros i n Hn. change (zlen []) with 0. split; intros Hn'.
        -- subst n. destruct (A0 i vs eq_refl) as [A01 _]. exists [], (0, i). split; [|split; [auto|apply best_list_nil]].
           cbn [ser_fields]. rewrite <- (app_nil_l []). eapply emits_bind; [apply S1|auto].
        -- left. auto.
      * intros i n. left. destruct (Z.eq_dec n 0) as [->|]; [|auto].
        cbn [ser_fields]. eapply errs_bind2; [apply S1|]. apply (A0 i vs); auto.
    + intros i n. left. destruct (Z.eq_dec n 0) as [->|]; [|auto].
      cbn [ser_fields]. eapply errs_bind2; [apply S1|]. auto.
Qed.

Lemma good_ext (m m' : SM bytes X unit) o : (forall w, m w = m' w) -> good m o -> good m' o.
Proof.
  intros EQ. unfold good, okm, errs, emits. destruct o.
  - intros (o & G & B). exists o. split; auto. intros w. rewrite <- EQ. auto.
  - intros (o & e & G). exists o, e. intros w. rewrite <- EQ. auto.
Qed.

Lemma struct_map_good kvs d len (body : Z * Z -> SM bytes X (Z * Z)) : 0 <= len ->
  doc_map len kvs = d ->
  match kvs with
  | Some kvs => forall n, 0 <= n ->
      (zlen kvs <= n -> exists out s, emits (body (n, 0)) out (Ok s) /\ fst s = n - zlen kvs /\ best_pairs kvs out) /\
      (n < zlen kvs -> errs (body (n, 0)))
  | None => forall n, errs (body (n, 0))
  end ->
  good (sbind (sbind (write_map_len VW len) (fun _ => sret (len, 0)))
         (fun s => sbind (body s) (fun s => if fst s =? 0 then sret tt else sfail MMapLength))) d.
Proof.
  intros Hl <- HI.
  apply (good_ext (sbind (sbind (write_map_len VW len) (fun _ => sret len)) (fun n : Z => sbind (body (n, 0))
           (fun s => if fst s =? 0 then sret tt else sfail MMapLength)))).
  { intros w. unfold sbind, sret. destruct (write_map_len VW len w) as [? []]; auto. }
  apply (map_good_gen kvs len (fun n => body (n, 0)) fst); auto.
  - intros s ->. auto.
  - intros s Hs. replace (fst s =? 0) with false by lia. eauto.
Qed.

Lemma struct_good f g l len : 0 <= len -> zlen l < 2 ^ 32 -> Forall (fgood f g) l ->
  good (sbind (inherent_serialize_struct VW fl len) (fun s => sbind (ser_fields VW fl f l s) (fun s => struct_end fl s)))
       (doc_struct st len (omap (fdoc g) l)).
Proof.
  intros Hl Hn HF. unfold doc_struct, inherent_serialize_struct, struct_end.
  destruct fl eqn:Efl; cbn [style_of].
  - pose proof (fields_array f g l Efl HF) as HI. rewrite Efl in HI.
    set (d := match omap (fdoc g) l with Some vs => doc_fields_array vs | None => None end) in *.
    assert (EQ : match omap (fdoc g) l with Some fs => doc_array len (doc_fields_array fs) | None => None end = doc_array len d).
    { subst d. destruct (omap (fdoc g) l); auto. }
    rewrite EQ. clear EQ. unfold doc_array, lt32.
    destruct (Z.lt_ge_cases len (2 ^ 32)) as [L|L].
    + destruct (array_len_ok len) as (h & E1 & H1 & M1); [lia|].
      assert (EH : emits (sbind (write_array_len VW len) (fun _ => @sret bytes X _ (len, 0))) h (Ok (len, 0))).
      { rewrite <- (app_nil_r h). eapply emits_bind; eauto using emits_ret. }
      assert (R : (errs (ser_fields VW Compact f l (len, 0)) \/
         exists out s, emits (ser_fields VW Compact f l (len, 0)) out (Ok s) /\ fst s <> 0) ->
         errs (sbind (sbind (write_array_len VW len) (fun _ => @sret bytes X _ (len, 0)))
           (fun s => sbind (ser_fields VW Compact f l s) (fun s => if fst s =? 0 then sret tt else sfail MSeqLength)))).
      { intros [HR|(o & s & HR & Hs)]; (eapply errs_bind2; [exact EH|]).
        - apply errs_bind1. auto.
        - eapply errs_bind2; [exact HR|]. replace (fst s =? 0) with false by lia. apply errs_fail. }
      destruct d as [vs|].
      * destruct (HI 0 len Hl) as [HI1 HI2]. destruct (len =? zlen vs) eqn:LL.
        -- replace (_ && _) with true by lia. destruct HI1 as (o & s & E2 & Ls & B2); [lia|].
           assert (Hv : len = zlen vs) by lia. rewrite Hv in H1, M1.
           exists (h ++ o). split; [|apply best_arr; auto].
           eapply emits_bind; [exact EH|]. rewrite <- (app_nil_r o). eapply emits_bind; [exact E2|].
           rewrite Ls. apply emits_ret.
        -- cbn [andb]. apply R, HI2. lia.
      * apply R, HI.
    + assert (errs (sbind (sbind (write_array_len VW len) (fun _ => @sret bytes X _ (len, 0)))
           (fun s => sbind (ser_fields VW Compact f l s) (fun s => if fst s =? 0 then sret tt else sfail MSeqLength)))).
      { apply errs_bind1, errs_bind1. eexists _, _. apply array_len_err. auto. }
      destruct d; [|auto]. replace (_ && _) with false by lia. auto.
  - pose proof (fields_idx f g l Efl HF) as HI. rewrite Efl in HI.
    apply (struct_map_good (option_map (doc_fields_index 0) (omap (fdoc g) l))); [auto|destruct (omap _ l); auto|].
    destruct (omap (fdoc g) l) as [vs|]; cbn [option_map]; intros n.
    + intros Hn'. apply HI; lia.
    + apply HI; lia.
  - pose proof (fields_name f g l Efl HF) as HI. rewrite Efl in HI.
    apply (struct_map_good (match omap (fdoc g) l with Some vs => doc_fields_name vs | None => None end));
      [auto|destruct (omap _ l); auto|].
    destruct (match omap (fdoc g) l with Some vs => doc_fields_name vs | None => None end); intros n; auto.
Qed.

(** ** collect_str *)
Lemma string_run p : forall t0, exists t, fst (run_fmt string_write_str p t0) = t0 ++ t /\
  snd (run_fmt string_write_str p t0) = match fmt_text p with Some _ => true | None => false end /\
  (forall t', fmt_text p = Some t' -> t = t').
Proof.
  induction p as [ok|c k1 IH k2 _]; intros t0; cbn [run_fmt string_write_str fmt_text].
  - exists []. rewrite app_nil_r. destruct ok; repeat split; congruence.
  - destruct (IH (t0 ++ c)) as (t & E1 & E2 & E3). exists (c ++ t).
    rewrite E1, E2, app_assoc. split; [auto|]. destruct (fmt_text k1); cbn [option_map]; split; auto.
    + intros t' [= <-]. rewrite E3 with (t' := b); auto.
    + discriminate.
Qed.

Lemma zlen_app {A} (a b : list A) : zlen (a ++ b) = zlen a + zlen b.
Proof. unfold zlen. rewrite app_length. lia. Qed.

Lemma counter_run p : fmt_propagates p -> forall n,
  match fmt_text p with
  | Some t => if n + zlen t <=? cfg_usize_max cfg then run_fmt (counter_write_str cfg) p n = (n + zlen t, true)
              else t = [] \/ snd (run_fmt (counter_write_str cfg) p n) = false
  | None => snd (run_fmt (counter_write_str cfg) p n) = false
  end.
Proof.
  induction p as [ok|c k1 IH k2 _]; intros Hp n; cbn [run_fmt fmt_text].
  - destruct ok; [|auto]. change (zlen []) with 0. rewrite Z.add_0_r. destruct (_ <=? _); auto.
  - destruct Hp as [-> Hp]. specialize (IH Hp).
    assert (Ew : counter_write_str cfg n c = if n + zlen c <=? cfg_usize_max cfg then (n + zlen c, true) else (n, false))
      by reflexivity.
    rewrite !Ew.
    destruct (fmt_text k1) as [t|]; cbn [option_map].
    + rewrite zlen_app. specialize (IH (n + zlen c)). rewrite Z.add_assoc. pose proof (zlen_nonneg t).
      destruct (n + zlen c + zlen t <=? cfg_usize_max cfg) eqn:L.
      * replace (n + zlen c <=? cfg_usize_max cfg) with true by lia. auto.
      * destruct (n + zlen c <=? cfg_usize_max cfg) eqn:L2; [|auto].
        destruct IH as [->|IH]; [|auto]. change (zlen []) with 0 in L. lia.
    + specialize (IH (n + zlen c)). destruct (n + zlen c <=? cfg_usize_max cfg); auto.
Qed.

Lemma pass2_ok p t : fmt_text p = Some t ->
  emits (collect_pass2 VW p (zlen t)) t (Ok tt).
Proof.
  unfold collect_pass2. intros Ht w. 
  assert (R : forall n, zlen t <= n -> run_fmt (@collector_write_str bytes E VecWriter) p (n, w) = ((n - zlen t, w ++ t), true)).
  { revert t Ht w. induction p as [ok|c k1 IH k2 _]; cbn [fmt_text run_fmt]; intros t Ht w n Hn.
    - destruct ok; [|discriminate]. injection Ht as <-. change (zlen []) with 0. rewrite app_nil_r, Z.sub_0_r. auto.
    - destruct (fmt_text k1) as [t'|]; [|discriminate]. cbn [option_map] in Ht. injection Ht as <-.
      rewrite zlen_app in *. pose proof (zlen_nonneg t'). unfold collector_write_str at 1.
      replace (n <? zlen c) with false by lia. cbn [sw_write_str VecWriter SerWrite_default].
      rewrite (IH t' eq_refl) by lia. rewrite <- app_assoc. f_equal. f_equal. lia. }
  rewrite R by lia. auto.
Qed.

Lemma good_collect p1 p2 : fmt_consistent p1 p2 -> 2 ^ 32 - 1 <= cfg_usize_max cfg ->
  good (collect_str VW cfg p1 p2) (match fmt_text p1 with Some t => doc_str t | None => None end).
Proof.
  intros (He & Hp1 & Hp2 & Ha1 & _) Hc. unfold collect_str.
  assert (At : forall t, fmt_text p1 = Some t -> all_bytes t).
  { clear He Hp1 Hp2. induction p1 as [ok|c k1 IH k2 _]; cbn [fmt_text]; intros t Ht.
    - destruct ok; [|discriminate]. injection Ht as <-. constructor.
    - destruct Ha1 as (Hc1 & Hk1 & _). destruct (fmt_text k1); [|discriminate]. injection Ht as <-.
      apply Forall_app. split; [apply valid_utf8_bytes; auto|apply IH; auto]. }
  destruct (cfg_alloc cfg).
  - destruct (string_run p1 []) as (t & E1 & E2 & E3).
    destruct (run_fmt string_write_str p1 []) as [t' ok]. cbn [fst snd] in *. cbn in E1. subst t' ok.
    destruct (fmt_text p1) as [t'|]; [|apply errs_fail].
    rewrite (E3 t' eq_refl). apply good_str. auto.
  - pose proof (counter_run p1 Hp1 0) as HC.
    destruct (fmt_text p1) as [t|] eqn:Ft.
    + rewrite Z.add_0_l in HC. unfold doc_str, lt32. pose proof (zlen_nonneg t).
      destruct (zlen t <=? cfg_usize_max cfg) eqn:L.
      * rewrite HC. destruct (_ && _) eqn:L2.
        -- destruct (str_len_ok (zlen t)) as (h & E1 & H1 & M1); [lia|].
           exists (h ++ t). split; [eapply emits_bind; [exact E1|apply pass2_ok; auto]|].
           split; [constructor; auto|]. intros b Hb. inv Hb. rewrite !app_length.
           match goal with A : str_hdr _ ?x |- (_ <= length ?x + _)%nat => specialize (M1 _ A) end. lia.
        -- apply errs_bind1. eexists _, _. apply str_len_err. lia.
      * replace (_ && _) with false by lia.
        destruct HC as [->|HC]; [change (zlen []) with 0 in L; lia|].
        destruct (run_fmt _ p1 0) as [n ok]. cbn in HC. subst ok. apply errs_fail.
    + destruct (run_fmt _ p1 0) as [n ok]. cbn in HC. subst ok. apply errs_fail.
Qed.

Lemma good_variant i n : is_u32 i -> all_bytes n -> good (serialize_variant VW fl i n) (doc_variant st i n).
Proof.
  intros Hi Hn. unfold serialize_variant, doc_variant. destruct fl; cbn [style_of];
    [apply (good_int U32)|apply (good_int U32)|apply good_str; auto];
    unfold in_ikind, is_u32 in *; cbn; lia.
Qed.

Lemma good_variant_map (mv mc : SM bytes X unit) (tag content : option mpv) :
  good mv tag -> good mc content ->
  good (sbind (write_byte VW (Z.lor FIXMAP 1)) (fun _ => sbind mv (fun _ => mc))) (variant_map tag content).
Proof.
  intros Hv Hc. unfold variant_map. change (Z.lor FIXMAP 1) with 0x81.
  destruct tag as [t|].
  - destruct Hv as (o1 & E1 & B1). destruct content as [c|].
    + destruct Hc as (o2 & E2 & B2). exists ([0x81] ++ o1 ++ o2 ++ []). split.
      * rewrite app_nil_r. eapply emits_bind; [apply emits_wb|]. eapply emits_bind; eauto.
      * apply (best_map [(t, c)] [0x81]).
        -- apply (MH_fix 1). lia.
        -- intros h Hh. inv Hh; cbn; lia.
        -- apply best_pairs_cons; auto using best_pairs_nil.
    + eapply errs_bind2; [apply emits_wb|]. eapply errs_bind2; eauto.
  - eapply errs_bind2; [apply emits_wb|]. apply errs_bind1. destruct content; auto.
Qed.

Lemma best_simple v b n : mp_fmt v b -> length b = n -> (forall b', mp_fmt v b' -> (n <= length b')%nat) -> best v b.
Proof. intros H <- M. split; auto. Qed.

Lemma good_byte v b : mp_fmt v [b] -> good (write_byte VW b) (Some v).
Proof.
  intros H. exists [b]. split; [apply emits_wb|]. apply (best_simple _ _ 1); auto.
  intros b' Hb. destruct b'; [|cbn; lia]. exfalso. clear H. inv Hb; [inv H|..].
  all: destruct h; [|discriminate]; try discriminate;
    match goal with
    | HH : str_hdr _ [] |- _ => inversion HH
    | HH : bin_hdr _ [] |- _ => inversion HH
    | HH : arr_hdr _ [] |- _ => inversion HH
    | HH : map_hdr _ [] |- _ => inversion HH
    end.
Qed.

Lemma sbind_assoc_v {A B C} (m : SM bytes X A) (f : A -> SM bytes X B) (g : B -> SM bytes X C) w :
  sbind (sbind m f) g w = sbind m (fun a => sbind (f a) g) w.
Proof. unfold sbind. destruct (m w) as [? []]; auto. Qed.

Theorem mp_ser_good v : sval_ok v -> 2 ^ 32 - 1 <= cfg_usize_max cfg ->
  good (mp_ser VW cfg fl v) (mp_doc st v).
Proof.
  intros Hv Hc. revert Hv. induction v using sval_ind'; intros Hv; cbn [mp_ser mp_doc sval_ok] in *.
  - unfold serialize_bool. destruct b; apply good_byte; constructor.
  - apply good_int; auto.
  - apply errs_fail.
  - eexists. split; [apply emits_wbw|]. eapply best_simple; [apply MF_f32, uint_be_bytes; cbn; lia|reflexivity|].
    intros b' Hb. inv Hb. cbn [length]. rewrite (proj2 (uint_be_range _ _ _ H0)). cbn. lia.
  - eexists. split; [apply emits_wbw|]. eapply best_simple; [apply MF_f64, uint_be_bytes; cbn; lia|reflexivity|].
    intros b' Hb. inv Hb. cbn [length]. rewrite (proj2 (uint_be_range _ _ _ H0)). cbn. lia.
  - unfold serialize_char, serialize_str. rewrite encode_utf8_spec by auto.
    pose proof (good_str (utf8_char c) (utf8_char_bytes c Hv)) as G. unfold doc_str, lt32 in G.
    assert (L : (0 <=? zlen (utf8_char c)) && (zlen (utf8_char c) <? 2 ^ 32) = true).
    { unfold utf8_char. repeat match goal with |- context [if ?b then _ else _] => destruct b end; reflexivity. }
    rewrite L in G. auto.
  - apply good_str, valid_utf8_bytes; auto.
  - apply good_bytes; auto.
  - apply good_byte; constructor.
  - auto.
  - apply good_byte; constructor.
  - apply good_byte; constructor.
  - apply good_variant; [tauto|apply valid_utf8_bytes; tauto].
  - auto.
  - apply good_variant_map; [apply good_variant; [tauto|apply valid_utf8_bytes; tauto]|tauto].
  - destruct Hv as [Hl Hv]. rewrite all_list_Forall in Hv.
    destruct l as [len|]; [|cbn [serialize_seq]; apply errs_bind1, errs_fail].
    apply array_good; [destruct Hl; auto|reflexivity|].
    eapply Forall_impl2; [|exact H|exact Hv]. auto.
  - destruct Hv as [Hl Hv]. rewrite all_list_Forall in Hv.
    apply array_good; [destruct Hl; auto|reflexivity|].
    eapply Forall_impl2; [|exact H|exact Hv]. auto.
  - destruct Hv as [Hl Hv]. rewrite all_list_Forall in Hv.
    apply array_good; [destruct Hl; auto|reflexivity|].
    eapply Forall_impl2; [|exact H|exact Hv]. auto.
  - destruct Hv as (Hi & Hn & Hl & Hv). rewrite all_list_Forall in Hv.
    apply (good_ext (sbind (write_byte VW (Z.lor FIXMAP 1)) (fun _ => sbind (serialize_variant VW fl i n) (fun _ =>
       sbind (serialize_tuple VW l) (fun n => sbind (ser_items (mp_ser VW cfg fl) items n) (fun n => seq_end n)))))).
    { intros w. unfold serialize_tuple_variant, sbind. destruct (write_byte _ _ w) as [? []]; auto.
      destruct (serialize_variant _ _ _ _ _) as [? []]; auto. }
    apply good_variant_map; [apply good_variant; [auto|apply valid_utf8_bytes; auto]|].
    apply array_good; [destruct Hl; auto|reflexivity|].
    eapply Forall_impl2; [|exact H|exact Hv]. auto.
  - destruct Hv as (Hl & Hp & Hv). rewrite all_list_Forall in Hv.
    destruct l as [len|]; [|cbn [serialize_map]; apply errs_bind1, errs_fail].
    assert (F : Forall (fun x => good (mp_ser VW cfg fl (snd x)) (mp_doc st (snd x))) ops)
      by (eapply Forall_impl2; [|exact H|exact Hv]; auto).
    destruct (pair_up ops) as [ps|] eqn:PU; [|congruence].
    pose proof (entries_good _ _ ops ps F PU) as HI.
    apply (good_ext (sbind (sbind (write_map_len VW len) (fun _ => sret len))
      (fun n => sbind (ser_entries (mp_ser VW cfg fl) ops n) (fun n => map_end n)))); [auto|].
    assert (EQ : match omap (fun o => option_map (pair (fst o)) (mp_doc st (snd o))) ops with
                 | Some l => doc_map len (pair_up l) | None => None end =
                 doc_map len (match omap (fun o => option_map (pair (fst o)) (mp_doc st (snd o))) ops with
                 | Some l => pair_up l | None => None end)) by (destruct (omap _ ops); auto).
    rewrite EQ. apply (map_good_gen _ len (fun n => ser_entries (mp_ser VW cfg fl) ops n) (fun z => z)); auto.
    + destruct Hl; auto.
    + unfold map_end. intros s ->. auto.
    + unfold map_end. intros s Hs. replace (s =? 0) with false by lia. eauto.
    + destruct (omap _ ops) as [vs|]; [|auto]. destruct HI as (kvs & -> & HI). intros m Hm.
      destruct (HI m Hm) as [HI1 HI2]. split; [|auto]. intros Hm'. destruct (HI1 Hm') as (o & E1 & B1).
      exists o, (m - zlen kvs). auto.
  - destruct Hv as (Hl & Hn & Hv). rewrite all_list_Forall in Hv.
    apply (struct_good (mp_ser VW cfg fl) (mp_doc st)); [destruct Hl; auto|auto|].
    eapply Forall_impl2; [|exact H|exact Hv]. intros [k x] Hx [Hk Hs]. split; [apply valid_utf8_bytes; auto|].
    intros v Hv'. cbn [snd] in *. subst x. apply Hx; auto.
  - destruct Hv as (Hi & Hnm & Hl & Hn & Hv). rewrite all_list_Forall in Hv.
    apply (good_ext (sbind (write_byte VW (Z.lor FIXMAP 1)) (fun _ => sbind (serialize_variant VW fl i n) (fun _ =>
       sbind (inherent_serialize_struct VW fl l) (fun s => sbind (ser_fields VW fl (mp_ser VW cfg fl) fs s) (fun s => struct_end fl s)))))).
    { intros w. unfold serialize_struct_variant, sbind. destruct (write_byte _ _ w) as [? []]; auto.
      destruct (serialize_variant _ _ _ _ _) as [? []]; auto. }
    apply good_variant_map; [apply good_variant; [auto|apply valid_utf8_bytes; auto]|].
    apply (struct_good (mp_ser VW cfg fl) (mp_doc st)); [destruct Hl; auto|auto|].
    eapply Forall_impl2; [|exact H|exact Hv]. intros [k x] Hx [Hk Hs]. split; [apply valid_utf8_bytes; auto|].
    intros v Hv'. cbn [snd] in *. subst x. apply Hx; auto.
  - apply good_collect; auto.
  - apply errs_fail.
Qed.
End P.

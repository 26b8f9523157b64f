(** Base64 model against its specification. *)
From Verif Require Import Prelude PreludeFacts Utf8Facts Writer SerMonad Base64Spec Base64.
Ltac Zify.zify_post_hook ::= Z.div_mod_to_equations.

(** ** Alphabet *)

Lemma armour_spec v : 0 <= v < 64 -> b64_armour v = b64_char v.
Proof.
  intros H. apply Z.eqb_eq.
  apply (zrange_forall (fun v => b64_armour v =? b64_char v) 64); [vm_compute; reflexivity|lia].
Qed.

Lemma get_code_spec c v : get_code c = Some v <-> b64_code c v.
Proof.
  unfold get_code, b64_code. split.
  - intros H. split.
    + repeat match type of H with context [if ?b then _ else _] => destruct b eqn:? end; try discriminate H; injection H as <-; lia.
    + unfold b64_char.
      repeat match type of H with context [if ?b then _ else _] => destruct b eqn:? end; try discriminate H; injection H as <-;
      repeat match goal with |- context [if ?b then _ else _] => destruct b eqn:? end; lia.
  - intros [H ->].
    pose proof (zrange_forall (fun v => match get_code (b64_char v) with Some w => w =? v | None => false end)
                  64 ltac:(vm_compute; reflexivity) v ltac:(lia)) as G. cbn beta in G. fold (get_code (b64_char v)).
    destruct (get_code (b64_char v)); [|discriminate]. f_equal. lia.
Qed.

Lemma get_code_none c : get_code c = None <-> ~ in_alphabet c.
Proof.
  unfold in_alphabet. destruct (get_code c) as [v|] eqn:G.
  - apply get_code_spec in G. split; [discriminate|]. intros N. exfalso. eauto.
  - split; auto. intros _ (v & H). apply get_code_spec in H. congruence.
Qed.

Lemma get_code_char v : 0 <= v < 64 -> get_code (b64_char v) = Some v.
Proof. intros. apply get_code_spec. split; auto. Qed.

Lemma b64_char_inj u v : 0 <= u < 64 -> 0 <= v < 64 -> b64_char u = b64_char v -> u = v.
Proof. intros Hu Hv E. apply get_code_char in Hu, Hv. congruence. Qed.

(** ** Encoding *)

Lemma pair_forall (P : Z -> Z -> bool) :
  forallb (fun a => forallb (P a) (map Z.of_nat (seq 0 256))) (map Z.of_nat (seq 0 256)) = true ->
  forall a b, is_byte a -> is_byte b -> P a b = true.
Proof.
  intros H a b Ha Hb. unfold is_byte in *.
  pose proof (zrange_forall _ 256 H a ltac:(lia)) as G. cbn beta in G.
  apply (zrange_forall (P a) 256 G). lia.
Qed.

Lemma code1 a : is_byte a -> Z.shiftr a 2 = a / 4.
Proof. intros. rewrite Z.shiftr_div_pow2 by lia. reflexivity. Qed.
Lemma code2 a b : is_byte a -> is_byte b ->
  Z.lor (shl8 (Z.land a 0x03) 4) (Z.shiftr (Z.land b 0xF0) 4) = a mod 4 * 16 + b / 16.
Proof.
  intros. apply Z.eqb_eq.
  apply (pair_forall (fun a b => Z.lor (shl8 (Z.land a 0x03) 4) (Z.shiftr (Z.land b 0xF0) 4) =? a mod 4 * 16 + b / 16)); [vm_compute; reflexivity|auto|auto].
Qed.
Lemma code3 b c : is_byte b -> is_byte c ->
  Z.lor (shl8 (Z.land b 0x0F) 2) (Z.shiftr (Z.land c 0xC0) 6) = b mod 16 * 4 + c / 64.
Proof.
  intros. apply Z.eqb_eq.
  apply (pair_forall (fun b c => Z.lor (shl8 (Z.land b 0x0F) 2) (Z.shiftr (Z.land c 0xC0) 6) =? b mod 16 * 4 + c / 64)); [vm_compute; reflexivity|auto|auto].
Qed.
Lemma code4 c : Z.land c 0x3F = c mod 64.
Proof. apply (land_ones_mod c 6); [lia|reflexivity]. Qed.
Lemma code3' b : is_byte b -> shl8 (Z.land b 0x0F) 2 = b mod 16 * 4.
Proof.
  intros. apply Z.eqb_eq.
  apply (zrange_forall (fun b => shl8 (Z.land b 0x0F) 2 =? b mod 16 * 4) 256); [vm_compute; reflexivity|unfold is_byte in *; lia].
Qed.
Lemma code2' a : is_byte a -> shl8 (Z.land a 0x03) 4 = a mod 4 * 16.
Proof.
  intros. apply Z.eqb_eq.
  apply (zrange_forall (fun a => shl8 (Z.land a 0x03) 4 =? a mod 4 * 16) 256); [vm_compute; reflexivity|unfold is_byte in *; lia].
Qed.

(** Induction in steps of three. *)
Lemma list_ind3 {A} (P : list A -> Prop) :
  P [] -> (forall a, P [a]) -> (forall a b, P [a; b]) ->
  (forall a b c l, P l -> P (a :: b :: c :: l)) -> forall l, P l.
Proof.
  intros H0 H1 H2 H3. fix IH 1. intros l.
  destruct l as [|a [|b [|c l]]]; [exact H0|exact (H1 a)|exact (H2 a b)|exact (H3 a b c l (IH l))].
Qed.

Lemma list_ind4 {A} (P : list A -> Prop) :
  P [] -> (forall a, P [a]) -> (forall a b, P [a; b]) -> (forall a b c, P [a; b; c]) ->
  (forall a b c d l, P l -> P (a :: b :: c :: d :: l)) -> forall l, P l.
Proof.
  intros H0 H1 H2 H3 H4. fix IH 1. intros l.
  destruct l as [|a [|b [|c [|d l]]]];
    [exact H0|exact (H1 a)|exact (H2 a b)|exact (H3 a b c)|exact (H4 a b c d l (IH l))].
Qed.

Lemma encode_vec {E} bs : all_bytes bs -> forall out,
  b64_encode (@VecWriter E) bs out = (out ++ b64_text bs, Ok (b64_padding bs)).
Proof.
  unfold b64_text, b64_padding.
  induction bs as [| a | a b | a b c l IH] using list_ind3; intros Hb out;
    unfold all_bytes in *; repeat match goal with H : Forall _ (_ :: _) |- _ => inversion H; clear H; subst end; unfold is_byte in *.
  - cbn. rewrite app_nil_r. reflexivity.
  - cbn [b64_encode b64_digits]. unfold sbind, slift, sret, digits2. cbn [sw_write VecWriter SerWrite_default map].
    rewrite code1, code2' by (unfold is_byte; lia). rewrite !armour_spec by lia.
    replace (a * 16 / 64) with (a / 4) by lia. replace (a * 16 mod 64) with (a mod 4 * 16) by lia. reflexivity.
  - cbn [b64_encode b64_digits]. unfold sbind, slift, sret, digits3. cbn [sw_write VecWriter SerWrite_default map].
    rewrite code1, code2, code3' by (unfold is_byte; lia). rewrite !armour_spec by lia.
    replace ((a * 256 + b) * 4 / 4096) with (a / 4) by lia.
    replace ((a * 256 + b) * 4 / 64 mod 64) with (a mod 4 * 16 + b / 16) by lia.
    replace ((a * 256 + b) * 4 mod 64) with (b mod 16 * 4) by lia. reflexivity.
  - cbn [b64_encode b64_digits]. unfold sbind at 1, slift, digits4. cbn [sw_write VecWriter SerWrite_default].
    rewrite IH by auto. rewrite map_app, app_assoc. cbn [map].
    rewrite code1, code2, code3, code4 by (unfold is_byte; lia). rewrite !armour_spec by lia.
    replace ((a * 65536 + b * 256 + c) / 262144) with (a / 4) by lia.
    replace ((a * 65536 + b * 256 + c) / 4096 mod 64) with (a mod 4 * 16 + b / 16) by lia.
    replace ((a * 65536 + b * 256 + c) / 64 mod 64) with (b mod 16 * 4 + c / 64) by lia.
    replace ((a * 65536 + b * 256 + c) mod 64) with (c mod 64) by lia.
    do 2 f_equal. unfold zlen. cbn [length]. lia.
Qed.

Lemma b64_digits_range bs : all_bytes bs -> Forall (fun v => 0 <= v < 64) (b64_digits bs).
Proof.
  induction bs as [| a | a b | a b c l IH] using list_ind3; intros Hb; cbn [b64_digits digits2 digits3 digits4 app];
    unfold all_bytes in *; repeat match goal with H : Forall _ (_ :: _) |- _ => inversion H; clear H; subst end; unfold is_byte in *;
    repeat constructor; try lia. auto.
Qed.

Lemma b64_digits_length bs : zlen (b64_digits bs) = (4 * zlen bs + 2) / 3.
Proof.
  unfold zlen. induction bs as [| a | a b | a b c l IH] using list_ind3; try reflexivity.
  cbn [b64_digits digits4 app length]. lia.
Qed.

Lemma b64_bytes_digits bs : all_bytes bs -> b64_bytes (b64_digits bs) = bs.
Proof.
  induction bs as [| a | a b | a b c l IH] using list_ind3; intros Hb; try reflexivity;
    unfold all_bytes in *; repeat match goal with H : Forall _ (_ :: _) |- _ => inversion H; clear H; subst end; unfold is_byte in *.
  - cbn [b64_digits digits2 b64_bytes]. f_equal. lia.
  - cbn [b64_digits digits3 b64_bytes]. f_equal; [lia|]. f_equal. lia.
  - cbn [b64_digits digits4 b64_bytes app]. f_equal; [lia|]. f_equal; [lia|]. f_equal; [lia|]. auto.
Qed.

Lemma b64_bytes_length ds : length (b64_bytes ds) = (3 * length ds / 4)%nat.
Proof.
  induction ds as [| a | a b | a b c | a b c d l IH] using list_ind4; try reflexivity.
  cbn [b64_bytes length]. rewrite IH. lia.
Qed.

Lemma b64_bytes_range ds : Forall (fun v => 0 <= v < 64) ds -> all_bytes (b64_bytes ds).
Proof.
  induction ds as [| a | a b | a b c | a b c d l IH] using list_ind4; intros H; cbn [b64_bytes];
    repeat match goal with H : Forall _ (_ :: _) |- _ => inversion H; clear H; subst end;
    unfold all_bytes, is_byte; repeat constructor; try lia. apply IH. auto.
Qed.

(** ** Decoding *)

(** The packed number after folding digits [ds]: a one bit, then the digits. *)
Definition packed (ds : list Z) : Z := fold_left (fun a d => a * 64 + d) ds 1.

Lemma decode_cell_char acc v : 0 <= v < 64 -> 0 <= acc < 2 ^ 26 ->
  decode_cell acc (b64_char v) = Ok (acc * 64 + v).
Proof.
  intros Hv Ha. unfold decode_cell. rewrite get_code_char by auto. f_equal.
  rewrite Z.shiftl_mul_pow2 by lia. rewrite Z.mod_small by lia.
  rewrite Z.lor_comm, (lor_add_small 6) by lia. lia.
Qed.

Lemma try_fold_chars ds l : Forall (fun v => 0 <= v < 64) ds -> (length ds <= 4)%nat ->
  try_fold 1 (map b64_char ds ++ l) = try_fold (packed ds) l.
Proof.
  intros F L. unfold packed.
  destruct ds as [|a [|b [|c [|d [|]]]]]; cbn [length] in L; try lia;
    repeat match goal with H : Forall _ (_ :: _) |- _ => inversion H; clear H; subst end;
    cbn [map app try_fold fold_left]; repeat rewrite decode_cell_char by lia; reflexivity.
Qed.

Lemma try_fold_stop acc l : (forall c r, l = c :: r -> ~ in_alphabet c) ->
  try_fold acc l = match l with [] => Ok acc | _ => Err acc end.
Proof.
  destruct l as [|c r]; [reflexivity|]. intros H. cbn [try_fold]. unfold decode_cell.
  destruct (get_code c) eqn:G; [|reflexivity].
  exfalso. apply (H c r eq_refl). apply get_code_spec in G. eexists. eauto.
Qed.

(** The byte at the front of the memory, written in place. *)
Lemma splice_front (pre old l bs : bytes) : length bs = length old ->
  splice (pre ++ old ++ l) (length pre) bs = (pre ++ bs) ++ l.
Proof.
  intros H. unfold splice. rewrite firstn_app, Nat.sub_diag, firstn_O, app_nil_r, firstn_all.
  rewrite <- app_assoc. do 2 f_equal. rewrite app_assoc. rewrite skipn_app, skipn_all2 by (rewrite app_length; lia).
  cbn [app]. rewrite app_length. replace (length pre + length bs - (length pre + length old))%nat with 0%nat by lia.
  reflexivity.
Qed.

Section Dec.
Context (ar : arch).

Definition finish (e : option Z) (mem : bytes) (dlen left : Z) : b64_outcome :=
  match e with Some e => B64 mem dlen (e + left) | None => B64Panic end.

Lemma encoded_fits n : n * 4 <= usize_max ar -> encoded_of ar n = Some (n * 4 / 3).
Proof. unfold encoded_of. intros. destruct (_ <=? _) eqn:E; [auto|lia]. Qed.

Lemma log2_between p k : 0 <= k -> 2 ^ k <= p < 2 ^ (k + 1) -> Z.log2 p = k.
Proof. intros. apply Z.log2_unique; auto. Qed.

Lemma handle_tail_spec ds dec rest dcount : Forall (fun v => 0 <= v < 64) ds -> (length ds <= 3)%nat ->
  (length (b64_bytes ds) <= length rest)%nat ->
  handle_tail ar dcount (packed ds) (dec ++ rest) (length dec)
  = finish (encoded_of ar dcount) (dec ++ b64_bytes ds ++ skipn (length (b64_bytes ds)) rest)
        (dcount + zlen (b64_bytes ds)) (zlen ds).
Proof.
  intros F L R. unfold finish.
  assert (Hp : 0 < packed ds).
  { unfold packed. destruct ds as [|a [|b [|c [|]]]]; cbn [length fold_left] in *; try lia;
    repeat match goal with H : Forall _ (_ :: _) |- _ => inversion H; clear H; subst end; lia. }
  unfold handle_tail. destruct (packed ds <=? 0) eqn:E0; [lia|].
  unfold leading_zeros32. rewrite E0. destruct (encoded_of ar dcount) as [e|]; [|reflexivity].
  assert (Hl : Z.log2 (packed ds) = 6 * zlen ds).
  { apply log2_between; [unfold zlen; lia|]. unfold packed, zlen.
    destruct ds as [|a [|b [|c [|]]]]; cbn [length fold_left] in *; try lia;
    repeat match goal with H : Forall _ (_ :: _) |- _ => inversion H; clear H; subst end; lia. }
  rewrite Hl. replace ((31 - (31 - 6 * zlen ds)) / 6) with (zlen ds) by lia.
  destruct ds as [|a [|b [|c [|]]]]; cbn [length] in L; try lia;
    repeat match goal with H : Forall _ (_ :: _) |- _ => inversion H; clear H; subst end;
    cbn [b64_bytes length zlen] in *; unfold zlen; cbn [length].
  - change (Z.to_nat (Z.max 0 (Z.of_nat 0 - 1))) with 0%nat. cbn [tail_loop]. cbn [skipn app]. f_equal; lia.
  - change (Z.to_nat (Z.max 0 (Z.of_nat 1 - 1))) with 0%nat. cbn [tail_loop]. cbn [skipn app]. f_equal; lia.
  - change (Z.to_nat (Z.max 0 (Z.of_nat 2 - 1))) with 1%nat. cbn [tail_loop].
    destruct rest as [|r0 rest]; [cbn in R; lia|]. rewrite app_length. cbn [length] in *.
    destruct (Nat.ltb_spec (length dec) (length dec + S (length rest))); [|lia].
    change (r0 :: rest) with ([r0] ++ rest) at 1. rewrite splice_front by reflexivity.
    rewrite <- app_assoc. cbn [skipn app]. unfold packed. cbn [fold_left].
    f_equal; try lia. do 2 f_equal. unfold as_u8.
    rewrite Z.shiftl_mul_pow2, Z.shiftr_div_pow2 by lia.
    change (2 ^ (Z.of_nat 2 * 2)) with 16. change (2 ^ (Z.of_nat 1 * 8)) with 256. lia.
  - change (Z.to_nat (Z.max 0 (Z.of_nat 3 - 1))) with 2%nat. cbn [tail_loop].
    destruct rest as [|r0 [|r1 rest]]; [cbn in R; lia|cbn in R; lia|]. rewrite app_length. cbn [length] in *.
    destruct (Nat.ltb_spec (length dec) (length dec + S (S (length rest)))); [|lia].
    change (r0 :: r1 :: rest) with ([r0] ++ r1 :: rest) at 1. rewrite splice_front by reflexivity.
    change (r0 :: r1 :: rest) with ([r0] ++ r1 :: rest) at 1. rewrite splice_front by reflexivity.
    rewrite app_length. cbn [length].
    rewrite app_length. cbn [length].
    destruct (Nat.ltb_spec (S (length dec)) (length dec + 1 + S (length rest))); [|lia].
    change (r1 :: rest) with ([r1] ++ rest).
    match goal with |- context [splice (?p ++ [r1] ++ rest) (S (length dec)) ?b] =>
      replace (S (length dec)) with (length p) by (rewrite app_length; cbn [length]; lia) end.
    rewrite splice_front by reflexivity.
    rewrite <- !app_assoc. cbn [skipn app]. unfold packed. cbn [fold_left].
    f_equal; try lia. do 2 f_equal.
    + unfold as_u8. rewrite Z.shiftl_mul_pow2, Z.shiftr_div_pow2 by lia.
      change (2 ^ (Z.of_nat 3 * 2)) with 64. change (2 ^ (Z.of_nat 2 * 8)) with 65536. lia.
    + f_equal. unfold as_u8. rewrite Z.shiftl_mul_pow2, Z.shiftr_div_pow2 by lia.
      change (2 ^ (Z.of_nat 3 * 2)) with 64. change (2 ^ (Z.of_nat 1 * 8)) with 256. lia.
Qed.

Lemma packed_one ds : Forall (fun v => 0 <= v < 64) ds -> (length ds <= 3)%nat -> packed ds = 1 -> ds = [].
Proof.
  unfold packed. intros F L E.
  destruct ds as [|a [|b [|c [|]]]]; auto; cbn [length fold_left] in *; try lia;
    repeat match goal with H : Forall _ (_ :: _) |- _ => inversion H; clear H; subst end; lia.
Qed.

Lemma skipn_app_len {A} (a b : list A) : skipn (length a) (a ++ b) = b.
Proof. rewrite skipn_app, skipn_all, Nat.sub_diag. reflexivity. Qed.
Lemma firstn_app_len {A} (a b : list A) : firstn (length a) (a ++ b) = a.
Proof. rewrite firstn_app, firstn_all, Nat.sub_diag, firstn_O, app_nil_r. reflexivity. Qed.

(** The end of the input: at most three more digits. *)
Lemma decode_end ds n dec mid rest k :
  Forall (fun v => 0 <= v < 64) ds -> (length ds <= 3)%nat ->
  (forall c r, rest = c :: r -> ~ in_alphabet c) ->
  length dec = (3 * k)%nat -> length mid = k -> n = (length (map b64_char ds ++ rest) / 4)%nat ->
  decode_loop ar n (dec ++ mid ++ map b64_char ds ++ rest) (4 * k) (3 * k) (3 * Z.of_nat k)
  = finish (encoded_of ar (3 * Z.of_nat k))
        (dec ++ b64_bytes ds ++ skipn (length (b64_bytes ds)) (mid ++ map b64_char ds ++ rest))
        (3 * Z.of_nat k + zlen (b64_bytes ds)) (zlen ds).
Proof.
  intros F L NA Ld Lm ->.
  assert (T : handle_tail ar (3 * Z.of_nat k) (packed ds) (dec ++ mid ++ map b64_char ds ++ rest) (3 * k)
    = finish (encoded_of ar (3 * Z.of_nat k))
        (dec ++ b64_bytes ds ++ skipn (length (b64_bytes ds)) (mid ++ map b64_char ds ++ rest))
        (3 * Z.of_nat k + zlen (b64_bytes ds)) (zlen ds)).
  { rewrite <- Ld. apply handle_tail_spec; auto.
    rewrite b64_bytes_length, !app_length, map_length. lia. }
  assert (Sk : skipn (4 * k) (dec ++ mid ++ map b64_char ds ++ rest) = map b64_char ds ++ rest).
  { rewrite app_assoc. replace (4 * k)%nat with (length (dec ++ mid)) by (rewrite app_length; lia). apply skipn_app_len. }
  destruct (length (map b64_char ds ++ rest) / 4)%nat as [|n] eqn:En; cbn [decode_loop].
  - rewrite Sk, try_fold_chars by (auto; lia). rewrite try_fold_stop by auto.
    destruct rest as [|c r]; [|exact T].
    destruct (packed ds =? 1) eqn:E1; [|exact T].
    apply Z.eqb_eq, packed_one in E1; auto. subst ds.
    cbn [b64_bytes map length skipn app]. unfold finish.
    change (zlen (@nil Z)) with 0. rewrite !app_nil_r, Z.add_0_r.
    destruct (encoded_of ar (3 * Z.of_nat k)); [|reflexivity]. f_equal; lia.
  - unfold slice. rewrite Sk.
    destruct rest as [|c r]; [rewrite app_nil_r, map_length in En; lia|].
    assert (Fi : firstn 4 (map b64_char ds ++ c :: r) = map b64_char ds ++ firstn (4 - length ds) (c :: r)).
    { rewrite firstn_app, map_length. rewrite firstn_all2 by (rewrite map_length; lia). reflexivity. }
    rewrite Fi, try_fold_chars by (auto; lia).
    rewrite try_fold_stop.
    + destruct (firstn (4 - length ds) (c :: r)) eqn:Ef; [|exact T].
      replace (4 - length ds)%nat with (S (3 - length ds)) in Ef by lia. discriminate.
    + intros c' r' E. replace (4 - length ds)%nat with (S (3 - length ds)) in E by lia.
      cbn [firstn] in E. injection E as <- _. eapply NA; eauto.
Qed.

Lemma decode_loop_spec ds : Forall (fun v => 0 <= v < 64) ds -> forall n dec mid rest k,
  (forall c r, rest = c :: r -> ~ in_alphabet c) ->
  length dec = (3 * k)%nat -> length mid = k -> n = (length (map b64_char ds ++ rest) / 4)%nat ->
  decode_loop ar n (dec ++ mid ++ map b64_char ds ++ rest) (4 * k) (3 * k) (3 * Z.of_nat k)
  = finish (encoded_of ar (3 * (Z.of_nat k + zlen ds / 4)))
        (dec ++ b64_bytes ds ++ skipn (length (b64_bytes ds)) (mid ++ map b64_char ds ++ rest))
        (3 * Z.of_nat k + zlen (b64_bytes ds)) (zlen ds mod 4).
Proof.
  induction ds as [| a | a b | a b c | a b c d ds IH] using list_ind4; intros F n dec mid rest k NA Ld Lm Hn;
    try (rewrite decode_end; [unfold zlen; cbn [length]; f_equal; (reflexivity || lia || (f_equal; lia))
                         |auto|cbn [length]; lia|auto|auto|auto|auto]).
  rewrite Hn. cbn [map app length].
  rewrite app_length, map_length.
  replace (S (S (S (S (length ds + length rest)))) / 4)%nat with (S ((length ds + length rest) / 4)) by lia.
  cbn [decode_loop].
  assert (Fd : Forall (fun v => 0 <= v < 64) ds) by (do 4 (inversion F as [|? ? _ F']; clear F; subst; rename F' into F); auto).
  set (ch := [b64_char a; b64_char b; b64_char c; b64_char d]).
  assert (Sl : slice (dec ++ mid ++ b64_char a :: b64_char b :: b64_char c :: b64_char d :: map b64_char ds ++ rest) (4 * k) 4 = ch).
  { unfold slice. rewrite app_assoc. replace (4 * k)%nat with (length (dec ++ mid)) by (rewrite app_length; lia).
    rewrite skipn_app_len. reflexivity. }
  rewrite Sl. unfold ch at 1.
  change [b64_char a; b64_char b; b64_char c; b64_char d] with (map b64_char [a;b;c;d]).
  rewrite <- (app_nil_r (map b64_char [a;b;c;d])), try_fold_chars.
  2:{ do 4 (inversion F as [|? ? ? F']; clear F; subst; rename F' into F). repeat constructor; lia. }
  2:{ cbn; lia. }
  cbn [try_fold].
  match goal with |- context [(?x <=? ?y)%nat] => destruct (Nat.leb_spec x y) as [_|Hlt] end.
  2:{ rewrite !app_length in Hlt. cbn [length] in Hlt. rewrite app_length, map_length in Hlt. lia. }
  assert (Ra : 0 <= a < 64 /\ 0 <= b < 64 /\ 0 <= c < 64 /\ 0 <= d < 64).
  { do 4 (inversion F as [|? ? ? F']; clear F; subst; rename F' into F). auto. }
  set (m := mid ++ ch).
  assert (Em : mid ++ b64_char a :: b64_char b :: b64_char c :: b64_char d :: map b64_char ds ++ rest
     = firstn 3 m ++ skipn 3 m ++ map b64_char ds ++ rest).
  { rewrite app_assoc, firstn_skipn. unfold m, ch. rewrite <- app_assoc. reflexivity. }
  rewrite Em.
  assert (Lm' : length m = S (S (S (S k)))) by (unfold m, ch; rewrite app_length; cbn [length]; lia).
  replace (3 * k)%nat with (length dec) by lia.
  rewrite splice_front by (rewrite firstn_length; cbn [length]; lia).
  replace (4 * k + 4)%nat with (4 * S k)%nat by lia. replace (length dec + 3)%nat with (3 * S k)%nat by lia.
  replace (3 * Z.of_nat k + 3) with (3 * Z.of_nat (S k)) by lia.
  cbn [b64_bytes] in *. unfold zlen in *. cbn [length] in *.
  rewrite IH; auto.
  - set (q := [_; _; _]).
    assert (Eq : q = [(((a * 64 + b) * 64 + c) * 64 + d) / 65536; (((a * 64 + b) * 64 + c) * 64 + d) / 256 mod 256;
                      (((a * 64 + b) * 64 + c) * 64 + d) mod 256]).
    { unfold q, packed, as_u8. cbn [fold_left]. rewrite !Z.shiftr_div_pow2 by lia.
      change (2 ^ 16) with 65536. change (2 ^ 8) with 256.
      f_equal; [lia|]. f_equal; [lia|]. f_equal. lia. }
    rewrite Eq. unfold finish.
    replace (3 * (Z.of_nat (S k) + Z.of_nat (length ds) / 4))
      with (3 * (Z.of_nat k + Z.of_nat (S (S (S (S (length ds))))) / 4)) by lia.
    destruct (encoded_of _ _); [|reflexivity]. f_equal; try lia.
    rewrite <- app_assoc. f_equal. cbn [app]. do 4 f_equal.
    replace (firstn 3 m ++ skipn 3 m ++ map b64_char ds ++ rest)
      with (firstn 3 m ++ (skipn 3 m ++ map b64_char ds ++ rest)) by auto.
    change (S (S (S (length (b64_bytes ds))))) with (3 + length (b64_bytes ds))%nat.
    rewrite <- skipn_add. f_equal.
    pose proof (skipn_app_len (firstn 3 m) (skipn 3 m ++ map b64_char ds ++ rest)) as Sm.
    rewrite firstn_length, Lm' in Sm. symmetry. exact Sm.
  - rewrite app_length. cbn [length]. lia.
  - rewrite skipn_length. lia.
  - rewrite app_length, map_length. reflexivity.
Qed.

(** What [decode] does to any slice. *)
Theorem b64_decode_gen ds rest : Forall (fun v => 0 <= v < 64) ds ->
  (forall c r, rest = c :: r -> ~ in_alphabet c) ->
  let slice := map b64_char ds ++ rest in
  b64_decode ar slice = finish (encoded_of ar (3 * (zlen ds / 4)))
    (b64_bytes ds ++ skipn (length (b64_bytes ds)) slice) (zlen (b64_bytes ds)) (zlen ds mod 4).
Proof.
  intros F NA. cbn zeta. unfold b64_decode.
  exact (decode_loop_spec ds F _ [] [] rest 0 NA eq_refl eq_refl eq_refl).
Qed.

Theorem b64_decode_spec ds rest : Forall (fun v => 0 <= v < 64) ds ->
  (forall c r, rest = c :: r -> ~ in_alphabet c) -> 3 * zlen ds <= usize_max ar ->
  let slice := map b64_char ds ++ rest in
  b64_decode ar slice = B64 (b64_bytes ds ++ skipn (length (b64_bytes ds)) slice) (zlen (b64_bytes ds)) (zlen ds).
Proof.
  intros F NA Hf. cbn zeta. rewrite b64_decode_gen, encoded_fits by (auto; lia). unfold finish. f_equal. lia.
Qed.

(** Exactly the slices with too many digits go wrong. *)
Theorem b64_decode_overflow ds rest : Forall (fun v => 0 <= v < 64) ds ->
  (forall c r, rest = c :: r -> ~ in_alphabet c) -> 0 <= usize_max ar < 12 * (zlen ds / 4) ->
  if overflow_checks ar then b64_decode ar (map b64_char ds ++ rest) = B64Panic
  else exists mem dlen elen, b64_decode ar (map b64_char ds ++ rest) = B64 mem dlen elen /\ elen <> zlen ds.
Proof.
  intros F NA [H0 Ho]. rewrite b64_decode_gen by auto. unfold encoded_of.
  destruct (_ <=? usize_max ar) eqn:E; [lia|]. destruct (overflow_checks ar); [reflexivity|].
  do 3 eexists. split; [reflexivity|].
  pose proof (Z.mod_pos_bound (3 * (zlen ds / 4) * 4) (usize_max ar + 1) ltac:(lia)). lia.
Qed.
End Dec.

(** Every slice splits at its first character outside the alphabet. *)
Lemma alphabet_split l : exists ds rest, l = map b64_char ds ++ rest /\
  Forall (fun v => 0 <= v < 64) ds /\ forall c r, rest = c :: r -> ~ in_alphabet c.
Proof.
  induction l as [|c l (ds & rest & -> & F & NA)].
  - exists [], []. repeat split; auto. discriminate.
  - destruct (get_code c) as [v|] eqn:G.
    + apply get_code_spec in G. destruct G as [Hv ->]. exists (v :: ds), rest. auto.
    + exists [], (c :: map b64_char ds ++ rest). repeat split; auto.
      intros c' r [= <- _]. apply get_code_none. auto.
Qed.

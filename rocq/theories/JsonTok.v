(** The tokens read by the JSON deserializer, against the grammar. *)
From Verif Require Import Prelude PreludeFacts Utf8 Utf8Spec Utf8Facts SerdeDe SerdeSer MpSpec Base64Spec Base64 Base64Facts Base64Top
  JsonSpec JsonFacts JsonDe JsonDeSafe JsonStr JsonView.
Ltac Zify.zify_post_hook ::= Z.div_mod_to_equations.

(** ** Integers *)
Definition fold_dec (neg : bool) (n : Z) (ds : bytes) : Z :=
  fold_left (fun a c => if neg then a * 10 - (c - 48) else a * 10 + (c - 48)) ds n.
Lemma digit_spec c : ascii_digit c = true <-> is_digit c.
Proof. unfold ascii_digit, is_digit. lia. Qed.
Definition no_digit (l : bytes) : Prop := match l with c :: _ => ~ is_digit c | [] => True end.

Lemma fold_grows ds : Forall is_digit ds -> forall n, 0 <= n -> n <= fold_dec false n ds.
Proof.
  induction 1 as [|c ds Hc H IH]; intros n Hn; [unfold fold_dec; cbn; lia|]. unfold is_digit in Hc.
  specialize (IH (n * 10 + (c - 48)) ltac:(lia)). unfold fold_dec in *. cbn [fold_left]. lia.
Qed.
Lemma fold_neg ds : forall n, fold_dec true n ds = - fold_dec false (- n) ds.
Proof.
  induction ds as [|c ds IH]; intros n; [unfold fold_dec; cbn; lia|]. specialize (IH (n * 10 - (c - 48))). unfold fold_dec in *. cbn [fold_left].
  rewrite IH. do 2 f_equal. lia.
Qed.
Lemma in_ikindb_spec k z : in_ikindb k z = true <-> in_ikind k z.
Proof. unfold in_ikindb, in_ikind. lia. Qed.
Lemma ikind_zero k : imin k <= 0 <= imax k.
Proof. destruct k; cbn; lia. Qed.

(** The loop is exact: it fails exactly when the number is out of range. *)
Lemma number_loop_spec (neg : bool) (k : ikind) (ds : bytes) : Forall is_digit ds -> forall n pos t, no_digit t ->
  in_ikindb k n = true -> (if neg then n <= 0 else 0 <= n) ->
  number_loop neg k n pos (ds ++ t) =
  if in_ikindb k (fold_dec neg n ds) then Ok (fold_dec neg n ds, (pos + length ds)%nat) else Err JInvalidNumber.
Proof.
  pose proof (ikind_zero k) as K0.
  induction 1 as [|c ds Hc H IH]; intros n pos t Ht Hn Hs.
  - cbn [app length]. rewrite Nat.add_0_r. unfold fold_dec. cbn [fold_left]. rewrite Hn. destruct t as [|c t]; [reflexivity|].
    cbn [number_loop]. cbn in Ht. destruct (ascii_digit c) eqn:E; [apply digit_spec in E; contradiction|reflexivity].
  - cbn [app number_loop]. rewrite (proj2 (digit_spec c) Hc). unfold is_digit in Hc.
    assert (Ef : fold_dec neg n (c :: ds) = fold_dec neg (if neg then n * 10 - (c - 48) else n * 10 + (c - 48)) ds) by reflexivity.
    rewrite Ef. set (n' := if neg then n * 10 - (c - 48) else n * 10 + (c - 48)) in *.
    assert (Hs' : if neg then n' <= 0 else 0 <= n') by (unfold n'; destruct neg; lia).
    assert (G : if neg then fold_dec neg n' ds <= n' else n' <= fold_dec neg n' ds).
    { destruct neg; [rewrite fold_neg; pose proof (fold_grows ds H (- n') ltac:(lia)); lia|apply fold_grows; auto]. }
    unfold checked. unfold in_ikindb in *.
    destruct ((imin k <=? n * 10) && (n * 10 <=? imax k)) eqn:E10.
    2:{ replace ((imin k <=? fold_dec neg n' ds) && (fold_dec neg n' ds <=? imax k)) with false; [reflexivity|].
        symmetry. unfold n' in *. destruct neg; lia. }
    replace (if neg then n * 10 - (c - 48) else n * 10 + (c - 48)) with n' by reflexivity.
    destruct ((imin k <=? n') && (n' <=? imax k)) eqn:En.
    2:{ replace ((imin k <=? fold_dec neg n' ds) && (fold_dec neg n' ds <=? imax k)) with false; [reflexivity|].
        symmetry. destruct neg; lia. }
    rewrite IH by auto. cbn [length]. replace (S pos + length ds)%nat with (pos + S (length ds))%nat by lia. reflexivity.
Qed.

Definition signed_kind (k : ikind) : bool := match k with I8 | I16 | I32 | I64 => true | _ => false end.
Lemma digit_small k c : is_digit c -> in_ikindb k (c - 48) = true.
Proof. intros H. unfold is_digit in H. apply in_ikindb_spec. unfold in_ikind. destruct k; cbn; lia. Qed.
Lemma digit_small_neg k c : signed_kind k = true -> is_digit c -> in_ikindb k (- (c - 48)) = true.
Proof. intros S H. unfold is_digit in H. apply in_ikindb_spec. unfold in_ikind. destruct k; try discriminate; cbn; lia. Qed.
Lemma fold_val d r : fold_dec false (d - 48) r = dec_val (d :: r).
Proof. unfold dec_val, fold_dec. cbn [fold_left]. reflexivity. Qed.

Lemma drop_ws_blank w l : blank w -> drop_ws (w ++ l) = drop_ws l.
Proof.
  induction 1 as [|c w Hc H IH]; [reflexivity|]. cbn [app drop_ws]. rewrite (proj2 (is_space_spec c)) by auto. apply IH.
Qed.
Lemma drop_ws_char c l : is_space c = false -> drop_ws (c :: l) = c :: l.
Proof. intros H. cbn [drop_ws]. rewrite H. reflexivity. Qed.
Lemma p_ws_blank {A} (F : Z -> bytes -> pres A) w c l : blank w -> is_space c = false -> p_ws F (w ++ c :: l) = F c l.
Proof. intros Hw Hc. unfold p_ws. rewrite drop_ws_blank, drop_ws_char by auto. reflexivity. Qed.
Lemma p_ws_inv {A} (F : Z -> bytes -> pres A) l a k : p_ws F l = Ok (a, k) ->
  exists w c r, l = w ++ c :: r /\ blank w /\ is_space c = false /\ F c r = Ok (a, k).
Proof.
  unfold p_ws. destruct (drop_ws_split l) as (w & E & Hw & Hc). destruct (drop_ws l) as [|c r]; [discriminate|].
  intros H. exists w, c, r. split; auto. split; auto. eapply Forall_impl; [|exact Hw]. cbn. intros b Hb. apply is_space_spec. auto.
Qed.
Lemma digit_not_space c : is_digit c -> is_space c = false.
Proof. unfold is_digit, is_space. intros H. lia. Qed.

(** The value of an integer literal. *)
Definition lit_val (neg : bool) (ds : bytes) : Z := if neg then - dec_val ds else dec_val ds.

Lemma p_loop_exact (neg : bool) (k : ikind) d r t : is_digit d -> Forall is_digit r -> no_digit t -> (neg = true -> signed_kind k = true) ->
  p_loop neg k (if neg then - (d - 48) else d - 48) (r ++ t) =
  if in_ikindb k (lit_val neg (d :: r)) then Ok (lit_val neg (d :: r), t) else Err JInvalidNumber.
Proof.
  intros Hd Hr Ht Hk. unfold p_loop. rewrite number_loop_spec; auto.
  - replace (fold_dec neg (if neg then - (d - 48) else d - 48) r) with (lit_val neg (d :: r)).
    + destruct (in_ikindb _ _); [|reflexivity]. cbn [Nat.add]. rewrite skipn_len. reflexivity.
    + unfold lit_val. destruct neg; [rewrite fold_neg, Z.opp_involutive|]; rewrite fold_val; reflexivity.
  - destruct neg; [apply digit_small_neg; auto|apply digit_small; auto].
  - unfold is_digit in Hd. destruct neg; lia.
Qed.

(** Reading an integer literal: exact, or InvalidNumber. *)
Lemma p_int_exact k w (neg : bool) ds t : blank w -> int_part ds -> no_digit t ->
  p_int k (w ++ (if neg then [45] else []) ++ ds ++ t) =
  if (negb neg || signed_kind k) && in_ikindb k (lit_val neg ds) then Ok (lit_val neg ds, t) else Err JInvalidNumber.
Proof.
  intros Hw [[Hn Hd] Hz] Ht. destruct ds as [|d r]; [contradiction|]. inversion Hd as [|? ? Hd0 Hr]; subst. clear Hn.
  pose proof (ikind_zero k) as K0.
  assert (Z0 : d = 48 -> r = [] /\ forall b : bool, lit_val b (d :: r) = 0).
  { intros ->. destruct Hz as [[= ->]|(d' & r' & [= <- <-] & H)]; [|contradiction]. split; auto. intros []; reflexivity. }
  assert (In0 : in_ikindb k 0 = true) by (apply in_ikindb_spec; exact K0).
  assert (Pos : forall c : bool, (if d =? 48 then Ok (0, r ++ t) else if ascii_digit d then p_loop false k (d - 48) (r ++ t) else Err JInvalidType) =
     if in_ikindb k (lit_val false (d :: r)) then Ok (lit_val false (d :: r), t) else Err JInvalidNumber).
  { intros _. destruct (d =? 48) eqn:E.
    - destruct (Z0 ltac:(lia)) as [-> H0]. rewrite H0, In0. reflexivity.
    - rewrite (proj2 (digit_spec d) Hd0). apply (p_loop_exact false k d r t); auto. discriminate. }
  assert (Neg : signed_kind k = true -> (if d =? 48 then Ok (0, r ++ t) else if ascii_digit d then p_loop true k (- (d - 48)) (r ++ t) else Err JInvalidType) =
     if in_ikindb k (lit_val true (d :: r)) then Ok (lit_val true (d :: r), t) else Err JInvalidNumber).
  { intros Hk. destruct (d =? 48) eqn:E.
    - destruct (Z0 ltac:(lia)) as [-> H0]. rewrite H0, In0. reflexivity.
    - rewrite (proj2 (digit_spec d) Hd0). apply (p_loop_exact true k d r t); auto. }
  assert (Nd : (d =? 45) = false) by (unfold is_digit in Hd0; lia).
  assert (U : signed_kind k = false -> p_unsigned k (w ++ (if neg then [45] else []) ++ (d :: r) ++ t) =
    if (negb neg || signed_kind k) && in_ikindb k (lit_val neg (d :: r)) then Ok (lit_val neg (d :: r), t) else Err JInvalidNumber).
  { intros Hk. unfold p_unsigned. destruct neg; cbn [app negb orb].
    - rewrite p_ws_blank by auto. rewrite Hk. reflexivity.
    - rewrite p_ws_blank by (auto; apply digit_not_space; auto). rewrite Nd. apply (Pos true). }
  assert (S : signed_kind k = true -> p_signed k (w ++ (if neg then [45] else []) ++ (d :: r) ++ t) =
    if (negb neg || signed_kind k) && in_ikindb k (lit_val neg (d :: r)) then Ok (lit_val neg (d :: r), t) else Err JInvalidNumber).
  { intros Hk. unfold p_signed. rewrite Hk, orb_true_r. destruct neg; cbn [app andb].
    - rewrite p_ws_blank by auto. apply (Neg Hk).
    - rewrite p_ws_blank by (auto; apply digit_not_space; auto). rewrite Nd. apply (Pos true). }
  unfold p_int. destruct k; (apply U; reflexivity) || (apply S; reflexivity).
Qed.

(** What is read as an integer is an integer literal. *)
Lemma digits_span l : exists ds t, l = ds ++ t /\ Forall is_digit ds /\ no_digit t.
Proof.
  induction l as [|c l (ds & t & -> & Hd & Ht)]; [exists [], []; cbn; auto|]. destruct (ascii_digit c) eqn:E.
  - exists (c :: ds), t. split; [auto|]. split; [|auto]. constructor; [apply digit_spec; auto|auto].
  - exists [], (c :: ds ++ t). split; [auto|]. split; [auto|]. cbn. rewrite <- digit_spec. congruence.
Qed.
Lemma p_int_sound k l z t : p_int k l = Ok (z, t) -> exists w neg ds,
  l = w ++ (if neg : bool then [45] else []) ++ ds ++ t /\ blank w /\ int_part ds /\ (ds = [48] \/ no_digit t) /\
  z = lit_val neg ds /\ in_ikind k z /\ (neg = true -> signed_kind k = true).
Proof.
  intros H.
  assert (IP0 : int_part [48]) by (split; [split; [discriminate|repeat constructor; lia]|left; reflexivity]).
  assert (In0 : in_ikind k 0) by (apply ikind_zero).
  assert (L : forall neg d r, is_digit d -> d <> 48 -> (neg = true -> signed_kind k = true) ->
    p_loop neg k (if neg then - (d - 48) else d - 48) r = Ok (z, t) ->
    exists ds, d :: r = ds ++ t /\ int_part ds /\ no_digit t /\ z = lit_val neg ds /\ in_ikind k z).
  { intros neg d r Hd N0 Hk E. destruct (digits_span r) as (ds & t' & -> & Hds & Ht'). rewrite p_loop_exact in E by auto.
    destruct (in_ikindb _ _) eqn:Ek; [|discriminate]. injection E as <- <-. exists (d :: ds).
    split; [auto|]. split; [split; [split; [discriminate|constructor; auto]|right; eauto]|]. split; [auto|]. split; [auto|]. apply in_ikindb_spec; auto. }
  assert (U : signed_kind k = false -> p_unsigned k l = Ok (z, t) -> exists w neg ds,
    l = w ++ (if neg : bool then [45] else []) ++ ds ++ t /\ blank w /\ int_part ds /\ (ds = [48] \/ no_digit t) /\
    z = lit_val neg ds /\ in_ikind k z /\ (neg = true -> signed_kind k = true)).
  { intros Hk E. apply p_ws_inv in E. destruct E as (w & c & r & -> & Hw & _ & E). exists w, false. destruct (c =? 45); [discriminate|].
    destruct (c =? 48) eqn:E48.
    - injection E as <- <-. exists [48]. split; [cbn; do 2 f_equal; lia|]. repeat (split; auto). discriminate.
    - destruct (ascii_digit c) eqn:Ed; [|discriminate]. apply digit_spec in Ed.
      destruct (L false c r) as (ds & E1 & E2 & E3 & E4 & E5); auto; [lia|discriminate|]. exists ds. rewrite E1. repeat (split; auto). discriminate. }
  assert (S : signed_kind k = true -> p_signed k l = Ok (z, t) -> exists w neg ds,
    l = w ++ (if neg : bool then [45] else []) ++ ds ++ t /\ blank w /\ int_part ds /\ (ds = [48] \/ no_digit t) /\
    z = lit_val neg ds /\ in_ikind k z /\ (neg = true -> signed_kind k = true)).
  { intros Hk E. apply p_ws_inv in E. destruct E as (w & c & r & -> & Hw & _ & E). exists w. destruct (c =? 45) eqn:E45.
    - exists true. assert (c = 45) as -> by lia. destruct r as [|d r]; [discriminate|]. destruct (d =? 48) eqn:E48.
      + injection E as <- <-. exists [48]. split; [cbn; do 3 f_equal; lia|]. repeat (split; auto).
      + destruct (ascii_digit d) eqn:Ed; [|discriminate]. apply digit_spec in Ed.
        destruct (L true d r) as (ds & E1 & E2 & E3 & E4 & E5); auto; [lia|]. exists ds. rewrite E1. repeat (split; auto).
    - exists false. destruct (c =? 48) eqn:E48.
      + injection E as <- <-. exists [48]. split; [cbn; do 2 f_equal; lia|]. repeat (split; auto).
      + destruct (ascii_digit c) eqn:Ed; [|discriminate]. apply digit_spec in Ed.
        destruct (L false c r) as (ds & E1 & E2 & E3 & E4 & E5); auto; [lia|]. exists ds. rewrite E1. repeat (split; auto). }
  unfold p_int in H. destruct k; (apply U; [reflexivity|exact H]) || (apply S; [reflexivity|exact H]).
Qed.

(** ** Hex *)
Lemma p_hex_complete h bs : hex_bytes h bs -> forall k, p_hex (h ++ 34 :: k) = Ok (bs, k).
Proof.
  induction 1 as [|a b x y h bs Ha Hb H IH]; intros k.
  - cbn. destruct k; reflexivity.
  - cbn [app p_hex]. assert (Ra : 0 <= a < 256) by (unfold hex_digit in Ha; lia). assert (Rb : 0 <= b < 256) by (unfold hex_digit in Hb; lia).
    rewrite (proj2 (hex_nib_spec a x Ra) Ha), (proj2 (hex_nib_spec b y Rb) Hb), IH. reflexivity.
Qed.
Lemma p_hex_sound l : all_bytes l -> forall bs k, p_hex l = Ok (bs, k) -> exists h, l = h ++ 34 :: k /\ hex_bytes h bs.
Proof.
  induction l as [l IH] using list_ind_strong. intros Hb bs k. destruct l as [|a [|b l]]; cbn [p_hex]; [discriminate| |].
  - destruct (a =? 34) eqn:E; [|discriminate]. intros [= <- <-]. exists []. split; [cbn; f_equal; lia|constructor].
  - inversion Hb as [|? ? Ba Hb1]; subst. inversion Hb1 as [|? ? Bb Hb2]; subst. unfold is_byte in *.
    destruct (parse_hex_nib a) as [x|] eqn:Ea.
    + destruct (parse_hex_nib b) as [y|] eqn:Eb; [|discriminate]. destruct (p_hex l) as [[bs' k']|e] eqn:El; [|discriminate].
      intros [= <- <-]. destruct (IH l ltac:(cbn; lia) Hb2 _ _ El) as (h & -> & Hh). exists (a :: b :: h). split; [auto|].
      constructor; auto; apply hex_nib_spec; auto.
    + destruct (a =? 34) eqn:E; [|discriminate]. intros [= <- <-]. exists []. split; [cbn; f_equal; lia|constructor].
Qed.
Lemma hex_text_bytes bs : all_bytes bs -> hex_bytes (hex_text bs) bs.
Proof.
  induction 1 as [|b bs Hb H IH]; [constructor|]. unfold hex_text. cbn [flat_map app]. fold (hex_text bs). unfold is_byte in Hb.
  replace (b :: bs) with (b / 16 * 16 + b mod 16 :: bs) by (f_equal; lia).
  constructor; auto; apply hex_upper_digit; lia.
Qed.

(** ** Base64 *)
Definition digit64 (v : Z) : Prop := 0 <= v < 64.
Lemma not_alphabet c : c = 34 \/ c = 61 -> ~ in_alphabet c.
Proof.
  intros Hc (v & Hv & E).
  pose proof (zrange_forall (fun v => negb (b64_char v =? 34) && negb (b64_char v =? 61)) 64 ltac:(vm_compute; reflexivity) v ltac:(lia)) as H.
  cbn beta in H. lia.
Qed.
Lemma drop_pad_repeat n l : match l with c :: _ => c <> 61 | [] => True end -> drop_pad (repeat 61 n ++ l) = l.
Proof.
  intros H. induction n as [|n IH]; [|exact IH]. cbn [repeat app]. destruct l as [|c l]; [reflexivity|]. cbn [drop_pad].
  replace (c =? 61) with false by lia. reflexivity.
Qed.
Lemma drop_pad_split l : exists n, l = repeat 61 n ++ drop_pad l.
Proof.
  induction l as [|c l (n & E)]; [exists 0%nat; reflexivity|]. cbn [drop_pad]. destruct (c =? 61) eqn:E61; [|exists 0%nat; reflexivity].
  exists (S n). cbn [repeat app]. f_equal; [lia|exact E].
Qed.
Lemma alphabet_unique ds1 : Forall digit64 ds1 -> forall ds2 r1 r2, Forall digit64 ds2 -> map b64_char ds1 ++ r1 = map b64_char ds2 ++ r2 ->
  (forall c r, r1 = c :: r -> ~ in_alphabet c) -> (forall c r, r2 = c :: r -> ~ in_alphabet c) -> ds1 = ds2 /\ r1 = r2.
Proof.
  assert (Inj : forall x y, digit64 x -> digit64 y -> b64_char x = b64_char y -> x = y).
  { unfold digit64. intros x y Hx Hy E. unfold b64_char in E.
    repeat match type of E with context [if ?b then _ else _] => destruct b eqn:? end; lia. }
  induction 1 as [|x ds1 Hx H IH]; intros ds2 r1 r2 H2 E N1 N2.
  - destruct H2 as [|y ds2 Hy H2]; [cbn in E; auto|]. cbn in E. exfalso. eapply N1; [exact E|]. exists y. split; auto.
  - destruct H2 as [|y ds2 Hy H2]; cbn in E.
    + exfalso. eapply N2; [symmetry; exact E|]. exists x. split; auto.
    + injection E as Ex E. destruct (IH ds2 r1 r2) as [-> ->]; auto. rewrite (Inj x y); auto.
Qed.
Lemma p_base64_complete ar ds n k : Forall digit64 ds -> 3 * zlen (map b64_char ds ++ repeat 61 n ++ 34 :: k) <= usize_max ar ->
  p_base64 ar (map b64_char ds ++ repeat 61 n ++ 34 :: k) = Ok (b64_bytes ds, k).
Proof.
  intros Hd Hr. set (l := map b64_char ds ++ repeat 61 n ++ 34 :: k) in *.
  destruct (decode_any ar l Hr) as (ds' & rest & mem & E & Hd' & NA & Ed & Em & Lm & Lz).
  destruct (alphabet_unique ds Hd ds' (repeat 61 n ++ 34 :: k) rest) as [-> <-]; auto.
  { destruct n; cbn; intros c r [= <- _]; apply not_alphabet; auto. }
  unfold p_base64. rewrite Ed. unfold zlen. rewrite !Nat2Z.id. rewrite Em, firstn_len.
  replace (skipn (length ds') l) with (repeat 61 n ++ 34 :: k).
  2:{ unfold l. rewrite <- (map_length b64_char ds'), skipn_len. reflexivity. }
  destruct n as [|n]; cbn [repeat app]; [reflexivity|]. change (61 =? 34) with false. change (61 =? 61) with true. cbn iota.
  rewrite drop_pad_repeat by discriminate. reflexivity.
Qed.
Lemma p_base64_sound ar l bs k : 3 * zlen l <= usize_max ar -> p_base64 ar l = Ok (bs, k) ->
  exists ds n, l = map b64_char ds ++ repeat 61 n ++ 34 :: k /\ Forall digit64 ds /\ bs = b64_bytes ds.
Proof.
  intros Hr. destruct (decode_any ar l Hr) as (ds & rest & mem & E & Hd & NA & Ed & Em & Lm & Lz).
  unfold p_base64. rewrite Ed. unfold zlen. rewrite !Nat2Z.id. rewrite Em, firstn_len.
  replace (skipn (length ds) l) with rest by (rewrite E, <- (map_length b64_char ds), skipn_len; reflexivity).
  destruct rest as [|c r]; [discriminate|]. destruct (c =? 34) eqn:E34.
  - intros [= <- <-]. exists ds, 0%nat. split; [|auto]. rewrite E. cbn. do 2 f_equal. lia.
  - destruct (c =? 61) eqn:E61; [|discriminate]. destruct (drop_pad_split r) as (n & Er). destruct (drop_pad r) as [|c' r']; [discriminate|].
    destruct (c' =? 34) eqn:E34'; [|discriminate]. intros [= <- <-]. exists ds, (S n). split; [|auto].
    rewrite E. cbn [repeat app]. f_equal. assert (c' = 34) as -> by lia. f_equal; [lia|auto].
Qed.
Lemma b64_text_digits bs : all_bytes bs -> exists ds, b64_text bs = map b64_char ds /\ Forall digit64 ds /\ b64_bytes ds = bs.
Proof.
  intros H. exists (b64_digits bs). split; [reflexivity|]. split; [apply b64_digits_range; auto|]. apply b64_bytes_digits. auto.
Qed.

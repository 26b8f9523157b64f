(** Base64: the statements about the public functions. *)
From Verif Require Import Prelude PreludeFacts Utf8Facts Writer WriterContract SerMonad SerSim Base64Spec Base64 Base64Facts.
Ltac Zify.zify_post_hook ::= Z.div_mod_to_equations.

Lemma encode_sim {W E} (SW : SerWrite W E) inv content : lawful SW inv content -> forall bs,
  sim SW inv content (fun _ => True) (b64_encode SW bs) (b64_encode VecWriter bs).
Proof.
  intros law bs. induction bs as [| a | a b | a b c l IH] using list_ind3; cbn [b64_encode];
    repeat first [apply sim_ret | apply sim_write; auto | exact IH | apply sim_bind; [|intros]].
Qed.

Theorem encode_writes {W E} (SW : SerWrite W E) inv content : lawful SW inv content -> forall bs w w' r,
  all_bytes bs -> inv w -> b64_encode SW bs w = (w', r) ->
  match r with
  | Ok n => content w' = content w ++ b64_text bs /\ n = b64_padding bs
  | Err _ => exists p, prefix p (b64_text bs) /\ content w' = content w ++ p
  end.
Proof.
  intros law bs w w' r Hb I Ew.
  destruct (encode_sim SW inv content law bs w [] I) as (out & E1 & _ & H).
  rewrite encode_vec in E1, H by auto. rewrite Ew in H. cbn [fst snd app] in *. subst out.
  destruct H as [(-> & C & _) | ((e & -> & _) & p & Pp & C & _)]; eauto.
Qed.

Lemma padding_length bs : zlen (b64_text bs) + b64_padding bs = 4 * ((zlen bs + 2) / 3).
Proof.
  unfold b64_text, b64_padding, zlen. rewrite map_length.
  pose proof (b64_digits_length bs) as H. unfold zlen in H. lia.
Qed.

(** Decoding an encoded text. *)
Theorem decode_encoded ar bs rest : all_bytes bs ->
  (forall c r, rest = c :: r -> ~ in_alphabet c) -> 3 * zlen (b64_text bs) <= usize_max ar ->
  exists mid, b64_decode ar (b64_text bs ++ rest) = B64 (bs ++ mid ++ rest) (zlen bs) (zlen (b64_text bs)) /\
    length (bs ++ mid) = length (b64_text bs).
Proof.
  intros Hb NA Hf. unfold b64_text in *.
  assert (Lz : zlen (map b64_char (b64_digits bs)) = zlen (b64_digits bs)) by (unfold zlen; rewrite map_length; auto).
  rewrite Lz in *.
  rewrite b64_decode_spec by auto using b64_digits_range.
  rewrite b64_bytes_digits by auto.
  assert (L : (length bs <= length (map b64_char (b64_digits bs)))%nat).
  { rewrite map_length. pose proof (b64_digits_length bs) as H. unfold zlen in H. lia. }
  exists (skipn (length bs) (map b64_char (b64_digits bs))). split.
  - f_equal. f_equal. rewrite skipn_app. f_equal.
    replace (length bs - length (map b64_char (b64_digits bs)))%nat with 0%nat by lia. reflexivity.
  - rewrite app_length, skipn_length. lia.
Qed.

(** Decoding anything. *)
Theorem decode_any ar slice : 3 * zlen slice <= usize_max ar ->
  exists ds rest mem, slice = map b64_char ds ++ rest /\ Forall (fun v => 0 <= v < 64) ds /\
    (forall c r, rest = c :: r -> ~ in_alphabet c) /\
    b64_decode ar slice = B64 mem (zlen (b64_bytes ds)) (zlen ds) /\
    mem = b64_bytes ds ++ skipn (length (b64_bytes ds)) slice /\ length mem = length slice /\
    zlen (b64_bytes ds) <= zlen ds <= zlen slice.
Proof.
  intros Hf. destruct (alphabet_split slice) as (ds & rest & -> & F & NA).
  assert (L : zlen ds <= zlen (map b64_char ds ++ rest)) by (unfold zlen; rewrite app_length, map_length; lia).
  exists ds, rest. eexists. split; [reflexivity|]. split; [auto|]. split; [auto|].
  split; [apply b64_decode_spec; auto; lia|].
  split; [reflexivity|]. pose proof (b64_bytes_length ds) as Lb. split.
  - rewrite app_length, skipn_length, app_length, map_length. lia.
  - unfold zlen in *. rewrite app_length, map_length in *. lia.
Qed.

(** Small targets. *)
Lemma b64_all_A n : repeat 65 n = map b64_char (repeat 0 n) ++ [].
Proof. rewrite app_nil_r. induction n; cbn; congruence. Qed.

Theorem decode_small_target ar n : 0 <= usize_max ar < 12 * (Z.of_nat n / 4) ->
  if overflow_checks ar then b64_decode ar (repeat 65 n) = B64Panic
  else exists mem dlen elen, b64_decode ar (repeat 65 n) = B64 mem dlen elen /\ elen <> Z.of_nat n.
Proof.
  intros H. rewrite (b64_all_A n).
  pose proof (b64_decode_overflow ar (repeat 0 n) []) as G. unfold zlen in G. rewrite repeat_length in G.
  apply G; [|discriminate|lia]. clear. induction n; cbn; constructor; auto; lia.
Qed.

Theorem decode_below_bound ar ds rest : Forall (fun v => 0 <= v < 64) ds ->
  (forall c r, rest = c :: r -> ~ in_alphabet c) -> 12 * (zlen ds / 4) <= usize_max ar ->
  exists mem, b64_decode ar (map b64_char ds ++ rest) = B64 mem (zlen (b64_bytes ds)) (zlen ds).
Proof.
  intros F NA H. eexists. rewrite b64_decode_gen, encoded_fits by (auto; lia). unfold finish. f_equal. lia.
Qed.

Theorem small_usize_wrong bits : bits = 16 \/ bits = 32 -> forall checks : bool,
  exists n, Z.of_nat n < 2 ^ (bits - 1) /\
  if checks then b64_decode {| usize_max := 2 ^ bits - 1; overflow_checks := checks |} (repeat 65 n) = B64Panic
  else exists mem dlen elen,
    b64_decode {| usize_max := 2 ^ bits - 1; overflow_checks := checks |} (repeat 65 n) = B64 mem dlen elen /\
    elen <> Z.of_nat n.
Proof.
  intros Hb checks. exists (Z.to_nat (2 ^ bits / 8 * 3)). split.
  - destruct Hb; subst; rewrite Z2Nat.id by discriminate; reflexivity.
  - apply (decode_small_target {| usize_max := 2 ^ bits - 1; overflow_checks := checks |}).
    cbn [usize_max]. destruct Hb; subst; (rewrite Z2Nat.id by discriminate); split; [discriminate|reflexivity|discriminate|reflexivity].
Qed.

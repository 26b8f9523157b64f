(** Token-level results about the JSON deserializer, stated on its states. *)
From Verif Require Import Prelude PreludeFacts Utf8 Utf8Spec Utf8Facts SerdeDe SerdeSer MpSpec Base64Spec
  JsonSpec JsonFacts JsonSer JsonSerFacts JsonDe JsonDeSafe JsonStr JsonView JsonTok.
Ltac Zify.zify_post_hook ::= Z.div_mod_to_equations.

Definition nope_arch : arch := {| usize_max := 0; overflow_checks := false |}.
Lemma nope_inside s : (j_index s <= length (j_input s))%nat -> inside nope_arch NopeDecoder s.
Proof. intros H. split; [exact H|]. intros D. discriminate. Qed.

(** ** Strings *)
Lemma mem_split s : (j_index s <= length (j_input s))%nat -> 
  memory s = (j_front s ++ firstn (j_index s) (j_input s)) ++ unparsed s /\
  length (j_front s ++ firstn (j_index s) (j_input s)) = (length (j_front s) + j_index s)%nat.
Proof.
  intros H. split.
  - unfold memory, unparsed. rewrite <- app_assoc, firstn_skipn. reflexivity.
  - rewrite app_length, firstn_length. lia.
Qed.
Lemma firstn_same {A} (n : nat) (a b c : list A) : length a = n -> firstn n (a ++ b) = firstn n (a ++ c).
Proof. intros <-. rewrite !firstn_len. reflexivity. Qed.
Lemma skipn_same {A} (n : nat) (a b k : list A) : length a = n -> length b = n -> skipn n (a ++ k) = skipn n (b ++ k).
Proof. intros Ha Hb. rewrite <- Ha at 1. rewrite <- Hb. rewrite !skipn_len. reflexivity. Qed.

Lemma str_bytes_decodes s t x k : (j_index s <= length (j_input s))%nat -> unparsed s = t ++ 34 :: k -> str_body false t x ->
  exists s', parse_str_bytes_content s = Done s' (Ok {| js_off := (length (j_front s) + j_index s)%nat; js_data := x |}) /\
    unparsed s' = k /\
    firstn (length (j_front s) + j_index s) (memory s') = firstn (length (j_front s) + j_index s) (memory s) /\
    skipn (length (j_front s) + j_index s + length t) (memory s') = skipn (length (j_front s) + j_index s + length t) (memory s).
Proof.
  intros H U B. destruct (mem_split s H) as [Em Lm]. rewrite Em.
  pose proof (parse_str_bytes_spec s H) as D. rewrite U in D.
  assert (Eu : unesc (t ++ 34 :: k) = Ok (x, k)) by (rewrite (unesc_body t x B); cbn; rewrite app_nil_r; reflexivity).
  rewrite Eu in D. cbn [decoded] in D. destruct D as (s' & g & E & F1 & F2 & F3 & F4 & F5).
  exists s'. rewrite firstn_length, Nat.min_l in E by auto. split; [exact E|].
  split; [unfold unparsed; rewrite F2, F3; reflexivity|].
  rewrite app_length in F5. cbn [length] in F5.
  assert (Em' : memory s' = (j_front s ++ firstn (j_index s) (j_input s)) ++ (x ++ g) ++ 34 :: k).
  { unfold memory. rewrite F1, F2, <- !app_assoc. reflexivity. }
  rewrite Em', U. split.
  - apply firstn_same. auto.
  - rewrite !app_assoc. apply skipn_same.
    + rewrite !app_length in *. lia.
    + rewrite app_length, Lm. lia.
Qed.
Lemma str_bytes_rejects s f : (j_index s <= length (j_input s))%nat -> all_bytes (unparsed s) -> faulty (unparsed s) f ->
  exists s', parse_str_bytes_content s = Done s' (Err (fault_error f)) /\ j_index s' = j_index s /\ length (memory s') = length (memory s) /\
    firstn (length (j_front s) + j_index s) (memory s') = firstn (length (j_front s) + j_index s) (memory s).
Proof.
  intros H Hb Hf. destruct (mem_split s H) as [Em Lm]. rewrite Em.
  pose proof (parse_str_bytes_spec s H) as D. rewrite (unesc_err _ _ Hb Hf) in D. cbn [decoded] in D.
  destruct D as (s' & m & E & F1 & F2 & F3 & _ & F5). exists s'. split; [exact E|]. split; [exact F3|].
  unfold memory. rewrite F1, F2. split; [rewrite !app_length in *; rewrite firstn_length in *; lia|].
  rewrite app_assoc. apply firstn_same. auto.
Qed.
Lemma str_total l : all_bytes l -> (exists t x k, l = t ++ 34 :: k /\ str_body false t x) \/ (exists f, faulty l f).
Proof.
  intros Hb. pose proof (unesc_cases l Hb) as H. destruct (unesc l) as [[x k]|e].
  - destruct H as (t & E & B). left. eauto.
  - destruct H as (f & Hf & _). right. eauto.
Qed.
Lemma str_decodes s t x k : (j_index s <= length (j_input s))%nat -> unparsed s = t ++ 34 :: k -> str_body false t x -> valid_utf8 t ->
  exists s', parse_str_content s = Done s' (Ok {| js_off := (length (j_front s) + j_index s)%nat; js_data := x |}) /\ unparsed s' = k /\ valid_utf8 x.
Proof.
  intros H U B V. destruct (str_bytes_decodes s t x k H U B) as (s' & E & U' & _). exists s'.
  assert (Vx : valid_utf8 x) by (apply (str_body_utf8 _ _ _ B); auto).
  split; [|auto]. unfold parse_str_content, dbind. rewrite E. cbn [js_data]. rewrite (proj2 (from_utf8_ok_spec x) Vx). reflexivity.
Qed.
Lemma str_not_utf8 s t x k : (j_index s <= length (j_input s))%nat -> unparsed s = t ++ 34 :: k -> str_body false t x -> ~ valid_utf8 t ->
  exists s', parse_str_content s = Done s' (Err JInvalidUnicodeCodePoint).
Proof.
  intros H U B V. destruct (str_bytes_decodes s t x k H U B) as (s' & E & U' & _). exists s'.
  unfold parse_str_content, dbind. rewrite E. cbn [js_data]. destruct (from_utf8_ok x) eqn:Ex; [|reflexivity].
  apply from_utf8_ok_spec in Ex. exfalso. apply V. apply (str_body_utf8 _ _ _ B). auto.
Qed.
Lemma str_rejects s f : (j_index s <= length (j_input s))%nat -> all_bytes (unparsed s) -> faulty (unparsed s) f ->
  exists s', parse_str_content s = Done s' (Err (fault_error f)).
Proof.
  intros H Hb Hf. destruct (str_bytes_rejects s f H Hb Hf) as (s' & E & _). exists s'. unfold parse_str_content, dbind. rewrite E. reflexivity.
Qed.
Lemma serialized_str_decodes fp enc x : valid_utf8 x -> exists body, js_to_string fp enc (SStr x) = Ok (34 :: body ++ [34]) /\
  forall s k, (j_index s <= length (j_input s))%nat -> unparsed s = body ++ 34 :: k ->
  exists s', parse_str_content s = Done s' (Ok {| js_off := (length (j_front s) + j_index s)%nat; js_data := x |}) /\ unparsed s' = k.
Proof.
  intros V. destruct (to_string_str fp enc x V) as (body & E & B & Vb & _). exists body. split; [exact E|].
  intros s k H U. destruct (str_decodes s body x k H U B Vb) as (s' & E' & U' & _). eauto.
Qed.
Lemma skip_same s pairs t x k : (j_index s <= length (j_input s))%nat -> unparsed s = t ++ 34 :: k -> str_body pairs t x ->
  exists s', eat_str_content s = Done s' (Ok tt) /\ unparsed s' = k /\ memory s' = memory s.
Proof.
  intros H U B. pose proof (eat_str_spec s H) as D. rewrite U, (skip_body _ _ _ B) in D. cbn in D.
  destruct D as (n & E & Hn & Hk). eexists. split; [exact E|]. split; [exact Hk|]. reflexivity.
Qed.

(** ** Integers *)
Lemma int_exact k s w (neg : bool) ds t : (j_index s <= length (j_input s))%nat ->
  unparsed s = w ++ (if neg then [45] else []) ++ ds ++ t -> blank w -> int_part ds -> no_digit t ->
  let z := if neg then - dec_val ds else dec_val ds in
  (in_ikind k z /\ (neg = true -> imin k < 0) -> exists s', parse_int k s = Done s' (Ok z) /\ unparsed s' = t) /\
  (~ (in_ikind k z /\ (neg = true -> imin k < 0)) -> exists s', parse_int k s = Done s' (Err JInvalidNumber)).
Proof.
  intros H U Hw Hi Ht z. pose proof (view_int nope_arch NopeDecoder k s (nope_inside s H)) as V.
  rewrite U, (p_int_exact k w neg ds t Hw Hi Ht) in V.
  change (lit_val neg ds) with z in V.
  assert (Ek : signed_kind k = true <-> imin k < 0) by (destruct k; cbn; split; intros; try discriminate; auto; lia).
  assert (Eb : (negb neg || signed_kind k) && in_ikindb k z = true <-> in_ikind k z /\ (neg = true -> imin k < 0)).
  { rewrite andb_true_iff, in_ikindb_spec, orb_true_iff, negb_true_iff, Ek. destruct neg; intuition congruence. }
  destruct ((negb neg || signed_kind k) && in_ikindb k z).
  - cbn in V. destruct V as (s' & a & E & <- & _ & Hu). split; [intros _; exists s'; auto|]. intros N. exfalso. apply N, Eb. reflexivity.
  - cbn in V. split; [|intros _; exact V]. intros N. apply Eb in N. discriminate.
Qed.
Lemma int_accepted k s s' z : (j_index s <= length (j_input s))%nat -> parse_int k s = Done s' (Ok z) ->
  exists w neg ds, unparsed s = w ++ (if neg : bool then [45] else []) ++ ds ++ unparsed s' /\ blank w /\ int_part ds /\
    in_ikind k z /\ z = if neg then - dec_val ds else dec_val ds.
Proof.
  intros H E. pose proof (view_int nope_arch NopeDecoder k s (nope_inside s H)) as V. rewrite E in V.
  destruct (p_int k (unparsed s)) as [[z' t]|e] eqn:Ep; cbn in V.
  - destruct V as (s1 & a & [= <- <-] & <- & _ & <-). destruct (p_int_sound _ _ _ _ Ep) as (w & neg & ds & H1 & H2 & H3 & _ & H4 & H5 & _).
    exists w, neg, ds. auto.
  - destruct V as (s1 & V). discriminate.
Qed.
Lemma serialized_int_parses fp enc k z : in_ikind k z -> exists lit, js_to_string fp enc (SInt k z) = Ok lit /\
  forall k' s t, in_ikind k' z -> (j_index s <= length (j_input s))%nat -> unparsed s = lit ++ t -> no_digit t ->
  exists s', parse_int k' s = Done s' (Ok z) /\ unparsed s' = t.
Proof.
  intros Hk. destruct (to_string_int fp enc k z Hk) as (ds & Hi & [(Hz & E & Ev)|(Hz & E & Ev)]); (eexists; split; [exact E|]); intros k' s t Hk' H U Ht.
  - destruct (int_exact k' s [] false ds t H U (Forall_nil _) Hi Ht) as [A _]. rewrite Ev in A. apply A. split; [auto|]. discriminate.
  - destruct (int_exact k' s [] true ds t H U (Forall_nil _) Hi Ht) as [A _]. cbv zeta iota in A. rewrite Ev in A. rewrite Z.opp_involutive in A.
    apply A. split; [auto|]. intros _. destruct Hk'. lia.
Qed.

(** ** Hex strings *)
Lemma hex_decodes s h bs k : (j_index s <= length (j_input s))%nat -> unparsed s = h ++ 34 :: k -> hex_bytes h bs ->
  exists s' x, parse_hex_bytes_content s = Done s' (Ok x) /\ js_data x = bs /\ unparsed s' = k.
Proof.
  intros H U B. pose proof (view_hex nope_arch NopeDecoder s (nope_inside s H)) as V. rewrite U, (p_hex_complete h bs B) in V.
  cbn in V. destruct V as (s' & x & E & Ex & _ & Eu). eauto.
Qed.
Lemma hex_rejects s : (j_index s <= length (j_input s))%nat -> all_bytes (unparsed s) ->
  (forall h bs k, unparsed s = h ++ 34 :: k -> ~ hex_bytes h bs) -> exists s' e, parse_hex_bytes_content s = Done s' (Err e).
Proof.
  intros H Hb N. pose proof (view_hex nope_arch NopeDecoder s (nope_inside s H)) as V.
  destruct (p_hex (unparsed s)) as [[bs k]|e] eqn:E; [|cbn in V; destruct V as (s' & V); eauto].
  destruct (p_hex_sound _ Hb _ _ E) as (h & U & B). exfalso. exact (N h bs k U B).
Qed.
Lemma serialized_hex_decodes fp bs : all_bytes bs -> exists body, js_to_string fp HexStrByteEncoder (SBytes bs) = Ok (34 :: body ++ [34]) /\
  forall s k, (j_index s <= length (j_input s))%nat -> unparsed s = body ++ 34 :: k ->
  exists s' x, parse_hex_bytes_content s = Done s' (Ok x) /\ js_data x = bs /\ unparsed s' = k.
Proof.
  intros Hb. exists (hex_text bs). split; [apply to_string_hex; auto|]. intros s k H U. eapply hex_decodes; eauto. apply hex_text_bytes. auto.
Qed.
Lemma surrogates_rejected s t x h n r : (j_index s <= length (j_input s))%nat -> all_bytes (unparsed s) ->
  unparsed s = t ++ 92 :: 117 :: h ++ r -> str_body false t x -> hex4 h n -> 0xD800 <= n <= 0xDFFF ->
  exists s', parse_str_content s = Done s' (Err JInvalidUnicodeCodePoint).
Proof.
  intros H Hb U B Hh Hn. apply (str_rejects s BadCodePoint H Hb). exists t, x, (92 :: 117 :: h ++ r). split; [exact U|]. split; [exact B|].
  eapply F_code; eauto. unfold is_scalar. lia.
Qed.

(** Safety of the JSON deserializer under arbitrary Deserialize programs: no panic,
    cursor inside the input, borrowed slices stable and disjoint. *)
From Verif Require Import Prelude PreludeFacts Utf8 Utf8Spec Utf8Facts SerdeDe Base64Spec Base64 Base64Facts Base64Top JsonDe.
Ltac Zify.zify_post_hook ::= Z.div_mod_to_equations.

Lemma position_spec p l n : position p l = Some n ->
  (n < length l)%nat /\ p (nth n l 0) = true /\ Forall (fun b => p b = false) (firstn n l).
Proof.
  revert n. induction l as [|b l IH]; intros n; cbn; [discriminate|].
  destruct (p b) eqn:E.
  - intros [= <-]. cbn. split; [lia|]. auto.
  - destruct (position p l) as [m|]; [|discriminate]. intros [= <-]. destruct (IH m eq_refl) as (H1 & H2 & H3).
    cbn. split; [lia|]. split; auto.
Qed.

Lemma position_nth p l n : position p l = Some n -> exists c, nth_error l n = Some c /\ p c = true.
Proof.
  intros H. apply position_spec in H. destruct H as (H1 & H2 & _). exists (nth n l 0).
  split; auto. apply nth_error_nth'. auto.
Qed.

Lemma position_none p l : position p l = None -> Forall (fun b => p b = false) l.
Proof.
  induction l as [|b l IH]; cbn; auto. destruct (p b) eqn:E; [discriminate|].
  destruct (position p l); [discriminate|]. auto.
Qed.

Lemma nth_error_skipn {A} (l : list A) i n : nth_error (skipn i l) n = nth_error l (i + n).
Proof. revert l. induction i as [|i IH]; intros [|x l]; cbn; auto. destruct n; auto. Qed.

(** ** What it means to be a good slice *)
Definition slice_end (x : jsl) : nat := (js_off x + length (js_data x))%nat.

(** [x] lies in [mem] and still has its content. *)
Definition stable (mem : bytes) (is_str : bool) (x : jsl) : Prop :=
  (slice_end x <= length mem)%nat /\ js_data x = slice mem (js_off x) (length (js_data x)) /\
  (is_str = true -> valid_utf8 (js_data x)).

(** Most recent first: every slice begins after the end of all older ones. *)
Fixpoint ordered (log : list (bool * jsl)) : Prop :=
  match log with
  | [] => True
  | (_, x) :: log => Forall (fun y => (slice_end (snd y) <= js_off x)%nat) log /\ ordered log
  end.

Lemma stable_app mem tail b x : stable mem b x -> stable (mem ++ tail) b x.
Proof.
  intros (H1 & H2 & H3). unfold stable, slice_end in *. rewrite app_length. split; [lia|]. split; auto.
  rewrite H2 at 1. unfold slice. rewrite skipn_app, firstn_app, skipn_length.
  replace (length (js_data x) - (length mem - js_off x))%nat with 0%nat by lia.
  rewrite firstn_O, app_nil_r. auto.
Qed.

Lemma stable_prefix mem mem' b x : prefix mem mem' -> stable mem b x -> stable mem' b x.
Proof. intros [t ->]. apply stable_app. Qed.

Section Safe.
Context (ar : arch) (fl : float_parser) (any_f32 : bool) (dec : byte_decoder) (total : nat).
(** The only length arithmetic that can overflow is that of [base64::decode]. *)
Context (room : dec = Base64Decoder -> 3 * Z.of_nat total <= usize_max ar).
Local Notation M := (DM jde js_de_error).

Definition jinv (s : jde) : Prop :=
  (j_index s <= length (j_input s))%nat /\
  (length (j_front s) + length (j_input s) = total)%nat /\
  Forall (fun p => stable (j_front s) (fst p) (snd p)) (j_log s) /\
  ordered (j_log s).

Definition jpos (s : jde) : nat := (length (j_front s) + j_index s)%nat.

Definition jlater (s s' : jde) : Prop :=
  (jpos s <= jpos s')%nat /\ prefix (j_front s) (j_front s') /\ exists new, j_log s' = new ++ j_log s.

(** [oof]: whether running out of budget is possible. *)
Definition tri (oof : Prop) {A} (P : jde -> Prop) (m : M A) (Q : A -> jde -> Prop) : Prop := forall s, jinv s -> P s ->
  match m s with
  | Done s' (Ok a) => jinv s' /\ jlater s s' /\ Q a s'
  | Done s' (Err _) => jinv s' /\ jlater s s'
  | Panic => False
  | OutOfFuel => oof
  end.
Definition any_st (s : jde) : Prop := True.
Definition any_res {A} (a : A) (s : jde) : Prop := True.

Lemma jlater_refl s : jlater s s.
Proof. split; [lia|]. split; [apply prefix_refl|]. exists []. auto. Qed.
Lemma jlater_trans a b c : jlater a b -> jlater b c -> jlater a c.
Proof.
  intros (H1 & P1 & n1 & E1) (H2 & P2 & n2 & E2). split; [lia|]. split; [eapply prefix_trans; eauto|].
  exists (n2 ++ n1). rewrite E2, E1, app_assoc. auto.
Qed.

Section Rules.
Context (oof : Prop).
Local Notation tri := (tri oof).

Lemma tri_conseq {A} (P P' : jde -> Prop) (m : M A) (Q Q' : A -> jde -> Prop) : tri P m Q ->
  (forall s, P' s -> P s) -> (forall a s, Q a s -> Q' a s) -> tri P' m Q'.
Proof. intros H HP HQ s Hs Ps. specialize (H s Hs (HP _ Ps)). destruct (m s) as [s' [a|e]| |]; intuition auto. Qed.

Lemma tri_bind {A B} P (m : M A) (Q : A -> jde -> Prop) (k : A -> M B) Q' :
  tri P m Q -> (forall a, tri (Q a) (k a) Q') -> tri P (dbind m k) Q'.
Proof.
  intros Hm Hk s Hs Ps. unfold dbind. specialize (Hm s Hs Ps). destruct (m s) as [s1 [a|e]| |]; auto.
  destruct Hm as (I1 & L1 & Qa). specialize (Hk a s1 I1 Qa).
  destruct (k a s1) as [s2 [b|e]| |]; auto; intuition (eapply jlater_trans; eauto).
Qed.

Lemma tri_try {A B} P (m : M A) (Q : A -> jde -> Prop) (k : result A js_de_error -> M B) Q' : tri P m Q ->
  (forall a, tri (Q a) (k (Ok a)) Q') -> (forall e, tri any_st (k (Err e)) Q') -> tri P (dtry m k) Q'.
Proof.
  intros Hm H1 H2 s Hs Ps. unfold dtry. specialize (Hm s Hs Ps). destruct (m s) as [s1 [a|e]| |]; auto.
  - destruct Hm as (I1 & L1 & Qa). specialize (H1 a s1 I1 Qa).
    destruct (k (Ok a) s1) as [s2 [b|e]| |]; auto; intuition (eapply jlater_trans; eauto).
  - destruct Hm as (I1 & L1). specialize (H2 e s1 I1 I).
    destruct (k (Err e) s1) as [s2 [b|e']| |]; auto; intuition (eapply jlater_trans; eauto).
Qed.

Lemma tri_lift {A} P (r : result A js_de_error) : tri P (dlift r) any_res.
Proof. intros s Hs Ps. cbn. destruct r; auto using jlater_refl. split; auto. split; [apply jlater_refl|exact I]. Qed.
Lemma tri_ret {A} (a : A) (Q : A -> jde -> Prop) : tri (Q a) (dret a) Q.
Proof. intros s Hs Ps. cbn. auto using jlater_refl. Qed.
Lemma tri_fail {A} P e (Q : A -> jde -> Prop) : tri P (dfail e) Q.
Proof. intros s Hs Ps. cbn. auto using jlater_refl. Qed.
Lemma tri_post {A B} P (f : result A js_de_error -> result B js_de_error) m : tri P m any_res -> tri P (dpost f m) any_res.
Proof. intros H. eapply tri_try; [exact H| |]; intros; apply tri_lift. Qed.
Lemma tri_if {A} (b : bool) P (m m' : M A) Q : (b = true -> tri P m Q) -> (b = false -> tri P m' Q) -> tri P (if b then m else m') Q.
Proof. destruct b; auto. Qed.
Lemma tri_panic {A} (P : jde -> Prop) (Q : A -> jde -> Prop) : (forall s, jinv s -> ~ P s) -> tri P dpanic Q.
Proof. intros H s Hs Ps. elim (H s Hs Ps). Qed.

(** Pure facts about the state can be pulled out. *)
Lemma tri_pull {A} (P : jde -> Prop) (F : Prop) (m : M A) Q : (forall s, jinv s -> P s -> F) -> (F -> tri P m Q) -> tri P m Q.
Proof. intros H1 H2 s Hs Ps. apply H2; eauto. Qed.

(** A step that only moves the cursor. *)
Lemma moved s i : jinv s -> (j_index s <= i <= length (j_input s))%nat ->
  jinv (jset (j_input s) i s) /\ jlater s (jset (j_input s) i s).
Proof.
  intros (H1 & H2 & H3 & H4) Hi. split; [split; [|split; [|split]]; cbn; auto; lia|].
  split; [unfold jpos; cbn; lia|]. split; [apply prefix_refl|]. exists []. auto.
Qed.
(** A step that only rewrites the input. *)
Lemma rewritten s input : jinv s -> length input = length (j_input s) ->
  jinv (jset input (j_index s) s) /\ jlater s (jset input (j_index s) s).
Proof.
  intros (H1 & H2 & H3 & H4) Hl. split; [split; [|split; [|split]]; cbn; auto; lia|].
  split; [unfold jpos; cbn; lia|]. split; [apply prefix_refl|]. exists []. auto.
Qed.

(** The cursor is at a character. *)
Definition at_char (c : Z) (s : jde) : Prop := nth_error (j_input s) (j_index s) = Some c.
Lemma at_lt c s : at_char c s -> (j_index s < length (j_input s))%nat.
Proof. intros H. apply nth_error_Some. unfold at_char in H. congruence. Qed.
Definition inside (n : nat) (s : jde) : Prop := (j_index s + n <= length (j_input s))%nat.

(** Frames: functions that only move the cursor, at least by [d]. *)
Definition frame (f : bytes) (inp : bytes) (i : nat) (s : jde) : Prop :=
  j_front s = f /\ j_input s = inp /\ (i <= j_index s)%nat.

Lemma tri_whitespace : tri any_st eat_whitespace (fun c s => at_char c s).
Proof.
  intros s Hs _. unfold eat_whitespace. pose proof Hs as (Hi & _).
  rewrite (proj2 (Nat.leb_le _ _) Hi).
  destruct (position _ _) as [n|] eqn:E; [|auto using jlater_refl].
  destruct (position_nth _ _ _ E) as (c & Ec & _). rewrite nth_error_skipn in Ec. rewrite Ec.
  assert (L : (j_index s + n < length (j_input s))%nat) by (apply nth_error_Some; congruence).
  destruct (moved s (j_index s + n) Hs) as [I1 L1]; [lia|]. split; auto.
Qed.
Lemma frame_whitespace f inp i : tri (frame f inp i) eat_whitespace (fun c s => at_char c s /\ frame f inp i s).
Proof.
  intros s Hs (F1 & F2 & F3). pose proof (tri_whitespace s Hs I) as H. unfold eat_whitespace in *.
  destruct (j_index s <=? length (j_input s))%nat; [|auto]. destruct (position _ _); [|auto].
  destruct (nth_error _ _); [|auto]. destruct H as (H1 & H2 & H3). split; auto. split; auto. split; auto.
  split; [exact F1|]. split; [exact F2|]. cbn. lia.
Qed.

Lemma tri_eat n : tri (inside n) (j_eat_some n) any_res.
Proof. intros s Hs Ps. cbn. unfold inside in Ps. destruct (moved s (j_index s + n) Hs); [lia|]. split; auto. split; auto. exact I. Qed.
Lemma tri_eat1 c : tri (at_char c) (j_eat_some 1) any_res.
Proof. eapply tri_conseq; [apply tri_eat| |auto]. intros s H. apply at_lt in H. unfold inside. lia. Qed.
Lemma frame_eat f inp i n : tri (fun s => inside n s /\ frame f inp i s) (j_eat_some n) (fun _ s => frame f inp (i + n) s).
Proof.
  intros s Hs (Ps & F1 & F2 & F3). cbn. unfold inside in Ps. destruct (moved s (j_index s + n) Hs); [lia|].
  split; auto. split; auto. split; [exact F1|]. split; [exact F2|]. cbn. lia.
Qed.
Lemma frame_eat1 f inp i c : tri (fun s => at_char c s /\ frame f inp i s) (j_eat_some 1) (fun _ s => frame f inp (i + 1) s).
Proof. eapply tri_conseq; [apply (frame_eat f inp i 1)| |auto]. intros s [H F]. apply at_lt in H. split; auto. unfold inside. lia. Qed.

Lemma tri_peek : tri any_st j_peek at_char.
Proof.
  intros s Hs _. unfold j_peek. destruct (nth_error _ _) eqn:E; auto using jlater_refl.
Qed.
Lemma frame_peek f inp i : tri (frame f inp i) j_peek (fun c s => at_char c s /\ frame f inp i s).
Proof.
  intros s Hs Ps. unfold j_peek. destruct (nth_error _ _) eqn:E; auto using jlater_refl.
Qed.

Lemma number_loop_pos neg k n p l r : number_loop neg k n p l = Ok r -> (p <= snd r <= p + length l)%nat.
Proof.
  revert n p. induction l as [|c l IH]; intros n p; cbn.
  - intros [= <-]. cbn. lia.
  - destruct (ascii_digit c); [|intros [= <-]; cbn; lia].
    destruct (checked _ _); [|discriminate]. destruct (checked _ _); [|discriminate]. intros H. apply IH in H. lia.
Qed.

Lemma frame_number f inp i neg k n : tri (frame f inp i) (parse_number neg k n) (fun _ s => frame f inp i s).
Proof.
  intros s Hs Ps. unfold parse_number, dbind, input_mut. pose proof Hs as (Hi & _).
  rewrite (proj2 (Nat.leb_le _ _) Hi). destruct (number_loop _ _ _ _ _) as [[z p]|e] eqn:E.
  - apply number_loop_pos in E. cbn in E. rewrite skipn_length in E.
    destruct (moved s (j_index s + p) Hs) as [I1 L1]; [lia|]. cbn. split; auto. split; auto.
    destruct Ps as (F1 & F2 & F3). split; [exact F1|]. split; [exact F2|]. cbn. lia.
  - cbn. auto using jlater_refl.
Qed.

Lemma frame_le f inp i j s : (j <= i)%nat -> frame f inp i s -> frame f inp j s.
Proof. intros H (F1 & F2 & F3). split; auto. split; auto. lia. Qed.

Lemma frame_unsigned f inp i k : tri (frame f inp i) (parse_unsigned k) (fun _ s => frame f inp (i + 1) s).
Proof.
  unfold parse_unsigned. eapply tri_bind; [apply frame_whitespace|]. intros c. cbn beta.
  apply tri_if; intros _; [apply tri_fail|]. apply tri_if; intros _.
  { eapply tri_bind; [apply frame_eat1|]. intros ?; cbn beta. apply (tri_ret 0 (fun _ s => frame f inp (i + 1) s)). }
  apply tri_if; intros _; [|apply tri_fail].
  eapply tri_bind; [apply frame_eat1|]. intros ?; cbn beta. apply frame_number.
Qed.

Lemma frame_signed f inp i k : tri (frame f inp i) (parse_signed k) (fun _ s => frame f inp (i + 1) s).
Proof.
  unfold parse_signed. eapply tri_bind; [apply frame_whitespace|]. intros c. cbn beta.
  apply tri_bind with (Q := fun p s => at_char (fst p) s /\ frame f inp i s).
  { apply tri_if; intros _.
    - eapply tri_bind; [apply frame_eat1|]. intros ?; cbn beta. eapply tri_bind; [apply frame_peek|]. intros p.
      eapply tri_conseq; [apply (tri_ret (p, true) (fun p s => at_char (fst p) s /\ frame f inp i s))| |auto].
      cbn. intros s [H F]. split; auto. eapply frame_le; [|exact F]. lia.
    - eapply tri_conseq; [apply (tri_ret (c, false) (fun p s => at_char (fst p) s /\ frame f inp i s))| |auto]. cbn. auto. }
  intros [p neg]. cbn [fst].
  apply tri_if; intros _.
  { eapply tri_bind; [apply frame_eat1|]. intros ?; cbn beta. apply (tri_ret 0 (fun _ s => frame f inp (i + 1) s)). }
  apply tri_if; intros _; [|apply tri_fail].
  eapply tri_bind; [apply frame_eat1|]. intros ?; cbn beta. destruct neg; apply frame_number.
Qed.

Lemma tri_frame {A} (m : M A) (Q : A -> jde -> Prop) : (forall f inp i, tri (frame f inp i) m Q) -> tri any_st m Q.
Proof. intros H s Hs _. apply (H (j_front s) (j_input s) (j_index s)); auto. split; auto. Qed.

Lemma tri_int k : tri any_st (parse_int k) any_res.
Proof.
  apply tri_frame. intros f inp i. destruct k; cbn [parse_int];
    (eapply tri_conseq; [first [apply (frame_unsigned f inp i)|apply (frame_signed f inp i)]|auto|intros; exact I]).
Qed.

Lemma tri_token t : tri any_st (parse_token_content t) any_res.
Proof.
  intros s Hs _. unfold parse_token_content.
  destruct (j_index s + length t <=? length (j_input s))%nat eqn:E; [|auto using jlater_refl].
  destruct (list_eq_dec _ _ _); [|auto using jlater_refl].
  apply tri_eat; auto. unfold inside. apply Nat.leb_le. auto.
Qed.

Lemma number_prefix_length l : (length (number_prefix l) <= length l)%nat.
Proof. unfold number_prefix. destruct (position _ _); auto. rewrite firstn_length. lia. Qed.

Lemma tri_match_float : tri any_st match_float (fun t s => inside (length t) s).
Proof.
  intros s Hs _. unfold match_float. pose proof Hs as (Hi & _). rewrite (proj2 (Nat.leb_le _ _) Hi).
  split; auto. split; [apply jlater_refl|]. unfold inside.
  pose proof (number_prefix_length (skipn (j_index s) (j_input s))) as L. rewrite skipn_length in L. lia.
Qed.

Lemma tri_float from_str : tri any_st (parse_float from_str) any_res.
Proof.
  unfold parse_float. eapply tri_bind; [apply tri_whitespace|]. intros c. cbn beta. apply tri_if; intros _.
  - eapply tri_bind; [apply tri_eat1|]. intros ?; cbn beta. eapply tri_bind; [apply tri_token|]. intros ?; cbn beta. apply tri_lift.
  - apply tri_bind with (Q := fun t s => inside (length t) s); [eapply tri_conseq; [apply tri_match_float|intros; exact I|auto]|]. intros t. cbn beta.
    destruct (from_str t); [|apply tri_fail]. eapply tri_bind; [apply tri_eat|]. intros ?; cbn beta. apply tri_lift.
Qed.

Lemma tri_float_or_int c : tri any_st (parse_float_or_int fl any_f32 c) any_res.
Proof.
  unfold parse_float_or_int. eapply tri_bind; [apply tri_match_float|]. intros t. cbn beta zeta.
  match goal with |- context [match ?x with Some _ => _ | None => _ end] => destruct x end; [|apply tri_fail].
  eapply tri_bind; [apply tri_eat|]. intros ?; cbn beta. apply tri_lift.
Qed.

Lemma tri_colon : tri any_st parse_key_colon any_res.
Proof.
  unfold parse_key_colon. eapply tri_bind; [apply tri_whitespace|]. intros c. cbn beta.
  apply tri_if; intros _; [apply tri_eat1|apply tri_fail].
Qed.

(** ** Strings *)
Lemma eat_str_loop_safe fuel start : tri
  (fun s => (j_index s <= start <= length (j_input s) /\ length (j_input s) < fuel + start)%nat) (eat_str_loop fuel start) any_res.
Proof.
  revert start. induction fuel as [|fuel IH]; intros start s Hs (P1 & P2); cbn [eat_str_loop]; [lia|].
  destruct (start <=? length (j_input s))%nat eqn:El; [|auto using jlater_refl].
  destruct (position _ _) as [n|] eqn:E; [|auto using jlater_refl].
  destruct (position_nth _ _ _ E) as (c & Ec & _). rewrite nth_error_skipn in Ec. rewrite Ec.
  assert (L : (start + n < length (j_input s))%nat) by (apply nth_error_Some; congruence).
  destruct (c =? 34); [|auto using jlater_refl].
  destruct (Nat.even _).
  - destruct (moved s (start + n + 1) Hs); [lia|]. split; auto. split; auto. exact I.
  - apply IH; auto. lia.
Qed.
Lemma tri_eat_str : tri any_st eat_str_content any_res.
Proof.
  intros s Hs _. unfold eat_str_content. pose proof Hs as (Hi & _). apply eat_str_loop_safe; auto. lia.
Qed.

(** A slice just taken out of the input: it can be handed out. *)
Definition fresh (b : bool) (x : jsl) (s : jde) : Prop :=
  stable (j_front s) b x /\ Forall (fun y => (slice_end (snd y) <= js_off x)%nat) (j_log s).

Lemma tri_split len skip : tri (fun s => (j_index s + len + skip <= length (j_input s))%nat) (j_split_input len skip) (fresh false).
Proof.
  intros s Hs Ps. unfold j_split_input. rewrite (proj2 (Nat.leb_le _ _) Ps).
  destruct Hs as (H1 & H2 & H3 & H4). set (n := (j_index s + len + skip)%nat) in *.
  assert (Lf : length (firstn n (j_input s)) = n) by (rewrite firstn_length; lia).
  assert (Ls : length (slice (j_input s) (j_index s) len) = len) by (apply slice_length; lia).
  split; [split; [|split; [|split]]; cbn [j_front j_input j_index j_log]|split].
  - lia.
  - rewrite app_length, skipn_length. lia.
  - eapply Forall_impl; [|exact H3]. intros [b x] Hx. apply stable_app. exact Hx.
  - exact H4.
  - split; [unfold jpos; cbn; rewrite app_length; lia|]. split; [exists (firstn n (j_input s)); auto|]. exists []. auto.
  - split; cbn [j_front j_log].
    + unfold stable, slice_end. cbn [js_off js_data]. rewrite Ls, app_length. split; [lia|]. split; [|discriminate].
      unfold slice. rewrite skipn_app, (skipn_all2 (j_front s)) by lia. cbn [app].
      replace (length (j_front s) + j_index s - length (j_front s))%nat with (j_index s) by lia.
      rewrite skipn_firstn_comm, firstn_firstn. f_equal. lia.
    + eapply Forall_impl; [|exact H3]. intros [b x] (Hx & _). cbn [js_off snd fst] in *. lia.
Qed.

Lemma parse_str_loop_safe fuel index dest start : tri
  (fun s => (j_index s <= dest /\ dest <= index /\ index <= start <= length (j_input s) /\ length (j_input s) < fuel + start)%nat)
  (parse_str_loop fuel index dest start) (fresh false).
Proof.
  revert index dest start. induction fuel as [|fuel IH]; intros index dest start s Hs (P1 & P2 & P3 & P4); cbn [parse_str_loop]; [lia|].
  destruct (start <=? length (j_input s))%nat eqn:El; [|auto using jlater_refl].
  destruct (position _ _) as [n|] eqn:E; [|auto using jlater_refl].
  destruct (position_nth _ _ _ E) as (c & Ec & _). rewrite nth_error_skipn in Ec.
  assert (L : (start + n < length (j_input s))%nat) by (apply nth_error_Some; congruence).
  rewrite (proj2 (Nat.ltb_ge _ _) P2).
  assert (Hno : negb (index - dest =? 0)%nat && ((start + n <? index)%nat || (length (j_input s) <? dest + (start + n - index))%nat) = false) by lia.
  rewrite Hno. clear Hno.
  set (input := if (index - dest =? 0)%nat then j_input s else splice (j_input s) dest (slice (j_input s) index (start + n - index))).
  assert (Linp : length input = length (j_input s)).
  { unfold input. destruct (index - dest =? 0)%nat; auto. apply splice_length. rewrite slice_length; lia. }
  clearbody input. destruct (rewritten s input Hs Linp) as [I1 L1].
  set (s1 := jset input (j_index s) s) in *.
  assert (K : forall A (m : M A) (Q : A -> jde -> Prop), 
    (match m s1 with Done s' (Ok a) => jinv s' /\ jlater s1 s' /\ Q a s' | Done s' (Err _) => jinv s' /\ jlater s1 s' | Panic => False | OutOfFuel => oof end) ->
    (match m s1 with Done s' (Ok a) => jinv s' /\ jlater s s' /\ Q a s' | Done s' (Err _) => jinv s' /\ jlater s s' | Panic => False | OutOfFuel => oof end)).
  { intros A m Q H. destruct (m s1) as [s' [a|e]| |]; auto; intuition (eapply jlater_trans; eauto). }
  destruct (nth_error input (start + n)) as [c'|] eqn:Ec'; [|apply nth_error_None in Ec'; lia].
  destruct (c' =? 34).
  { rewrite (proj2 (Nat.ltb_ge (start + n) (index - dest + j_index s1))) by (cbn; lia).
    apply K. apply tri_split; auto. cbn. lia. }
  destruct (c' =? 92); [|cbn; auto].
  rewrite (proj2 (Nat.ltb_ge (start + n) index)) by lia.
  destruct (nth_error input (start + n + 1)) as [e|] eqn:Ee; [|auto].
  assert (Le : (start + n + 1 < length input)%nat) by (apply nth_error_Some; congruence).
  destruct ((e =? 34) || (e =? 92) || (e =? 47)).
  { apply (K _ (parse_str_loop fuel _ _ _)). apply IH; auto. cbn. lia. }
  destruct ((98 <=? e) && (e <=? 116)).
  { destruct (_ =? 0); [auto|]. rewrite (proj2 (Nat.ltb_lt _ _)) by lia.
    match goal with |- context [jset ?i _ s1] => destruct (rewritten s1 i I1) as [I2 L2] end.
    { rewrite splice_length by (cbn [length]; lia). reflexivity. }
    match goal with |- match parse_str_loop _ _ _ _ ?t with _ => _ end =>
      pose proof (fun H => IH (start + n + 1 + 1)%nat (dest + (start + n - index) + 1)%nat (start + n + 1 + 1)%nat t I2 H) as G end.
    cbv beta in G.
    match type of G with ?X -> _ => assert (HX : X) end.
    { cbn [j_index j_input jset]. rewrite splice_length by (cbn [length]; lia). cbn. lia. }
    specialize (G HX). destruct (parse_str_loop _ _ _ _ _) as [s' [a|e']| |]; auto;
      intuition (eapply jlater_trans; [eassumption|eapply jlater_trans; eauto]). }
  destruct (e =? 117); [|auto].
  destruct (start + n + 1 + 5 <=? length input)%nat eqn:E5; [|auto].
  destruct (parse_uuuu _) as [code|] eqn:Eu; [|auto].
  destruct (char_from_u32 code) as [ch|] eqn:Eh; [|auto].
  assert (Lc : (length (encode_utf8 ch) <= 6)%nat).
  { unfold encode_utf8. repeat match goal with |- context [if ?b then _ else _] => destruct b end; cbn; lia. }
  rewrite (proj2 (Nat.leb_le _ _)) by (apply Nat.leb_le in E5; lia).
  match goal with |- context [jset ?i _ s1] => destruct (rewritten s1 i I1) as [I2 L2] end.
  { rewrite splice_length by lia. reflexivity. }
  match goal with |- match parse_str_loop _ _ _ _ ?t with _ => _ end =>
    pose proof (fun H => IH (start + n + 1 + 5)%nat (dest + (start + n - index) + length (encode_utf8 ch))%nat (start + n + 1 + 5)%nat t I2 H) as G end.
  cbv beta in G.
  match type of G with ?X -> _ => assert (HX : X) end.
  { cbn [j_index j_input jset]. rewrite splice_length by lia. cbn [j_index s1 jset]. lia. }
  specialize (G HX). destruct (parse_str_loop _ _ _ _ _) as [s' [a|e']| |]; auto;
    intuition (eapply jlater_trans; [eassumption|eapply jlater_trans; eauto]).
Qed.
Lemma tri_str_bytes : tri any_st parse_str_bytes_content (fresh false).
Proof.
  intros s Hs _. unfold parse_str_bytes_content. pose proof Hs as (Hi & _). apply parse_str_loop_safe; auto. lia.
Qed.
Lemma tri_str : tri any_st parse_str_content (fresh true).
Proof.
  unfold parse_str_content. eapply tri_bind; [apply tri_str_bytes|]. intros x.
  destruct (from_utf8_ok (js_data x)) eqn:E; [|apply tri_fail].
  eapply tri_conseq; [apply (tri_ret x (fresh true))| |auto]. intros s ((H1 & H2 & _) & H3). split; auto. split; auto. split; auto.
  intros _. apply from_utf8_ok_spec. auto.
Qed.

(** ** Byte strings *)
Lemma hex_loop_spec n cells len : (2 * (n + len) <= length cells)%nat ->
  let '(cells', r) := hex_loop n cells len in
  length cells' = length cells /\ match r with Ok l => (2 * l + 1 <= length cells)%nat | Err _ => True end.
Proof.
  revert cells len. induction n as [|n IH]; intros cells len H; cbn [hex_loop].
  - destruct (Nat.odd (length cells)) eqn:E; [|auto]. destruct (_ =? 34); [|auto]. split; auto.
    destruct (Nat.eq_dec (2 * len) (length cells)) as [E2|]; [|lia].
    rewrite <- E2 in E. rewrite Nat.odd_mul in E. cbn in E. discriminate.
  - destruct (parse_hex_nib _).
    + destruct (parse_hex_nib _); [|auto].
      assert (L : forall x, length (splice cells len [x]) = length cells) by (intros; apply splice_length; cbn [length]; lia).
      specialize (IH (splice cells len [z * 16 + z0]) (S len)). rewrite L in IH.
      destruct (hex_loop _ _ _) as [c' r]. apply IH. lia.
    + destruct (_ =? 34); [|auto]. split; auto. lia.
Qed.

Lemma put_rest_safe s cells : jinv s -> length cells = length (skipn (j_index s) (j_input s)) ->
  put_rest cells s = Done (jset (firstn (j_index s) (j_input s) ++ cells) (j_index s) s) (Ok tt) /\
  let s' := jset (firstn (j_index s) (j_input s) ++ cells) (j_index s) s in
  jinv s' /\ jlater s s' /\ length (j_input s') = length (j_input s).
Proof.
  intros Hs Hl. split; [reflexivity|]. cbv zeta. pose proof Hs as (Hi & _).
  assert (L : length (firstn (j_index s) (j_input s) ++ cells) = length (j_input s)).
  { rewrite app_length, Hl, skipn_length, firstn_length. lia. }
  destruct (rewritten s _ Hs L). auto.
Qed.

Lemma tri_hex : tri any_st parse_hex_bytes_content (fresh false).
Proof.
  intros s Hs _. unfold parse_hex_bytes_content, input_mut. unfold dbind at 1. pose proof Hs as (Hi & _).
  rewrite (proj2 (Nat.leb_le _ _) Hi). set (cells := skipn (j_index s) (j_input s)) in *.
  pose proof (hex_loop_spec (length cells / 2) cells 0) as H.
  destruct (hex_loop _ _ _) as [cells' r]. destruct H as [L H].
  { rewrite Nat.add_0_r. apply Nat.mul_div_le. lia. }
  destruct (put_rest_safe s cells' Hs L) as (E & I1 & L1 & Ln). unfold dbind. rewrite E. cbv zeta in *.
  set (s1 := jset _ _ s) in *. destruct r as [len|e].
  - pose proof (tri_split len (len + 1) s1 I1) as G.
    assert (P : (j_index s1 + len + (len + 1) <= length (j_input s1))%nat).
    { rewrite Ln. unfold cells in H. rewrite skipn_length in H. cbn. lia. }
    specialize (G P). destruct (j_split_input _ _ s1) as [s2 [a|e]| |]; auto; intuition (eapply jlater_trans; eauto).
  - cbn. auto.
Qed.

Lemma position_skipn_bound p l k n : position p (skipn k l) = Some n -> (k + n < length l)%nat.
Proof. intros H. apply position_spec in H. rewrite skipn_length in H. lia. Qed.

Lemma tri_split64 dlen elen : tri (fun s => (dlen <= elen /\ j_index s + elen + 1 <= length (j_input s))%nat) (split_base64 dlen elen) (fresh false).
Proof.
  unfold split_base64. apply tri_if; intros E.
  - eapply tri_conseq; [apply tri_split| |auto]. intros s [H1 H2]. lia.
  - apply tri_panic. intros s _ [H1 H2]. lia.
Qed.

Lemma tri_base64 : dec = Base64Decoder -> tri any_st (parse_base64_bytes_content ar) (fresh false).
Proof.
  intros Hd s Hs _. unfold parse_base64_bytes_content, input_mut. unfold dbind at 1. pose proof Hs as (Hi & Ht & _).
  rewrite (proj2 (Nat.leb_le _ _) Hi). set (cells := skipn (j_index s) (j_input s)) in *.
  assert (Lc : length cells = (length (j_input s) - j_index s)%nat) by (unfold cells; apply skipn_length).
  destruct (decode_any ar cells) as (ds & rest & mem & _ & _ & _ & Ed & _ & Lm & Hb).
  { specialize (room Hd). unfold zlen. lia. }
  rewrite Ed. destruct (put_rest_safe s mem Hs Lm) as (E & I1 & L1 & Ln). unfold dbind at 1. rewrite E. cbv zeta in *.
  set (s1 := jset _ _ s) in *.
  assert (K : forall A (m : M A) (Q : A -> jde -> Prop), 
    (match m s1 with Done s' (Ok a) => jinv s' /\ jlater s1 s' /\ Q a s' | Done s' (Err _) => jinv s' /\ jlater s1 s' | Panic => False | OutOfFuel => oof end) ->
    (match m s1 with Done s' (Ok a) => jinv s' /\ jlater s s' /\ Q a s' | Done s' (Err _) => jinv s' /\ jlater s s' | Panic => False | OutOfFuel => oof end)).
  { intros A m Q H. destruct (m s1) as [s' [a|e]| |]; auto; intuition (eapply jlater_trans; eauto). }
  unfold zlen in Hb.
  set (d := Z.to_nat (zlen (b64_bytes ds))) in *. set (e := Z.to_nat (zlen ds)) in *.
  assert (Hde : (d <= e)%nat) by (unfold d, e, zlen; lia).
  destruct (nth_error mem e) as [c|] eqn:Ee; [|cbn; auto].
  assert (He : (e < length mem)%nat) by (apply nth_error_Some; congruence).
  destruct (c =? 34). { apply K. apply tri_split64; auto. rewrite Ln. cbn. lia. }
  destruct (c =? 61); [|cbn; auto].
  destruct (position _ (skipn (e + 1) mem)) as [n|] eqn:Ep; [|cbn; auto].
  pose proof (position_skipn_bound _ _ _ _ Ep) as Hp.
  destruct (nth_error mem (e + 1 + n)) as [c'|] eqn:Ec; [|apply nth_error_None in Ec; lia].
  destruct (c' =? 34); [|cbn; auto].
  apply K. apply tri_split64; auto. rewrite Ln. cbn. lia.
Qed.

(** The loop over an array of numbers: it stays behind the cursor. *)
Definition loop_frame (f : bytes) (n : nat) (low : nat) (s : jde) : Prop :=
  j_front s = f /\ length (j_input s) = n /\ (low <= j_index s)%nat.

Lemma loop_of_frame {A} (m : M A) f n low d : (forall f inp i, tri (frame f inp i) m (fun _ s => frame f inp (i + d) s)) ->
  tri (loop_frame f n low) m (fun _ s => loop_frame f n (low + d) s).
Proof.
  intros H s Hs (P1 & P2 & P3). specialize (H f (j_input s) low s Hs).
  assert (F : frame f (j_input s) low s) by (split; auto). specialize (H F).
  destruct (m s) as [s' [a|e]| |]; auto. destruct H as (H1 & H2 & (F1 & F2 & F3)). split; auto. split; auto.
  split; auto. split; auto. rewrite F2. auto.
Qed.

Lemma tri_write f n index b : tri (fun s => loop_frame f n (index + 1) s) (write_byte index b) (fun _ s => loop_frame f n (index + 1) s).
Proof.
  intros s Hs (P1 & P2 & P3). unfold write_byte. pose proof Hs as (Hi & _).
  assert (Hlt : (index < length (j_input s))%nat) by lia. rewrite (proj2 (Nat.ltb_lt _ _) Hlt).
  assert (L : length (splice (j_input s) index [b]) = length (j_input s)) by (apply splice_length; cbn [length]; lia).
  destruct (rewritten s _ Hs L) as [I1 L1]. split; auto. split; auto. split; [exact P1|]. split; cbn; lia.
Qed.

Lemma array_loop_safe fuel : forall f n index, tri
  (fun s => loop_frame f n index s /\ (n < fuel + index)%nat)
  (array_loop fuel index) (fun i s => (index <= i)%nat /\ at_char 93 s /\ loop_frame f n i s).
Proof.
  induction fuel as [|fuel IH]; intros f n index.
  - intros s (Hi & _) ((P1 & P2 & P3) & P4). lia.
  - cbn [array_loop]. 
    apply tri_pull with (F := (n < S fuel + index)%nat); [tauto|]. intros Hn.
    eapply tri_conseq with (P := loop_frame f n index); [|tauto|intros a s H; exact H].
    eapply tri_bind; [apply (loop_of_frame (parse_unsigned U8) f n index 1); intros; apply frame_unsigned|]. intros b. cbn beta.
    eapply tri_bind; [apply tri_write|]. intros ?; cbn beta. cbn beta zeta.
    apply tri_bind with (Q := fun c s => at_char c s /\ loop_frame f n (index + 1) s).
    { intros s Hs (P1 & P2 & P3). pose proof (frame_whitespace f (j_input s) (index + 1) s Hs) as H.
      assert (F : frame f (j_input s) (index + 1) s) by (split; auto). specialize (H F).
      destruct (eat_whitespace s) as [s' [c|e]| |]; auto. destruct H as (H1 & H2 & Ha & (F1 & F2 & F3)).
      split; auto. split; auto. split; auto. split; auto. split; auto. rewrite F2. auto. }
    intros c. cbn beta. apply tri_if; intros Ec.
    + apply tri_bind with (Q := fun _ s => loop_frame f n (S index) s).
      { eapply tri_conseq with (P := fun s => at_char c s /\ loop_frame f n (index + 1) s) (Q := fun _ s => loop_frame f n (index + 1) s).
        - intros s Hs [Ha (P1 & P2 & P3)]. cbn. apply at_lt in Ha. destruct (moved s (j_index s + 1) Hs); [lia|].
          split; auto. split; auto. split; [exact P1|]. split; [exact P2|]. cbn. lia.
        - auto.
        - intros _ s. rewrite Nat.add_1_r. auto. }
      intros ?; cbn beta. eapply tri_conseq; [apply (IH f n (S index))| |].
      * cbn beta. intros s H. split; auto. lia.
      * cbn beta. intros i s (H1 & H2). split; auto. lia.
    + apply tri_if; intros Ec'; [|apply tri_fail]. apply Z.eqb_eq in Ec'. subst c.
      eapply tri_conseq; [apply (tri_ret (S index) (fun i s => (index <= i)%nat /\ at_char 93 s /\ loop_frame f n i s))| |auto].
      cbn beta. rewrite Nat.add_1_r. intros s [H1 H2]. split; auto.
Qed.

Lemma tri_array : tri any_st parse_array_bytes_content (fresh false).
Proof.
  unfold parse_array_bytes_content. eapply tri_bind; [apply tri_whitespace|]. intros c. cbn beta.
  apply tri_if; intros _.
  { eapply tri_conseq; [apply (tri_split 0 1)| |auto]. cbn beta. intros s H. apply at_lt in H. lia. }
  intros s Hs Hc. pose proof Hs as (Hi & Ht & _). cbv zeta.
  pose proof (array_loop_safe (S (length (j_input s))) (j_front s) (length (j_input s)) (j_index s) s Hs) as H.
  assert (P : loop_frame (j_front s) (length (j_input s)) (j_index s) s /\ (length (j_input s) < S (length (j_input s)) + j_index s)%nat).
  { split; [split; auto|lia]. }
  specialize (H P). unfold dbind. destruct (array_loop _ _ s) as [s1 [i|e]| |]; auto.
  destruct H as (I1 & L1 & Hle & Ha & (F1 & F2 & F3)). apply at_lt in Ha.
  assert (E : (j_index s1 + 1 <? i)%nat = false) by (apply Nat.ltb_ge; lia). rewrite E.
  set (s2 := jset (j_input s1) (j_index s) s1).
  assert (I2 : jinv s2). { destruct I1 as (J1 & J2 & J3 & J4). split; [cbn; lia|]. split; [exact J2|]. split; auto. }
  pose proof (tri_split (i - j_index s) (j_index s1 + 1 - i) s2 I2) as G.
  assert (P2 : (j_index s2 + (i - j_index s) + (j_index s1 + 1 - i) <= length (j_input s2))%nat) by (cbn; lia).
  specialize (G P2). destruct (j_split_input _ _ s2) as [s3 [x|e]| |] eqn:E3; auto.
  - destruct G as (I3 & L3 & Fr). split; auto. split; auto.
    destruct L3 as (M1 & M2 & M3). destruct L1 as (N1 & N2 & N3). split; [|split].
    + unfold jpos in *. cbn in *. rewrite F1 in *. lia.
    + eapply prefix_trans; [exact N2|exact M2].
    + destruct M3 as (n3 & E4). destruct N3 as (n4 & E5). cbn in E4. exists (n3 ++ n4). rewrite E4, E5, app_assoc. auto.
  - unfold j_split_input in E3. destruct (_ <=? _)%nat; discriminate.
Qed.

Lemma tri_decode : tri any_st (decode_string_to_bytes ar dec) (fresh false).
Proof.
  unfold decode_string_to_bytes. pose proof tri_base64 as H. revert H. generalize dec as d.
  intros [| |] H; [apply tri_str_bytes|apply tri_hex|apply H; auto].
Qed.

Lemma tri_handed b x : tri (fresh b x) (j_handed b x) any_res.
Proof.
  intros s Hs [F1 F2]. cbn. destruct Hs as (H1 & H2 & H3 & H4). split; [|split; [|exact I]].
  - split; [exact H1|]. split; [exact H2|]. cbn. split; [constructor; auto|]. split; auto.
  - split; [unfold jpos; cbn; lia|]. split; [apply prefix_refl|]. exists [(b, x)]. auto.
Qed.

(** ** The methods, given safe runners *)
Section Methods.
Context {U : Type} (R : @jrunner U).
Context (Hde : forall p, tri any_st (jr_de R false p) any_res)
        (Hkey : forall p, tri (at_char 34) (jr_de R true p) any_res)
        (Hseq : forall p first, tri any_st (jr_seq R p first) any_res)
        (Hmap : forall p first, tri any_st (jr_map R p first) any_res)
        (Hunit : forall p, tri any_st (jr_enum R true p) any_res)
        (Henum : forall p, tri any_st (jr_enum R false p) any_res).

Lemma weaken {A} P (m : M A) : tri any_st m any_res -> tri P m any_res.
Proof. intros H. eapply tri_conseq; [exact H| |auto]. intros; exact I. Qed.
Lemma weaken' {A} (m : M A) Q : tri any_st m Q -> tri any_st m any_res.
Proof. intros H. eapply tri_conseq; [exact H|auto|]. intros; exact I. Qed.
Lemma tri_ret_any {A} P (a : A) : tri P (dret a) any_res.
Proof. exact (tri_lift P (Ok a)). Qed.

Ltac step := first
  [ apply tri_fail | apply tri_lift | apply tri_ret_any
  | apply tri_if; intros ?
  | apply weaken; first [exact Hunit | apply Hde | apply Hseq | apply Hmap | apply Hunit | apply Henum]
  | eapply tri_bind; [first [apply tri_whitespace | apply weaken, tri_token | apply weaken, tri_eat_str | apply weaken, tri_peek
      | apply weaken, tri_int | apply weaken, tri_float
      | apply tri_eat1 | apply tri_handed
      | apply weaken, Hseq | apply weaken, Hmap | apply weaken, Henum]|intros ?; cbn beta]].

Lemma at_any {A} c (m : M A) Q : tri any_st m Q -> tri (at_char c) m Q.
Proof. intros H. eapply tri_conseq; [exact H| |auto]. intros; exact I. Qed.
Lemma res_any {A B} (a : A) (m : M B) Q : tri any_st m Q -> tri (any_res a) m Q.
Proof. intros H. eapply tri_conseq; [exact H| |auto]. intros; exact I. Qed.

Lemma m_bool v : tri any_st (j_deserialize_bool (U := U) v) any_res.
Proof. unfold j_deserialize_bool. repeat step. Qed.
Lemma m_int k v : tri any_st (j_deserialize_int (U := U) k v) any_res.
Proof. unfold j_deserialize_int. repeat step. Qed.
Lemma m_f32 v : tri any_st (j_deserialize_f32 fl (U := U) v) any_res.
Proof. unfold j_deserialize_f32. repeat step. Qed.
Lemma m_f64 v : tri any_st (j_deserialize_f64 fl (U := U) v) any_res.
Proof. unfold j_deserialize_f64. repeat step. Qed.
Lemma m_str v : tri any_st (j_deserialize_str (U := U) v) any_res.
Proof.
  unfold j_deserialize_str. repeat step. eapply tri_bind; [apply res_any, tri_str|]. intros x. repeat step.
Qed.
Lemma m_char v : tri any_st (j_deserialize_char (U := U) v) any_res.
Proof.
  unfold j_deserialize_char. repeat step. eapply tri_bind; [apply res_any, tri_str|]. intros x.
  destruct (char_from_str _); repeat step.
Qed.
Lemma m_bytes v : tri any_st (j_deserialize_bytes ar dec (U := U) v) any_res.
Proof.
  unfold j_deserialize_bytes. step. apply tri_bind with (Q := fresh false).
  - step; [step; apply res_any, tri_decode|]. step; [|step]. eapply tri_bind; [apply tri_eat1|]. intros ?. apply res_any, tri_array.
  - intros x. repeat step.
Qed.
Lemma m_option v : tri any_st (j_deserialize_option R v) any_res.
Proof. unfold j_deserialize_option. repeat step. Qed.
Lemma m_unit v : tri any_st (j_deserialize_unit (U := U) v) any_res.
Proof. unfold j_deserialize_unit. repeat step. Qed.
Lemma m_seq v : tri any_st (j_deserialize_seq R v) any_res.
Proof.
  unfold j_deserialize_seq. repeat step.
Qed.
Lemma m_map v : tri any_st (j_deserialize_map R v) any_res.
Proof.
  unfold j_deserialize_map. repeat step.
Qed.
Lemma m_struct v : tri any_st (j_deserialize_struct R v) any_res.
Proof. unfold j_deserialize_struct. repeat step; apply weaken; [apply m_map|apply m_seq]. Qed.
Lemma m_enum v : tri any_st (j_deserialize_enum R v) any_res.
Proof.
  unfold j_deserialize_enum. repeat step.
Qed.
Lemma m_ignored v : tri any_st (j_deserialize_ignored_any R v) any_res.
Proof.
  unfold j_deserialize_ignored_any. repeat step; try (apply weaken; first [apply m_unit|apply m_bool|apply m_seq|apply m_map]).
  apply tri_bind with (Q := fun t s => inside (length t) s); [apply at_any, tri_match_float|].
  intros t. eapply tri_bind; [apply tri_eat|]. intros ?; cbn beta. step.
Qed.
Lemma m_any v : tri any_st (j_deserialize_any fl any_f32 R v) any_res.
Proof.
  unfold j_deserialize_any. repeat step; try (apply weaken; first [apply m_unit|apply m_bool|apply m_str|apply m_seq|apply m_map]).
  eapply tri_bind; [apply at_any, tri_float_or_int|]. intros n; cbn beta. step.
Qed.
Lemma m_method m v : tri any_st (js_method ar fl any_f32 dec R m v) any_res.
Proof.
  destruct m; cbn [js_method]; first [apply m_any|apply m_bool|apply m_int|apply m_f32|apply m_f64|apply m_char|apply m_str|
    apply m_bytes|apply m_option|apply m_unit|apply Hde|apply m_seq|apply m_map|apply m_struct|apply m_enum|apply m_ignored|apply tri_fail].
Qed.

Lemma key_m m v : tri (at_char 34) (key_method R m v) any_res.
Proof.
  destruct m; cbn [key_method]; try (apply at_any; first [apply m_str|apply m_char|apply Hunit]).
  - unfold key_bool. eapply tri_bind; [apply tri_eat1|]. intros ?; cbn beta.
    eapply tri_bind; [apply weaken, m_bool|]. intros ?; cbn beta. eapply tri_bind; [apply res_any, tri_peek|].
    intros ?; cbn beta. repeat step.
  - apply tri_bind with (Q := any_res); [|intros; step].
    unfold parse_numkey. eapply tri_bind; [apply tri_eat1|]. intros ?; cbn beta.
    eapply tri_bind; [apply weaken, tri_int|]. intros ?; cbn beta. eapply tri_bind; [apply res_any, tri_peek|].
    intros ?; cbn beta. repeat step.
Qed.

Lemma run_v unit p : tri any_st (j_run_variant R unit p) any_res.
Proof.
  destruct p; cbn [j_run_variant]; try apply tri_lift; apply tri_post; destruct unit; try apply tri_fail.
  - apply Hde.
  - apply m_seq.
  - apply m_struct.
Qed.

Lemma s_de (key : bool) p : tri (if key then at_char 34 else any_st) (j_step_de ar fl any_f32 dec R key p) any_res.
Proof.
  destruct p; cbn [j_step_de].
  - apply tri_lift.
  - destruct key; [apply Hkey|apply Hde].
  - apply tri_post. destruct key; [apply key_m|apply m_method].
Qed.

Lemma tri_next close e1 e2 e3 first : tri any_st (next_item close e1 e2 e3 first)
  (fun o s => match o with Some (c, _) => at_char c s | None => True end).
Proof.
  set (Q := fun (o : option (Z * bool)) (s : jde) => match o with Some (c, _) => at_char c s | None => True end).
  unfold next_item. eapply tri_bind; [apply tri_whitespace|]. intros c; cbn beta. apply tri_if; intros _.
  { eapply tri_conseq; [apply (tri_ret None Q)|intros; exact I|auto]. }
  apply tri_if; intros _.
  - apply tri_if; intros _; [apply tri_fail|]. eapply tri_bind; [apply tri_eat1|]. intros ?; cbn beta.
    eapply tri_bind; [apply res_any, tri_whitespace|]. intros c'; cbn beta. apply tri_if; intros _; [apply tri_fail|].
    apply (tri_ret (Some (c', first)) Q).
  - apply tri_if; intros _; [|apply tri_fail]. apply (tri_ret (Some (c, false)) Q).
Qed.

Lemma s_seq p first : tri any_st (j_step_seq R p first) any_res.
Proof.
  destruct p; cbn [j_step_seq].
  - apply tri_lift.
  - eapply tri_try; [apply tri_next| |].
    + intros [[c f]|]; cbn beta iota; [|apply weaken, Hseq].
      eapply tri_try; [apply weaken, Hde| |]; intros; apply weaken, Hseq.
    + intros e. apply Hseq.
  - apply Hseq.
Qed.

Lemma tri_colon_de p : tri any_st (_ <-- parse_key_colon ;; jr_de R false p) any_res.
Proof. eapply tri_bind; [apply tri_colon|]. intros; apply weaken, Hde. Qed.

Lemma s_map p first : tri any_st (j_step_map R p first) any_res.
Proof.
  destruct p; cbn [j_step_map].
  - apply tri_lift.
  - eapply tri_try; [apply tri_next| |].
    + intros [[c f]|]; cbn beta iota; [|apply weaken, Hmap].
      apply tri_if; intros Ec; [|apply weaken, Hmap]. apply Z.eqb_eq in Ec. subst c.
      eapply tri_try; [apply Hkey| |]; intros; apply weaken, Hmap.
    + intros e. apply Hmap.
  - eapply tri_try; [apply tri_colon_de| |]; intros; apply weaken, Hmap.
  - apply Hmap.
Qed.

Lemma s_enum unit p : tri any_st (j_step_enum R unit p) any_res.
Proof.
  destruct p; cbn [j_step_enum].
  - apply tri_lift.
  - eapply tri_try with (Q := any_res).
    + eapply tri_bind; [apply Hde|]. intros u; cbn beta. eapply tri_bind with (Q := any_res).
      * destruct unit; [apply tri_ret_any|apply weaken, tri_colon].
      * intros; apply tri_ret_any.
    + intros; apply weaken, run_v.
    + intros; apply tri_lift.
Qed.
End Methods.
End Rules.

(** ** Every program, at every budget *)
Theorem run_safe {U} fuel :
  let R := js_run ar fl any_f32 dec (U := U) fuel in
  (forall key p, tri True (if key : bool then at_char 34 else any_st) (jr_de R key p) any_res) /\
  (forall p first, tri True any_st (jr_seq R p first) any_res) /\
  (forall p first, tri True any_st (jr_map R p first) any_res) /\
  (forall unit p, tri True any_st (jr_enum R unit p) any_res).
Proof.
  induction fuel as [|fuel IH]; cbn [js_run].
  - repeat split; intros; intros s Hs Ps; exact I.
  - cbv zeta in IH. destruct IH as (H1 & H2 & H3 & H4). cbn [jr_de jr_seq jr_map jr_enum].
    pose proof (fun p => H1 false p) as Hf. pose proof (fun p => H1 true p) as Ht.
    pose proof (fun p => H4 false p) as Ef. pose proof (fun p => H4 true p) as Et.
    split; [|split; [|split]]; intros.
    + apply s_de; auto.
    + apply s_seq; auto.
    + apply s_map; auto.
    + apply s_enum; auto.
Qed.
End Safe.

(** ** Whole documents *)
Theorem from_mut_slice_inv ar fl any_f32 dec {U} fuel (p : deser U js_de_error) input :
  (dec = Base64Decoder -> 3 * zlen input <= usize_max ar) ->
  match js_from_mut_slice ar fl any_f32 dec fuel p input with
  | Done s _ => jinv (length input) s
  | Panic => False
  | OutOfFuel => True
  end.
Proof.
  intros room. unfold zlen in room.
  destruct (@run_safe ar fl any_f32 dec (length input) room U fuel) as (H & _).
  specialize (H false p (j_from_mut_slice input)). cbn beta iota in H.
  assert (I0 : jinv (length input) (j_from_mut_slice input)).
  { split; [cbn; lia|]. split; [reflexivity|]. split; [constructor|exact I]. }
  specialize (H I0 I). unfold js_from_mut_slice, dbind.
  destruct (jr_de _ _ _ _) as [s [u|e]| |]; auto; [|tauto].
  destruct H as (I1 & _). unfold j_end.
  pose proof (tri_whitespace (length input) False s I1 I) as Hw.
  destruct (eat_whitespace s) as [s1 [c|e]| |]; cbn; auto; tauto.
Qed.

(** The memory: what was given up and what is still unparsed. *)
Definition memory (s : jde) : bytes := j_front s ++ j_input s.

Lemma ordered_nth log i j x y : ordered log -> (i < j)%nat ->
  nth_error log i = Some y -> nth_error log j = Some x -> (slice_end (snd x) <= js_off (snd y))%nat.
Proof.
  revert i j. induction log as [|[b z] log IH]; intros [|i] [|j] Ho Hij Hi Hj; try discriminate; try lia;
    cbn [ordered nth_error] in *; destruct Ho as [F Ho].
  - injection Hi as <-. rewrite Forall_forall in F. apply (F x). eapply nth_error_In; eauto.
  - eapply (IH i j); eauto. lia.
Qed.

Theorem from_mut_slice_borrows ar fl any_f32 dec {U} fuel (p : deser U js_de_error) input s r :
  (dec = Base64Decoder -> 3 * zlen input <= usize_max ar) ->
  js_from_mut_slice ar fl any_f32 dec fuel p input = Done s r ->
  length (memory s) = length input /\ (j_index s <= length (j_input s))%nat /\
  (forall b x, In (b, x) (j_log s) ->
     (js_off x + length (js_data x) <= length (j_front s))%nat /\
     firstn (length (js_data x)) (skipn (js_off x) (memory s)) = js_data x /\
     (b = true -> valid_utf8 (js_data x))) /\
  (forall i j x y, (i < j)%nat -> nth_error (j_log s) i = Some y -> nth_error (j_log s) j = Some x ->
     (js_off (snd x) + length (js_data (snd x)) <= js_off (snd y))%nat).
Proof.
  intros room E. pose proof (from_mut_slice_inv ar fl any_f32 dec fuel p input room) as H. rewrite E in H.
  destruct H as (H1 & H2 & H3 & H4). unfold memory. rewrite app_length. split; auto. split; auto. split.
  - intros b x Hx. rewrite Forall_forall in H3. specialize (H3 _ Hx). cbn [fst snd] in H3.
    pose proof (stable_app _ (j_input s) _ _ H3) as (_ & D & _). destruct H3 as (S1 & _ & S3). split; [exact S1|]. split; [symmetry; exact D|exact S3].
  - intros. eapply ordered_nth; eauto.
Qed.

Theorem from_mut_slice_no_panic ar fl any_f32 dec {U} fuel (p : deser U js_de_error) input :
  (dec = Base64Decoder -> 3 * zlen input <= usize_max ar) ->
  js_from_mut_slice ar fl any_f32 dec fuel p input <> Panic.
Proof.
  intros room E. pose proof (from_mut_slice_inv ar fl any_f32 dec fuel p input room) as H. rewrite E in H. exact H.
Qed.

(** ** The end of the document *)
Definition unparsed (s : jde) : bytes := skipn (j_index s) (j_input s).
Definition blank (w : bytes) : Prop := Forall (fun b => b = 32 \/ b = 9 \/ b = 10 \/ b = 13) w.

Lemma is_space_spec b : is_space b = true <-> b = 32 \/ b = 9 \/ b = 10 \/ b = 13.
Proof. unfold is_space. rewrite !orb_true_iff, !Z.eqb_eq. tauto. Qed.

Lemma whitespace_none s : blank (unparsed s) -> (j_index s <= length (j_input s))%nat ->
  eat_whitespace s = Done s (Err JUnexpectedEof).
Proof.
  intros Hb Hi. unfold eat_whitespace. rewrite (proj2 (Nat.leb_le _ _) Hi). fold (unparsed s).
  destruct (position _ _) as [n|] eqn:E; auto.
  destruct (position_nth _ _ _ E) as (c & Ec & Hc). apply nth_error_In in Ec.
  unfold blank in Hb. rewrite Forall_forall in Hb. apply Hb, is_space_spec in Ec. rewrite Ec in Hc. discriminate.
Qed.

Lemma whitespace_some s : ~ blank (unparsed s) -> (j_index s <= length (j_input s))%nat ->
  exists c s', eat_whitespace s = Done s' (Ok c).
Proof.
  intros Hb Hi. unfold eat_whitespace. rewrite (proj2 (Nat.leb_le _ _) Hi). fold (unparsed s).
  destruct (position _ _) as [n|] eqn:E.
  - destruct (position_nth _ _ _ E) as (c & Ec & Hc). unfold unparsed in Ec. rewrite nth_error_skipn in Ec. rewrite Ec. eauto.
  - exfalso. apply Hb. apply position_none in E. eapply Forall_impl; [|exact E]. intros b Hn.
    apply is_space_spec. cbn beta in Hn. destruct (is_space b); auto.
Qed.

Theorem end_spec ar fl any_f32 dec {U} fuel (p : deser U js_de_error) input s v :
  (dec = Base64Decoder -> 3 * zlen input <= usize_max ar) ->
  jr_de (js_run ar fl any_f32 dec fuel) false p (j_from_mut_slice input) = Done s (Ok v) ->
  (blank (unparsed s) -> js_from_mut_slice ar fl any_f32 dec fuel p input = Done s (Ok v)) /\
  (~ blank (unparsed s) -> exists s', js_from_mut_slice ar fl any_f32 dec fuel p input = Done s' (Err JTrailingCharacters)).
Proof.
  intros room E. unfold js_from_mut_slice, dbind. rewrite E. unfold zlen in room.
  destruct (@run_safe ar fl any_f32 dec (length input) room U fuel) as (H & _).
  specialize (H false p (j_from_mut_slice input)). cbn beta iota in H.
  assert (I0 : jinv (length input) (j_from_mut_slice input)).
  { split; [cbn; lia|]. split; [reflexivity|]. split; [constructor|exact I]. }
  specialize (H I0 I). rewrite E in H. destruct H as ((Hi & _) & _). unfold j_end. split; intros Hb.
  - rewrite (whitespace_none s Hb Hi). reflexivity.
  - destruct (whitespace_some s Hb Hi) as (c & s' & ->). eauto.
Qed.

Theorem accepted_blank ar fl any_f32 dec {U} fuel (p : deser U js_de_error) input s v :
  js_from_mut_slice ar fl any_f32 dec fuel p input = Done s (Ok v) -> blank (unparsed s).
Proof.
  unfold js_from_mut_slice, dbind. destruct (jr_de _ _ _ _) as [s0 [u|e]| |]; try discriminate.
  unfold j_end. destruct (eat_whitespace s0) as [s1 [c|e]| |] eqn:E; try discriminate.
  intros [= -> ->]. unfold eat_whitespace in E.
  destruct (_ <=? _)%nat; [|discriminate]. destruct (position _ _) as [n|] eqn:Ep; [destruct (nth_error _ _); discriminate|].
  injection E as -> _. apply position_none in Ep. eapply Forall_impl; [|exact Ep]. intros b Hn.
  apply is_space_spec. cbn beta in Hn. destruct (is_space b); auto.
Qed.

(** ** The public cursor methods beyond the end *)
Theorem cursor_beyond ar s : (length (j_input s) < j_index s)%nat ->
  j_remaining_len s = 0%nat /\
  j_peek s = Done s (Err JUnexpectedEof) /\ input_mut s = Done s (Err JUnexpectedEof) /\
  (forall token, parse_token_content token s = Done s (Err JUnexpectedEof)) /\
  eat_str_content s = Done s (Err JUnexpectedEof) /\
  parse_str_bytes_content s = Done s (Err JUnexpectedEof) /\
  parse_str_content s = Done s (Err JUnexpectedEof) /\
  parse_hex_bytes_content s = Done s (Err JUnexpectedEof) /\
  parse_base64_bytes_content ar s = Done s (Err JUnexpectedEof).
Proof.
  intros H. assert (E : (j_index s <=? length (j_input s))%nat = false) by (apply Nat.leb_gt; auto).
  assert (E3 : parse_str_bytes_content s = Done s (Err JUnexpectedEof)).
  { unfold parse_str_bytes_content. cbn [parse_str_loop]. rewrite E. reflexivity. }
  assert (E4 : input_mut s = Done s (Err JUnexpectedEof)) by (unfold input_mut; rewrite E; reflexivity).
  split; [unfold j_remaining_len; lia|]. split.
  { unfold j_peek. rewrite (proj2 (nth_error_None _ _)) by lia. reflexivity. }
  split; [exact E4|]. split.
  { intros token. unfold parse_token_content. rewrite (proj2 (Nat.leb_gt _ _)) by lia. reflexivity. }
  split. { unfold eat_str_content. cbn [eat_str_loop]. rewrite E. reflexivity. }
  split; [exact E3|]. split. { unfold parse_str_content, dbind. rewrite E3. reflexivity. }
  split.
  - unfold parse_hex_bytes_content, dbind. rewrite E4. reflexivity.
  - unfold parse_base64_bytes_content, dbind. rewrite E4. reflexivity.
Qed.

Theorem cursor_beyond_panics s : (length (j_input s) < j_index s)%nat ->
  eat_whitespace s = Panic /\ j_end s = Panic /\ (forall k, parse_unsigned k s = Panic /\ parse_signed k s = Panic).
Proof.
  intros H. assert (E : eat_whitespace s = Panic).
  { unfold eat_whitespace. rewrite (proj2 (Nat.leb_gt _ _)) by lia. reflexivity. }
  split; auto. split; [unfold j_end; rewrite E; reflexivity|].
  intros k. unfold parse_unsigned, parse_signed, dbind. rewrite E. auto.
Qed.

Theorem cursor_inside s : (j_index s <= length (j_input s))%nat ->
  j_remaining_len s = length (unparsed s) /\
  input_mut s = Done s (Ok (unparsed s)) /\
  (j_peek s = match unparsed s with c :: _ => Done s (Ok c) | [] => Done s (Err JUnexpectedEof) end) /\
  (forall w c t, unparsed s = w ++ c :: t -> blank w -> ~ blank [c] ->
     exists s', eat_whitespace s = Done s' (Ok c) /\ unparsed s' = c :: t /\ memory s' = memory s) /\
  (blank (unparsed s) -> eat_whitespace s = Done s (Err JUnexpectedEof)).
Proof.
  intros Hi. assert (En : nth_error (j_input s) (j_index s) = nth_error (unparsed s) 0).
  { unfold unparsed. rewrite nth_error_skipn, Nat.add_0_r. reflexivity. }
  split; [unfold j_remaining_len, unparsed; rewrite skipn_length; reflexivity|].
  split; [unfold input_mut; rewrite (proj2 (Nat.leb_le _ _) Hi); reflexivity|].
  split; [unfold j_peek; rewrite En; destruct (unparsed s); reflexivity|].
  split; [|intros; apply whitespace_none; auto].
  intros w c t E Hw Hc. unfold eat_whitespace. rewrite (proj2 (Nat.leb_le _ _) Hi). fold (unparsed s). rewrite E.
  assert (Ep : position (fun b => negb (is_space b)) (w ++ c :: t) = Some (length w)).
  { clear - Hw Hc. induction w as [|b w IH]; cbn [position app].
    - destruct (is_space c) eqn:Es; cbn; auto. exfalso. apply Hc. constructor; auto. apply is_space_spec. auto.
    - inversion Hw as [|? ? H1 H2]; subst. apply is_space_spec in H1. rewrite H1. cbn [negb]. rewrite (IH H2). reflexivity. }
  rewrite Ep. assert (En' : nth_error (j_input s) (j_index s + length w) = Some c).
  { rewrite <- nth_error_skipn. fold (unparsed s). rewrite E, nth_error_app2, Nat.sub_diag by lia. reflexivity. }
  rewrite En'. eexists. split; [reflexivity|]. split; [|reflexivity].
  unfold unparsed, jset. cbn [j_index j_input]. rewrite <- skipn_add. fold (unparsed s). rewrite E.
  rewrite skipn_app, skipn_all, Nat.sub_diag. reflexivity.
Qed.

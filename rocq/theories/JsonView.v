(** The parsers of the JSON deserializer seen as functions of the unparsed text:
    each succeeds or fails, and leaves a certain rest, whatever the rest of the
    state.  The pure functions [p_*] are only used in proofs. *)
From Verif Require Import Prelude PreludeFacts Utf8 Utf8Spec Utf8Facts SerdeDe SerdeSer MpSpec Base64Spec Base64 Base64Facts Base64Top
  JsonSpec JsonFacts JsonDe JsonDeSafe JsonStr.
Ltac Zify.zify_post_hook ::= Z.div_mod_to_equations.

Definition pres (A : Type) : Type := result (A * bytes) js_de_error.

(** ** Pure parsers *)
Fixpoint drop_ws (l : bytes) : bytes :=
  match l with c :: r => if is_space c then drop_ws r else l | [] => [] end.
(** Skip whitespace; go on with the next character and what follows it. *)
Definition p_ws {A} (F : Z -> bytes -> pres A) (l : bytes) : pres A :=
  match drop_ws l with [] => Err JUnexpectedEof | c :: r => F c r end.
Definition pbind {A B} (r : pres A) (f : A -> bytes -> pres B) : pres B :=
  match r with Ok (a, k) => f a k | Err e => Err e end.
Definition p_loop (neg : bool) (k : ikind) (n : Z) (l : bytes) : pres Z :=
  match number_loop neg k n 0 l with Ok (n, pos) => Ok (n, skipn pos l) | Err e => Err e end.
Definition p_unsigned (k : ikind) : bytes -> pres Z := p_ws (fun c r =>
  if c =? 45 then Err JInvalidNumber
  else if c =? 48 then Ok (0, r)
  else if ascii_digit c then p_loop false k (c - 48) r
  else Err JInvalidType).
Definition p_signed (k : ikind) : bytes -> pres Z := p_ws (fun c r =>
  if c =? 45 then
    match r with
    | [] => Err JUnexpectedEof
    | c :: r => if c =? 48 then Ok (0, r) else if ascii_digit c then p_loop true k (- (c - 48)) r else Err JInvalidType
    end
  else if c =? 48 then Ok (0, r) else if ascii_digit c then p_loop false k (c - 48) r else Err JInvalidType).
Definition p_int (k : ikind) : bytes -> pres Z :=
  match k with U8 | U16 | U32 | U64 => p_unsigned k | _ => p_signed k end.
Definition p_tok (token : bytes) (l : bytes) : pres unit :=
  if (length token <=? length l)%nat then
    if list_eq_dec Z.eq_dec (firstn (length token) l) token then Ok (tt, skipn (length token) l) else Err JExpectedToken
  else Err JUnexpectedEof.
Definition p_float (fs : bytes -> option Z) : bytes -> pres (option Z) := p_ws (fun c r =>
  if c =? 110 then pbind (p_tok tok_ull r) (fun _ k => Ok (None, k))
  else let t := number_prefix (c :: r) in
       match fs t with Some v => Ok (Some v, skipn (length t) (c :: r)) | None => Err JInvalidNumber end).
Definition p_colon : bytes -> pres unit := p_ws (fun c r => if c =? 58 then Ok (tt, r) else Err JExpectedColon).
(** After the opening quote. *)
Definition p_str (l : bytes) : pres bytes :=
  pbind (unesc l) (fun x k => if from_utf8_ok x then Ok (x, k) else Err JInvalidUnicodeCodePoint).
Fixpoint p_hex (l : bytes) : pres bytes :=
  match l with
  | [] => Err JUnexpectedEof
  | a :: l1 =>
    match l1 with
    | [] => if a =? 34 then Ok ([], []) else Err JUnexpectedEof
    | b :: l2 =>
      match parse_hex_nib a with
      | Some x =>
        match parse_hex_nib b with
        | Some y => prep [x * 16 + y] (p_hex l2)
        | None => Err JUnexpectedChar
        end
      | None => if a =? 34 then Ok ([], l1) else Err JUnexpectedChar
      end
    end
  end.
Fixpoint drop_pad (l : bytes) : bytes := match l with c :: r => if c =? 61 then drop_pad r else l | [] => [] end.
Definition p_base64 (ar : arch) (l : bytes) : pres bytes :=
  match b64_decode ar l with
  | B64Panic => Err JUnexpectedEof
  | B64 mem d e =>
    let x := firstn (Z.to_nat d) mem in
    match skipn (Z.to_nat e) l with
    | [] => Err JUnexpectedEof
    | c :: r =>
      if c =? 34 then Ok (x, r)
      else if c =? 61 then
        match drop_pad r with
        | [] => Err JUnexpectedEof
        | c :: r => if c =? 34 then Ok (x, r) else Err JUnexpectedChar
        end
      else Err JUnexpectedChar
    end
  end.
(** After the opening bracket and the first non-space character. *)
Fixpoint p_array_loop (n : nat) (l : bytes) : pres bytes :=
  match n with
  | O => Err JUnexpectedEof
  | S n => pbind (p_unsigned U8 l) (fun b => p_ws (fun c r =>
      if c =? 44 then prep [b] (p_array_loop n r) else if c =? 93 then Ok ([b], r) else Err JUnexpectedChar))
  end.
Definition p_array : bytes -> pres bytes := p_ws (fun c r =>
  if c =? 93 then Ok ([], r) else p_array_loop (S (length (c :: r))) (c :: r)).
Definition p_bytes_str (ar : arch) (dec : byte_decoder) : bytes -> pres bytes :=
  match dec with NopeDecoder => unesc | HexDecoder => p_hex | Base64Decoder => p_base64 ar end.
Definition p_bytes (ar : arch) (dec : byte_decoder) : bytes -> pres bytes := p_ws (fun c r =>
  if c =? 34 then p_bytes_str ar dec r else if c =? 91 then p_array r else Err JUnexpectedChar).

(** ** Views *)
Section View.
Context (ar : arch) (dec : byte_decoder).
Local Notation M := (DM jde js_de_error).

(** The cursor is inside the input; for Base64 the input is not too long. *)
Definition fits (n : nat) : Prop := dec = Base64Decoder -> 3 * Z.of_nat n <= usize_max ar.
Definition inside (s : jde) : Prop := (j_index s <= length (j_input s))%nat /\ fits (length (j_input s)).

Definition follows {A B} (proj : A -> B) (o : outcome jde A js_de_error) (r : pres B) : Prop :=
  match r with
  | Ok (b, k) => exists s' a, o = Done s' (Ok a) /\ proj a = b /\ inside s' /\ unparsed s' = k
  | Err e => exists s', o = Done s' (Err e)
  end.
Definition views {A B} (proj : A -> B) (m : M A) (f : bytes -> pres B) : Prop :=
  forall s, inside s -> follows proj (m s) (f (unparsed s)).
Definition same {A} (a : A) : A := a.

Lemma fits_mono n m : fits n -> (m <= n)%nat -> fits m.
Proof. unfold fits. intros H L D. specialize (H D). lia. Qed.
Lemma inside_set s n : inside s -> (n <= length (j_input s))%nat -> inside (jset (j_input s) n s).
Proof. intros [H F] L. split; auto. Qed.

Lemma follows_bind {A B C D} (p : A -> B) (q : C -> D) (m : M A) (g : A -> M C) r f s :
  follows p (m s) r ->
  (forall s' a k, inside s' -> unparsed s' = k -> r = Ok (p a, k) -> follows q (g a s') (f (p a) k)) ->
  follows q (dbind m g s) (pbind r f).
Proof.
  unfold dbind. destruct r as [[b k]|e]; cbn [follows pbind].
  - intros (s' & a & -> & <- & I & U) H. apply (H s' a k); auto.
  - intros (s' & ->) _. exists s'. reflexivity.
Qed.
Lemma views_bind {A B C D} (p : A -> B) (q : C -> D) (m : M A) (g : A -> M C) f h :
  views p m f -> (forall a, views q (g a) (h (p a))) -> views q (dbind m g) (fun l => pbind (f l) h).
Proof.
  intros Hm Hg s I. eapply follows_bind; [apply Hm; auto|]. intros s' a k I' <- _. apply Hg. auto.
Qed.
Lemma follows_ret {A B} (p : A -> B) a b s k : inside s -> unparsed s = k -> p a = b -> follows p (dret a s) (Ok (b, k)).
Proof. intros I U P. exists s, a. auto. Qed.
Lemma follows_fail {A B} (p : A -> B) e s : follows p (dfail e s) (Err e).
Proof. exists s. reflexivity. Qed.

(** Eating the [n] characters of [a]. *)
Lemma eat_state s a k : inside s -> unparsed s = a ++ k ->
  inside (jset (j_input s) (j_index s + length a) s) /\ unparsed (jset (j_input s) (j_index s + length a) s) = k.
Proof.
  intros I U. pose proof I as [H F]. split.
  - apply inside_set; auto. unfold unparsed in U. apply (f_equal (@length Z)) in U. rewrite skipn_length, app_length in U. lia.
  - unfold unparsed. cbn [j_input j_index jset]. rewrite <- skipn_add. fold (unparsed s). rewrite U. apply skipn_len.
Qed.
Lemma follows_eat {A B} (p : A -> B) (m : M A) f s n a k : inside s -> unparsed s = a ++ k -> length a = n ->
  (forall s', inside s' -> unparsed s' = k -> follows p (m s') f) -> follows p (dbind (j_eat_some n) (fun _ => m) s) f.
Proof.
  intros I U <- H. destruct (eat_state s a k I U) as [I' U']. unfold dbind, j_eat_some. apply H; auto.
Qed.
Lemma follows_eat1 {A B} (p : A -> B) (m : M A) f s c k : inside s -> unparsed s = c :: k ->
  views p m f -> follows p (dbind (j_eat_some 1) (fun _ => m) s) (f k).
Proof. intros I U H. apply (follows_eat p m _ s 1 [c] k); auto. intros s' I' <-. apply H; auto. Qed.

(** *** Whitespace *)
Lemma drop_ws_split l : exists w, l = w ++ drop_ws l /\ Forall (fun b => is_space b = true) w /\
  match drop_ws l with c :: _ => is_space c = false | [] => True end.
Proof.
  induction l as [|c l (w & E & Hw & Hd)]; [exists []; cbn; auto|]. cbn [drop_ws]. destruct (is_space c) eqn:Ec.
  - exists (c :: w). split; [cbn; f_equal; auto|]. auto.
  - exists []. cbn. auto.
Qed.
Lemma position_drop_ws l : position (fun b => negb (is_space b)) l =
  match drop_ws l with [] => None | _ => Some (length l - length (drop_ws l))%nat end.
Proof.
  induction l as [|c l IH]; [reflexivity|]. cbn [position drop_ws]. destruct (is_space c); cbn [negb].
  - rewrite IH. destruct (drop_ws_split l) as (w & E & _ & _).
    assert (L : (length (drop_ws l) <= length l)%nat) by (rewrite E at 2; rewrite app_length; lia).
    destruct (drop_ws l) eqn:Ed; [reflexivity|]. cbn [option_map]. f_equal. cbn [length] in *. lia.
  - rewrite Nat.sub_diag. reflexivity.
Qed.
Lemma ws_state s : inside s -> 
  match drop_ws (unparsed s) with
  | [] => eat_whitespace s = Done s (Err JUnexpectedEof)
  | c :: r => exists s', eat_whitespace s = Done s' (Ok c) /\ inside s' /\ unparsed s' = c :: r /\ is_space c = false /\
      s' = jset (j_input s) (j_index s') s /\ (j_index s <= j_index s')%nat
  end.
Proof.
  intros I. pose proof I as [H F]. unfold eat_whitespace. rewrite (proj2 (Nat.leb_le _ _) H). fold (unparsed s). rewrite position_drop_ws.
  destruct (drop_ws_split (unparsed s)) as (w & E & _ & Hc). destruct (drop_ws (unparsed s)) as [|c r]; [reflexivity|].
  assert (Ln : (length (unparsed s) - length (c :: r))%nat = length w) by (rewrite E, app_length; lia). rewrite Ln.
  replace (nth_error (j_input s) (j_index s + length w)) with (Some c).
  - destruct (eat_state s w (c :: r) I E) as [I' U']. eexists. split; [reflexivity|]. split; [auto|]. split; [auto|]. split; [auto|]. split; [reflexivity|]. cbn. lia.
  - rewrite <- nth_error_skipn. fold (unparsed s). rewrite E. symmetry. apply nth_mid.
Qed.
Lemma views_ws {A B} (p : A -> B) (K : Z -> M A) F :
  (forall s c r, inside s -> unparsed s = c :: r -> is_space c = false -> follows p (K c s) (F c r)) ->
  views p (dbind eat_whitespace K) (p_ws F).
Proof.
  intros H s I. unfold p_ws, dbind. pose proof (ws_state s I) as W. destruct (drop_ws (unparsed s)) as [|c r].
  - rewrite W. exists s. reflexivity.
  - destruct W as (s' & -> & I' & U' & Hc & _). apply H; auto.
Qed.

(** *** Numbers *)
Lemma number_loop_pos neg k l : forall n pos m q, number_loop neg k n pos l = Ok (m, q) -> (pos <= q <= pos + length l)%nat.
Proof.
  induction l as [|c l IH]; intros n pos m q; cbn [number_loop length]; [intros [= _ <-]; lia|].
  destruct (ascii_digit c); [|intros [= _ <-]; lia].
  destruct (checked k (n * 10)); [|discriminate]. destruct (checked k _); [|discriminate].
  intros E. apply IH in E. lia.
Qed.
Lemma view_number neg k n : views same (parse_number neg k n) (p_loop neg k n).
Proof.
  intros s I. unfold parse_number, p_loop, dbind at 1, input_mut. pose proof I as [H F]. rewrite (proj2 (Nat.leb_le _ _) H).
  fold (unparsed s). destruct (number_loop neg k n 0 (unparsed s)) as [[m q]|e] eqn:E; [|apply follows_fail].
  pose proof (number_loop_pos _ _ _ _ _ _ _ E) as Hq.
  apply (follows_eat same _ _ s q (firstn q (unparsed s)) (skipn q (unparsed s))); auto.
  - symmetry. apply firstn_skipn.
  - rewrite firstn_length. lia.
  - intros s' I' U'. apply follows_ret; auto.
Qed.
Lemma view_unsigned k : views same (parse_unsigned k) (p_unsigned k).
Proof.
  apply views_ws. intros s c r I U _. destruct (c =? 45); [apply follows_fail|]. destruct (c =? 48).
  - apply (follows_eat same _ _ s 1 [c] r); auto. intros. apply follows_ret; auto.
  - destruct (ascii_digit c); [|apply follows_fail]. apply (follows_eat1 same _ (p_loop false k (c - 48)) s c r); auto. apply view_number.
Qed.
Lemma view_signed k : views same (parse_signed k) (p_signed k).
Proof.
  apply views_ws. intros s c r I U _. destruct (c =? 45) eqn:E45.
  - destruct (eat_state s [c] r I U) as [I1 U1]. cbn [length] in *.
    unfold dbind at 1. unfold dbind at 1. unfold j_eat_some at 1. unfold dbind at 1, j_peek.
    set (s1 := jset (j_input s) (j_index s + 1) s) in *.
    assert (En : nth_error (j_input s1) (j_index s1) = nth_error r 0).
    { rewrite <- U1. unfold unparsed. rewrite nth_error_skipn, Nat.add_0_r. reflexivity. }
    rewrite En. destruct r as [|d r]; [exists s1; reflexivity|]. cbn [nth_error]. unfold dret at 1.
    destruct (d =? 48).
    + apply (follows_eat same _ _ s1 1 [d] r); auto. intros. apply follows_ret; auto.
    + destruct (ascii_digit d); [|apply follows_fail]. apply (follows_eat1 same _ (p_loop true k (- (d - 48))) s1 d r); auto. apply view_number.
  - unfold dbind at 1, dret at 1. destruct (c =? 48).
    + apply (follows_eat same _ _ s 1 [c] r); auto. intros. apply follows_ret; auto.
    + destruct (ascii_digit c); [|apply follows_fail]. apply (follows_eat1 same _ (p_loop false k (c - 48)) s c r); auto. apply view_number.
Qed.
Lemma view_int k : views same (parse_int k) (p_int k).
Proof. destruct k; (apply view_unsigned || apply view_signed). Qed.

Lemma view_tok t : views same (parse_token_content t) (p_tok t).
Proof.
  intros s I. pose proof I as [H F]. unfold parse_token_content, p_tok.
  assert (L : (j_index s + length t <=? length (j_input s))%nat = (length t <=? length (unparsed s))%nat).
  { unfold unparsed. rewrite skipn_length. apply Bool.eq_iff_eq_true. rewrite !Nat.leb_le. lia. }
  rewrite L. destruct (length t <=? length (unparsed s))%nat eqn:E; [|exists s; reflexivity].
  apply Nat.leb_le in E. unfold slice. fold (unparsed s). destruct (list_eq_dec _ _ _) as [Et|]; [|exists s; reflexivity].
  destruct (eat_state s (firstn (length t) (unparsed s)) (skipn (length t) (unparsed s)) I) as [I' U'].
  - symmetry. apply firstn_skipn.
  - rewrite firstn_length, Nat.min_l in * by auto. eexists. exists tt. split; [reflexivity|]. auto.
Qed.

Lemma number_prefix_split l : exists r, l = number_prefix l ++ r /\ Forall (fun b => number_char b = true) (number_prefix l) /\
  match r with c :: _ => number_char c = false | [] => True end.
Proof.
  unfold number_prefix. destruct (position _ l) as [n|] eqn:E.
  - destruct (position_split _ _ _ E) as (a & c & b & -> & <- & Hc & Ha). exists (c :: b). rewrite firstn_len. split; [auto|]. split.
    + eapply Forall_impl; [|exact Ha]. cbn. intros x Hx. destruct (number_char x); auto; discriminate.
    + destruct (number_char c); auto; discriminate.
  - exists []. rewrite app_nil_r. split; [auto|]. split; [|auto]. apply position_none in E.
    eapply Forall_impl; [|exact E]. cbn. intros x Hx. destruct (number_char x); auto; discriminate.
Qed.
Lemma follows_match_float {A B} (p : A -> B) (K : bytes -> M A) f s : inside s ->
  (follows p (K (number_prefix (unparsed s)) s) f) -> follows p (dbind match_float K s) f.
Proof. intros [H F] HK. unfold dbind, match_float. rewrite (proj2 (Nat.leb_le _ _) H). exact HK. Qed.
Lemma eat_prefix {A B} (p : A -> B) (m : M A) f s : inside s ->
  (forall s', inside s' -> unparsed s' = skipn (length (number_prefix (unparsed s))) (unparsed s) -> follows p (m s') f) ->
  follows p (dbind (j_eat_some (length (number_prefix (unparsed s)))) (fun _ => m) s) f.
Proof.
  intros I H. destruct (number_prefix_split (unparsed s)) as (r & E & _).
  apply (follows_eat p m f s _ (number_prefix (unparsed s)) r); auto. intros s' I' U'. apply H; auto.
  rewrite U'. symmetry. rewrite E at 2. apply skipn_len.
Qed.
Lemma view_float fs : views same (parse_float fs) (p_float fs).
Proof.
  apply views_ws. intros s c r I U _. destruct (c =? 110).
  - apply (follows_eat1 same _ (fun l => pbind (p_tok tok_ull l) (fun _ k => Ok (None, k))) s c r); auto.
    apply (views_bind same same _ _ (p_tok tok_ull) (fun _ k => Ok (None, k))); [apply view_tok|]. intros a s' I'. apply follows_ret; auto.
  - apply follows_match_float; auto. rewrite <- U. cbn zeta. destruct (fs (number_prefix (unparsed s))) as [v|]; [|apply follows_fail].
    apply eat_prefix; auto. intros. apply follows_ret; auto.
Qed.
Lemma view_colon : views same parse_key_colon p_colon.
Proof.
  apply views_ws. intros s c r I U _. destruct (c =? 58); [|apply follows_fail].
  destruct (eat_state s [c] r I U) as [I' U']. eexists. exists tt. split; [reflexivity|]. auto.
Qed.

(** *** Strings *)
Lemma view_str_bytes : views js_data parse_str_bytes_content unesc.
Proof.
  intros s I. pose proof I as [H F]. pose proof (parse_str_bytes_spec s H) as D. unfold decoded in D.
  assert (Lu : length (unparsed s) = (length (j_input s) - j_index s)%nat) by (unfold unparsed; apply skipn_length).
  destruct (unesc (unparsed s)) as [[x k]|e]; cbn [follows].
  - destruct D as (s' & g & -> & _ & Ei & Ex & _ & L). eexists. eexists. split; [reflexivity|]. split; [reflexivity|].
    unfold inside, unparsed. rewrite Ei, Ex. split; [|reflexivity]. split; [lia|]. eapply fits_mono; [exact F|]. lia.
  - destruct D as (s' & m & -> & _). exists s'. reflexivity.
Qed.
Lemma view_str : views js_data parse_str_content p_str.
Proof.
  apply (views_bind js_data js_data _ _ unesc (fun x k => if from_utf8_ok x then Ok (x, k) else Err JInvalidUnicodeCodePoint)).
  - apply view_str_bytes.
  - intros a s I. destruct (from_utf8_ok (js_data a)); [apply follows_ret; auto|apply follows_fail].
Qed.
Definition p_skip (l : bytes) : pres unit := match skip false l with Ok k => Ok (tt, k) | Err e => Err e end.
Lemma view_skip : views same eat_str_content p_skip.
Proof.
  intros s I. pose proof I as [H F]. pose proof (eat_str_spec s H) as D. unfold p_skip. destruct (skip false (unparsed s)) as [k|e].
  - destruct D as (n & -> & Hn & U). eexists. exists tt. split; [reflexivity|]. split; [auto|]. split; [apply inside_set; auto|exact U].
  - rewrite D. exists s. reflexivity.
Qed.

(** *** Hex strings *)
Lemma hex_loop_spec n : forall D X R, length (D ++ X) = (2 * length D)%nat -> (n = length R / 2)%nat ->
  exists cells, length cells = length (D ++ X ++ R) /\
    hex_loop n (D ++ X ++ R) (length D) =
    (cells, match p_hex R with
            | Ok (x, k) => Ok (length D + length x)%nat
            | Err e => Err e
            end) /\
    match p_hex R with
    | Ok (x, k) => firstn (length D + length x) cells = D ++ x /\ skipn (2 * (length D + length x) + 1) cells = k /\
        (2 * (length D + length x) + 1 + length k = length cells)%nat
    | Err _ => True
    end.
Proof.
  induction n as [|n IH]; intros D X R L Hn.
  - cbn [hex_loop]. assert (LR : (length R < 2)%nat) by lia. rewrite app_length in L.
    exists (D ++ X ++ R). split; [auto|]. destruct R as [|a [|b R]]; [| |cbn [length] in LR; lia].
    + cbn [p_hex]. rewrite app_nil_r, app_length.
      replace (Nat.odd (length D + length X)) with false; [auto|]. symmetry. rewrite <- Nat.negb_even.
      replace (length D + length X)%nat with (2 * length D)%nat by lia. rewrite Nat.even_mul. reflexivity.
    + replace (Nat.odd (length (D ++ X ++ [a]))) with true.
      2:{ symmetry. rewrite !app_length. cbn [length]. replace (length D + (length X + 1))%nat with (S (2 * length D)) by lia.
          rewrite Nat.odd_succ, Nat.even_mul. reflexivity. }
      replace (nth (length (D ++ X ++ [a]) - 1) (D ++ X ++ [a]) 0) with a.
      2:{ rewrite app_assoc. rewrite app_nth2 by (rewrite !app_length; cbn [length]; lia).
          rewrite !app_length. cbn [length]. replace (length D + length X + 1 - 1 - (length D + length X))%nat with 0%nat by lia. reflexivity. }
      cbn [p_hex]. destruct (a =? 34); [|auto]. cbn [length]. rewrite Nat.add_0_r. split; [auto|]. rewrite app_nil_r.
      split; [apply firstn_len|]. split; [apply skipn_all2; rewrite !app_length; cbn [length]; lia|rewrite !app_length; cbn [length]; lia].
  - destruct R as [|a [|b R]]; [discriminate|discriminate|]. cbn [hex_loop].
    assert (Na : nth (2 * length D) (D ++ X ++ a :: b :: R) 0 = a).
    { rewrite app_assoc, <- L. apply nth_middle. }
    assert (Nb : nth (2 * length D + 1) (D ++ X ++ a :: b :: R) 0 = b).
    { replace (D ++ X ++ a :: b :: R) with ((D ++ X ++ [a]) ++ b :: R) by (rewrite <- !app_assoc; auto).
      replace (2 * length D + 1)%nat with (length (D ++ X ++ [a])) by (rewrite app_length in L; rewrite !app_length; cbn [length]; lia). apply nth_middle. }
    rewrite Na, Nb. cbn [p_hex].
    assert (Hn' : n = (length R / 2)%nat) by (cbn [length] in Hn; lia).
    destruct (parse_hex_nib a) as [x|].
    2:{ destruct (a =? 34); exists (D ++ X ++ a :: b :: R); (split; [auto|]); (split; [cbn [length]; rewrite ?Nat.add_0_r; auto|]); auto.
        cbn [length]. rewrite Nat.add_0_r, app_nil_r. split; [apply firstn_len|].
        rewrite app_length in L. split; [|rewrite !app_length; cbn [length]; lia].
        replace (D ++ X ++ a :: b :: R) with ((D ++ X ++ [a]) ++ b :: R) by (rewrite <- !app_assoc; auto).
        replace (2 * length D + 1)%nat with (length (D ++ X ++ [a])) by (rewrite !app_length; cbn [length]; lia). apply skipn_len. }
    destruct (parse_hex_nib b) as [y|]; [|exists (D ++ X ++ a :: b :: R); auto].
    set (v := x * 16 + y).
    assert (Esp : splice (D ++ X ++ a :: b :: R) (length D) [v] = (D ++ [v]) ++ skipn 1 (X ++ [a; b]) ++ R).
    { replace (D ++ X ++ a :: b :: R) with (D ++ (X ++ [a; b]) ++ R) by (rewrite <- !app_assoc; auto).
      rewrite splice_over by (rewrite app_length; cbn [length]; lia). rewrite <- !app_assoc. reflexivity. }
    rewrite Esp. rewrite app_length in L.
    destruct (IH (D ++ [v]) (skipn 1 (X ++ [a; b])) R) as (cells & Lc & Eh & Hr); auto.
    { rewrite !app_length, skipn_length, !app_length. cbn [length]. lia. }
    rewrite app_length in Eh, Hr. cbn [length] in Eh, Hr. replace (length D + 1)%nat with (S (length D)) in Eh, Hr by lia.
    exists cells. split; [rewrite Lc; rewrite !app_length, skipn_length, !app_length; cbn [length]; lia|].
    rewrite Eh. destruct (p_hex R) as [[z k]|e]; cbn [prep].
    + destruct Hr as (H1 & H2 & H3). cbn [length app]. split; [f_equal; f_equal; lia|].
      replace (length D + S (length z))%nat with (S (length D) + length z)%nat by lia. rewrite H1, <- app_assoc. auto.
    + auto.
Qed.
Lemma view_hex : views js_data parse_hex_bytes_content p_hex.
Proof.
  intros s I. pose proof I as [H F]. unfold parse_hex_bytes_content, dbind at 1, input_mut. rewrite (proj2 (Nat.leb_le _ _) H). fold (unparsed s).
  destruct (hex_loop_spec (length (unparsed s) / 2) [] [] (unparsed s) eq_refl eq_refl) as (cells & Lc & Eh & Hr).
  cbn [app length] in Eh, Lc, Hr. rewrite Eh. unfold dbind at 1, put_rest.
  assert (Lf : length (firstn (j_index s) (j_input s)) = j_index s) by (rewrite firstn_length; lia).
  assert (Lu : length (unparsed s) = (length (j_input s) - j_index s)%nat) by (unfold unparsed; apply skipn_length).
  destruct (p_hex (unparsed s)) as [[x k]|e]; [|eexists; reflexivity].
  cbn [Nat.add] in *. destruct Hr as (H1 & H2 & H3). unfold j_split_input. cbn [j_index j_input jset j_front j_log].
  rewrite app_length, Lf. rewrite (proj2 (Nat.leb_le _ _)) by lia. eexists. eexists. split; [reflexivity|]. cbn [js_data].
  unfold inside, unparsed. cbn [j_index j_input skipn]. unfold slice.
  assert (E1 : skipn (j_index s + length x + (length x + 1)) (firstn (j_index s) (j_input s) ++ cells) = k).
  { replace (j_index s + length x + (length x + 1))%nat with (length (firstn (j_index s) (j_input s)) + (2 * length x + 1))%nat by lia.
    rewrite <- skipn_add, skipn_len. exact H2. }
  rewrite E1. split; [|split; [split; [lia|]|reflexivity]].
  - rewrite <- Lf at 1. rewrite skipn_len. exact H1.
  - eapply fits_mono; [exact F|]. lia.
Qed.

(** *** Base64 strings *)
Lemma drop_pad_position l : position (fun b => negb (b =? 61)) l =
  match drop_pad l with [] => None | _ => Some (length l - length (drop_pad l))%nat end /\
  exists p, l = p ++ drop_pad l.
Proof.
  induction l as [|c l (IH & p & E)]; [split; [reflexivity|exists []; auto]|]. cbn [position drop_pad]. destruct (c =? 61); cbn [negb].
  - rewrite IH. split; [|exists (c :: p); cbn; f_equal; auto].
    assert (L : (length (drop_pad l) <= length l)%nat) by (rewrite E at 2; rewrite app_length; lia).
    destruct (drop_pad l) eqn:Ed; [reflexivity|]. cbn [option_map]. f_equal. cbn [length] in *. lia.
  - rewrite Nat.sub_diag. split; [reflexivity|exists []; auto].
Qed.
Lemma view_base64 : dec = Base64Decoder -> views js_data (parse_base64_bytes_content ar) (p_base64 ar).
Proof.
  intros Hd s I. pose proof I as [H F]. unfold parse_base64_bytes_content, dbind at 1, input_mut. rewrite (proj2 (Nat.leb_le _ _) H). fold (unparsed s).
  assert (Lu : length (unparsed s) = (length (j_input s) - j_index s)%nat) by (unfold unparsed; apply skipn_length).
  specialize (F Hd). destruct (decode_any ar (unparsed s)) as (ds & rest & mem & E & _ & _ & Ed & Em & Lm & Lz); [unfold zlen; lia|].
  unfold p_base64. rewrite Ed. unfold zlen in *. rewrite !Nat2Z.id. set (d := length (b64_bytes ds)) in *. set (e := length ds) in *.
  assert (Lf : length (firstn (j_index s) (j_input s)) = j_index s) by (rewrite firstn_length; lia).
  assert (Le : (e <= length (unparsed s))%nat) by lia.
  assert (Esk : forall i, (d <= i)%nat -> skipn i mem = skipn i (unparsed s)).
  { intros i Hi. rewrite Em. replace i with (d + (i - d))%nat at 1 by lia. rewrite <- skipn_add.
    replace (skipn d (b64_bytes ds ++ skipn d (unparsed s))) with (skipn d (unparsed s)) by (unfold d; rewrite skipn_len; auto).
    rewrite skipn_add. f_equal. lia. }
  unfold dbind at 1, put_rest. set (s1 := jset _ _ s).
  assert (Ex : firstn d mem = b64_bytes ds) by (rewrite Em; unfold d; apply firstn_len).
  assert (En : nth_error mem e = nth_error (skipn e (unparsed s)) 0).
  { rewrite <- (Esk e) by lia. rewrite nth_error_skipn, Nat.add_0_r. reflexivity. }
  assert (Done1 : forall i k, (e <= i)%nat -> (d <= i)%nat -> skipn i (unparsed s) = 34 :: k ->
    follows js_data (split_base64 d i s1) (Ok (firstn d mem, k))).
  { intros i k Hei Hdi Ek. unfold split_base64. rewrite (proj2 (Nat.leb_le _ _)) by lia. unfold j_split_input, s1. cbn [j_index j_input jset j_front j_log].
    assert (Li : (i < length (unparsed s))%nat).
    { destruct (Nat.lt_ge_cases i (length (unparsed s))); auto. rewrite skipn_all2 in Ek by auto. discriminate. }
    rewrite app_length, Lf. rewrite (proj2 (Nat.leb_le _ _)) by lia.
    eexists. eexists. split; [reflexivity|]. cbn [js_data]. unfold inside, unparsed. cbn [j_index j_input skipn]. unfold slice.
    assert (E1 : skipn (j_index s + d + (i + 1 - d)) (firstn (j_index s) (j_input s) ++ mem) = k).
    { replace (j_index s + d + (i + 1 - d))%nat with (length (firstn (j_index s) (j_input s)) + (i + 1))%nat by lia.
      rewrite <- skipn_add, skipn_len, Esk by lia. replace (i + 1)%nat with (1 + i)%nat by lia. rewrite Nat.add_comm, <- skipn_add, Ek. reflexivity. }
    rewrite E1. split; [rewrite <- Lf at 1; rewrite skipn_len; auto|]. split; [|reflexivity]. split; [lia|].
    intros _. apply (f_equal (@length Z)) in Ek. rewrite skipn_length in Ek. cbn [length] in Ek. lia. }
  rewrite En. destruct (skipn e (unparsed s)) as [|c r] eqn:Er; cbn [nth_error]; [apply follows_fail|].
  destruct (c =? 34) eqn:E34; [apply Done1; [lia|lia|]; rewrite Er; f_equal; lia|].
  destruct (c =? 61); [|apply follows_fail].
  assert (Er1 : skipn (e + 1) (unparsed s) = r) by (rewrite <- skipn_add, Er; reflexivity).
  rewrite Esk, Er1 by lia. destruct (drop_pad_position r) as [Ep (p & Edp)]. rewrite Ep.
  destruct (drop_pad r) as [|b r'] eqn:Edr; [apply follows_fail|].
  assert (Lp : (length r - length (b :: r'))%nat = length p) by (rewrite Edp, app_length; lia). rewrite Lp.
  assert (Er2 : skipn (e + 1 + length p) (unparsed s) = b :: r') by (rewrite <- skipn_add, Er1, Edp, skipn_len; reflexivity).
  replace (nth_error mem (e + 1 + length p)) with (Some b).
  2:{ symmetry. rewrite <- (Nat.add_0_r (e + 1 + length p)), <- nth_error_skipn, Esk, Er2 by lia. reflexivity. }
  destruct (b =? 34) eqn:Eb; [|apply follows_fail]. apply Done1; [lia|lia|]. rewrite Er2. f_equal. lia.
Qed.

(** *** Arrays of bytes *)
Lemma p_unsigned_length k l v r : p_unsigned k l = Ok (v, r) -> (length r < length l)%nat.
Proof.
  unfold p_unsigned, p_ws. destruct (drop_ws_split l) as (w & E & _). 
  assert (L : (length (drop_ws l) <= length l)%nat) by (rewrite E at 2; rewrite app_length; lia).
  destruct (drop_ws l) as [|c t]; [discriminate|]. cbn [length] in L. destruct (c =? 45); [discriminate|].
  destruct (c =? 48); [intros [= _ <-]; lia|]. destruct (ascii_digit c); [|discriminate].
  unfold p_loop. destruct (number_loop _ _ _ _ t) as [[m q]|]; [|discriminate]. intros [= _ <-]. rewrite skipn_length. lia.
Qed.
Lemma ws_frame s s' r : eat_whitespace s = Done s' r -> j_input s' = j_input s.
Proof.
  unfold eat_whitespace. destruct (_ <=? _)%nat; [|discriminate]. destruct (position _ _); [|intros [= <- _]; auto].
  destruct (nth_error _ _); [|discriminate]. intros [= <- _]. reflexivity.
Qed.
Lemma number_frame neg k n s s' r : parse_number neg k n s = Done s' r -> j_input s' = j_input s.
Proof.
  unfold parse_number, dbind at 1, input_mut. destruct (_ <=? _)%nat; [|intros [= <- _]; auto].
  destruct (number_loop _ _ _ _ _) as [[m q]|e]; [|intros [= <- _]; auto]. unfold dbind, j_eat_some, dret. intros [= <- _]. reflexivity.
Qed.
Lemma unsigned_frame k s s' r : parse_unsigned k s = Done s' r -> j_input s' = j_input s.
Proof.
  unfold parse_unsigned, dbind at 1. destruct (eat_whitespace s) as [s1 [c|e]| |] eqn:E; try discriminate.
  - rewrite <- (ws_frame _ _ _ E). destruct (c =? 45); [intros [= <- _]; auto|].
    destruct (c =? 48); [unfold dbind, j_eat_some, dret; intros [= <- _]; auto|]. destruct (ascii_digit c); [|intros [= <- _]; auto].
    unfold dbind at 1, j_eat_some. intros H. apply number_frame in H. exact H.
  - intros [= <- _]. eapply ws_frame; eauto.
Qed.
Lemma unparsed_length s : length (unparsed s) = (length (j_input s) - j_index s)%nat.
Proof. apply skipn_length. Qed.
Lemma drop_ws_length l : (length (drop_ws l) <= length l)%nat.
Proof. destruct (drop_ws_split l) as (w & E & _). rewrite E at 2. rewrite app_length. lia. Qed.

Lemma skipn_splice1 {A} (l : list A) i j b : (i < length l)%nat -> (i < j)%nat -> skipn j (splice l i [b]) = skipn j l.
Proof.
  intros H L. unfold splice. cbn [length]. replace j with (length (firstn i l ++ [b]) + (j - (i + 1)))%nat at 1 by (rewrite app_length, firstn_length; cbn [length]; lia).
  rewrite <- skipn_add. replace (firstn i l ++ [b] ++ skipn (i + 1) l) with ((firstn i l ++ [b]) ++ skipn (i + 1) l) by (rewrite <- app_assoc; auto).
  rewrite skipn_len, skipn_add. f_equal. lia.
Qed.
Lemma slice_splice1 {A} (l : list A) st i b : (st <= i)%nat -> (i < length l)%nat ->
  slice (splice l i [b]) st (S i - st) = slice l st (i - st) ++ [b].
Proof.
  intros H L. unfold splice, slice. cbn [length].
  assert (Lf : length (firstn i l) = i) by (rewrite firstn_length; lia).
  rewrite skipn_app, Lf. replace (st - i)%nat with 0%nat by lia. cbn [skipn].
  rewrite firstn_app. rewrite skipn_length, Lf. replace (S i - st - (i - st))%nat with 1%nat by lia. cbn [firstn app].
  f_equal. rewrite firstn_all2 by (rewrite skipn_length, Lf; lia). rewrite skipn_firstn_comm. reflexivity.
Qed.
Lemma length_splice1 {A} (l : list A) i b : (i < length l)%nat -> length (splice l i [b]) = length l.
Proof. intros H. unfold splice. rewrite !app_length, firstn_length, skipn_length. cbn [length]. lia. Qed.

Lemma array_loop_spec st n : forall m s index D, inside s -> (st <= index <= j_index s)%nat -> slice (j_input s) st (index - st) = D ->
  (length (unparsed s) < n)%nat -> (length (unparsed s) < m)%nat ->
  match p_array_loop m (unparsed s) with
  | Ok (x, k) => exists s', array_loop n index s = Done s' (Ok (index + length x)%nat) /\ inside s' /\ unparsed s' = 93 :: k /\
      length (j_input s') = length (j_input s) /\ (index + length x <= j_index s')%nat /\
      slice (j_input s') st (index + length x - st) = D ++ x
  | Err e => exists s', array_loop n index s = Done s' (Err e)
  end.
Proof.
  induction n as [|n IH]; intros m s index D I Hi HD Hn Hm; [lia|]. destruct m as [|m]; [lia|].
  remember (array_loop (S n) index s) as o eqn:Eo. cbn [array_loop] in Eo. cbn [p_array_loop]. unfold dbind at 1 in Eo. pose proof (view_unsigned U8 s I) as V. pose proof I as [HI F].
  pose proof (unparsed_length s) as Lu.
  destruct (p_unsigned U8 (unparsed s)) as [[b k]|e] eqn:Eb; cbn [pbind].
  2:{ destruct V as (s1 & V). rewrite V in Eo. exists s1. exact Eo. }
  destruct V as (s1 & b' & V & Eb' & I1 & U1). unfold same in Eb'. subst b'. rewrite V in Eo. pose proof (unsigned_frame _ _ _ _ V) as Ein.
  apply p_unsigned_length in Eb. pose proof (unparsed_length s1) as Lu1. rewrite U1, Ein in Lu1. pose proof I1 as [HI1 F1]. rewrite Ein in HI1.
  unfold dbind at 1, write_byte in Eo. rewrite Ein in Eo. rewrite (proj2 (Nat.ltb_lt _ _)) in Eo by lia.
  set (s2 := jset (splice (j_input s) index [b]) (j_index s1) s1) in *.
  assert (U2 : unparsed s2 = k).
  { unfold unparsed, s2. cbn [jset j_input j_index]. rewrite skipn_splice1 by lia. rewrite <- U1. unfold unparsed. rewrite Ein. reflexivity. }
  assert (I2 : inside s2).
  { split; unfold s2; cbn [jset j_input j_index]; rewrite length_splice1 by lia; auto. }
  unfold dbind at 1 in Eo. pose proof (ws_state s2 I2) as W. rewrite U2 in W. unfold p_ws.
  pose proof (drop_ws_length k) as Ld. destruct (drop_ws k) as [|c r]; [rewrite W in Eo; exists s2; exact Eo|].
  destruct W as (s3 & W3 & I3 & U3 & _ & E3 & Hi3). rewrite W3 in Eo. pose proof I3 as [HI3 F3].
  assert (Ein3 : j_input s3 = splice (j_input s) index [b]) by (rewrite E3; reflexivity).
  assert (HD3 : slice (j_input s3) st (S index - st) = D ++ [b]) by (rewrite Ein3, slice_splice1 by lia; congruence).
  destruct (c =? 44).
  - destruct (eat_state s3 [c] r I3 U3) as [I4 U4]. cbn [length] in *. unfold dbind at 1, j_eat_some in Eo. set (s4 := jset (j_input s3) (j_index s3 + 1) s3) in *.
    specialize (IH m s4 (S index) (D ++ [b]) I4). rewrite U4 in IH. change (j_index s2) with (j_index s1) in Hi3.
    specialize (IH ltac:(unfold s4; cbn [jset j_index]; lia) HD3 ltac:(lia) ltac:(lia)).
    destruct (p_array_loop m r) as [[x k']|e]; cbn [prep].
    + destruct IH as (s' & E' & I' & U' & L' & H' & S'). exists s'. cbn [length app]. replace (index + S (length x))%nat with (S index + length x)%nat by lia.
      rewrite <- E'. split; [auto|]. split; [auto|]. split; [auto|]. split; [|split; [auto|rewrite S', <- app_assoc; auto]].
      rewrite L'. unfold s4. cbn [jset j_input]. rewrite Ein3, length_splice1 by lia. auto.
    + destruct IH as (s' & E'). exists s'. congruence.
  - destruct (c =? 93) eqn:E93; [|exists s3; exact Eo]. exists s3. cbn [length app]. replace (index + 1)%nat with (S index) by lia.
    change (j_index s2) with (j_index s1) in Hi3.
    split; [exact Eo|]. split; [auto|]. split; [rewrite U3; f_equal; lia|]. split; [rewrite Ein3, length_splice1 by lia; auto|].
    split; [lia|auto].
Qed.
Lemma view_array : views js_data parse_array_bytes_content p_array.
Proof.
  apply views_ws. intros s c r I U _. pose proof I as [HI F]. destruct (c =? 93).
  - unfold j_split_input. pose proof (unparsed_length s) as Lu. rewrite U in Lu. cbn [length] in Lu.
    rewrite (proj2 (Nat.leb_le _ _)) by lia. destruct (eat_state s [c] r I U) as [I' U']. cbn [length] in *.
    eexists. eexists. split; [reflexivity|]. cbn [js_data]. unfold inside, unparsed in *. cbn [j_index j_input jset skipn] in *.
    rewrite Nat.add_0_r. split; [reflexivity|]. split; [|exact U']. split; [lia|]. eapply fits_mono; [exact F|]. rewrite skipn_length. lia.
  - unfold dbind. pose proof (array_loop_spec (j_index s) (S (length (j_input s))) (S (length (c :: r))) s (j_index s) [] I ltac:(lia)) as L.
    rewrite U, Nat.sub_diag in L. specialize (L eq_refl).
    pose proof (unparsed_length s) as Lu. rewrite U in Lu. specialize (L ltac:(lia) ltac:(lia)).
    destruct (p_array_loop _ _) as [[x k]|e].
    + destruct L as (s' & -> & [HI' F'] & U' & L' & H' & S').
      pose proof (unparsed_length s') as Lu'. rewrite U' in Lu'. cbn [length] in Lu'.
      rewrite (proj2 (Nat.ltb_ge _ _)) by lia. unfold j_split_input. cbn [jset j_index j_input j_front j_log].
      replace (j_index s + length x - j_index s)%nat with (length x) in * by lia.
      rewrite (proj2 (Nat.leb_le _ _)) by lia. eexists. eexists. split; [reflexivity|]. cbn [js_data app] in *. split; [exact S'|].
      unfold inside, unparsed in *. cbn [j_index j_input skipn].
      assert (Ek : skipn (j_index s + length x + (j_index s' + 1 - (j_index s + length x))) (j_input s') = k).
      { replace (j_index s + length x + (j_index s' + 1 - (j_index s + length x)))%nat with (j_index s' + 1)%nat by lia.
        rewrite <- skipn_add, U'. reflexivity. }
      rewrite Ek. split; [|reflexivity]. split; [lia|]. eapply fits_mono; [exact F'|]. lia.
    + destruct L as (s' & ->). exists s'. reflexivity.
Qed.

Lemma view_bytes_str : views js_data (decode_string_to_bytes ar dec) (p_bytes_str ar dec).
Proof.
  destruct dec eqn:Ed; cbn [decode_string_to_bytes p_bytes_str]; [apply view_str_bytes|apply view_hex|].
  apply view_base64. auto.
Qed.
End View.

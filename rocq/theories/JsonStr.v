(** In-place decoding of JSON strings: what [parse_str_bytes_content],
    [parse_str_content] and [eat_str_content] compute. *)
From Verif Require Import Prelude PreludeFacts Utf8 Utf8Spec Utf8Facts SerdeDe SerdeSer MpSpec Base64Spec JsonSpec JsonFacts JsonDe JsonDeSafe.
Ltac Zify.zify_post_hook ::= Z.div_mod_to_equations.

(** Decoding on lists: the decoded bytes and what follows the closing quote. *)
Definition prep (p : bytes) (r : result (bytes * bytes) js_de_error) : result (bytes * bytes) js_de_error :=
  match r with Ok (x, k) => Ok (p ++ x, k) | Err e => Err e end.
Fixpoint unesc (l : bytes) : result (bytes * bytes) js_de_error :=
  match l with
  | [] => Err JUnexpectedEof
  | c :: l1 =>
    if c =? 34 then Ok ([], l1)
    else if c =? 92 then
      match l1 with
      | [] => Err JUnexpectedEof
      | e :: l2 =>
        if (e =? 34) || (e =? 92) || (e =? 47) then prep [e] (unesc l2)
        else if (98 <=? e) && (e <=? 116) then
          let u := nth (Z.to_nat (e - 98)) UNESCAPE 0 in
          if u =? 0 then Err JInvalidEscapeSequence else prep [u] (unesc l2)
        else if e =? 117 then
          match l2 with
          | h1 :: h2 :: h3 :: h4 :: l3 =>
            match parse_uuuu [h1; h2; h3; h4] with
            | None => Err JInvalidEscapeSequence
            | Some code =>
              match char_from_u32 code with
              | None => Err JInvalidUnicodeCodePoint
              | Some ch => prep (encode_utf8 ch) (unesc l3)
              end
            end
          | _ => Err JUnexpectedEof
          end
        else Err JInvalidEscapeSequence
      end
    else if c <=? 31 then Err JStringControlChar
    else prep [c] (unesc l1)
  end.

Definition special (b : Z) : bool := (b =? 92) || (b =? 34) || (b <=? 0x1F).

Lemma prep_app a b r : prep a (prep b r) = prep (a ++ b) r.
Proof. destruct r as [[x k]|e]; cbn; auto. rewrite app_assoc. auto. Qed.
Lemma prep_nil r : prep [] r = r.
Proof. destruct r as [[x k]|e]; auto. Qed.

Lemma unesc_plain l : Forall (fun b => special b = false) l -> forall r, unesc (l ++ r) = prep l (unesc r).
Proof.
  induction 1 as [|b l Hb H IH]; intros r; [cbn; rewrite prep_nil; auto|].
  cbn [app unesc]. unfold special in Hb. apply orb_false_iff in Hb. destruct Hb as [Hb H3].
  apply orb_false_iff in Hb. destruct Hb as [H1 H2]. rewrite H1, H2, H3, IH, prep_app. reflexivity.
Qed.
Lemma unesc_all_plain l : Forall (fun b => special b = false) l -> unesc l = Err JUnexpectedEof.
Proof. intros H. rewrite <- (app_nil_r l), unesc_plain by auto. reflexivity. Qed.

Lemma position_split p l n : position p l = Some n ->
  exists a c b, l = a ++ c :: b /\ length a = n /\ p c = true /\ Forall (fun b => p b = false) a.
Proof.
  revert n. induction l as [|x l IH]; intros n; cbn [position]; [discriminate|].
  destruct (p x) eqn:E.
  - intros [= <-]. exists [], x, l. auto.
  - destruct (position p l) as [m|]; [|discriminate]. intros [= <-].
    destruct (IH m eq_refl) as (a & c & b & -> & La & Hc & Ha). exists (x :: a), c, b. cbn. auto.
Qed.

(** Moving [Q] to the left over the gap [G]. *)
Lemma splice_shift {A} (X G Q T : list A) : splice (X ++ G ++ Q ++ T) (length X) Q = X ++ Q ++ skipn (length Q) (G ++ Q) ++ T.
Proof.
  unfold splice. rewrite firstn_app, firstn_all, Nat.sub_diag. cbn [firstn]. rewrite app_nil_r. f_equal. f_equal.
  rewrite <- skipn_add. rewrite (skipn_app (length X)), skipn_all, Nat.sub_diag. cbn [skipn app].
  rewrite app_assoc, skipn_app, app_length.
  replace (length Q - (length G + length Q))%nat with 0%nat by lia. reflexivity.
Qed.
Lemma splice_over {A} (X G T bs : list A) : (length bs <= length G)%nat ->
  splice (X ++ G ++ T) (length X) bs = X ++ bs ++ skipn (length bs) G ++ T.
Proof.
  intros H. unfold splice. rewrite firstn_app, firstn_all, Nat.sub_diag. cbn [firstn]. rewrite app_nil_r. f_equal. f_equal.
  rewrite <- skipn_add. rewrite (skipn_app (length X)), skipn_all, Nat.sub_diag. cbn [skipn app].
  rewrite skipn_app. replace (length bs - length G)%nat with 0%nat by lia. reflexivity.
Qed.
Lemma slice_mid {A} (X Y T : list A) : slice (X ++ Y ++ T) (length X) (length Y) = Y.
Proof.
  unfold slice. rewrite skipn_app, skipn_all, Nat.sub_diag. cbn [skipn app].
  rewrite firstn_app, firstn_all, Nat.sub_diag. cbn [firstn]. apply app_nil_r.
Qed.
Lemma nth_mid {A} (X : list A) c T : nth_error (X ++ c :: T) (length X) = Some c.
Proof. rewrite nth_error_app2, Nat.sub_diag by lia. reflexivity. Qed.
Lemma skipn_len {A} (X T : list A) : skipn (length X) (X ++ T) = T.
Proof. rewrite skipn_app, skipn_all, Nat.sub_diag. reflexivity. Qed.
Lemma firstn_len {A} (X T : list A) : firstn (length X) (X ++ T) = X.
Proof. rewrite firstn_app, firstn_all, Nat.sub_diag. cbn [firstn]. apply app_nil_r. Qed.

(** The outcome of decoding: where the decoded text lies, and what was touched. *)
Definition decoded (s : jde) (A : bytes) (lit : nat) (r : result (bytes * bytes) js_de_error) (o : outcome jde jsl js_de_error) : Prop :=
  match r with
  | Ok (x, k) => exists s' g,
      o = Done s' (Ok {| js_off := (length (j_front s) + length A)%nat; js_data := x |}) /\
      j_front s' = j_front s ++ A ++ x ++ g ++ [34] /\ j_input s' = k /\ j_index s' = 0%nat /\ j_log s' = j_log s /\
      (length x + length g + 1 + length k = lit)%nat
  | Err e => exists s' m, o = Done s' (Err e) /\ j_front s' = j_front s /\ j_input s' = A ++ m /\
      j_index s' = j_index s /\ j_log s' = j_log s /\ length m = lit
  end.

Lemma parse_str_loop_spec fuel : forall s A D G P R,
  j_input s = A ++ D ++ G ++ P ++ R -> j_index s = length A -> (length R < fuel)%nat ->
  decoded s A (length (D ++ G ++ P ++ R)) (prep (D ++ P) (unesc R))
    (parse_str_loop fuel (length (A ++ D ++ G)) (length (A ++ D)) (length (A ++ D ++ G ++ P)) s).
Proof.
  induction fuel as [|fuel IH]; intros s A D G P R Es Ei Hf; [lia|].
  cbn [parse_str_loop].
  assert (Lt : length (j_input s) = (length (A ++ D ++ G ++ P) + length R)%nat) by (rewrite Es, !app_length; lia).
  rewrite (proj2 (Nat.leb_le _ _)) by lia.
  assert (Esk : skipn (length (A ++ D ++ G ++ P)) (j_input s) = R).
  { rewrite Es. replace (A ++ D ++ G ++ P ++ R) with ((A ++ D ++ G ++ P) ++ R) by (rewrite <- !app_assoc; auto). apply skipn_len. }
  rewrite Esk. change (fun b : Z => (b =? 92) || (b =? 34) || (b <=? 31)) with special.
  destruct (position special R) as [n|] eqn:Ep.
  2:{ apply position_none in Ep. rewrite (unesc_all_plain R Ep). cbn [prep decoded].
      exists s, (D ++ G ++ P ++ R). repeat (split; auto). }
  destruct (position_split _ _ _ Ep) as (a & c & b & -> & <- & Hc & Ha). clear Ep.
  rewrite (unesc_plain a Ha), prep_app, <- app_assoc.
  set (Q := P ++ a).
  assert (Ein : j_input s = (A ++ D) ++ G ++ Q ++ c :: b) by (rewrite Es; unfold Q; rewrite <- !app_assoc; auto).
  assert (Eend : (length (A ++ D ++ G ++ P) + length a)%nat = (length (A ++ D) + length G + length Q)%nat).
  { unfold Q. rewrite !app_length. lia. }
  rewrite Eend.
  assert (Eix : length (A ++ D ++ G) = (length (A ++ D) + length G)%nat) by (rewrite !app_length; lia).
  rewrite Eix. rewrite (proj2 (Nat.ltb_ge _ _)) by lia.
  replace (length (A ++ D) + length G - length (A ++ D))%nat with (length G) by lia.
  replace (length (A ++ D) + length G + length Q - (length (A ++ D) + length G))%nat with (length Q) by lia.
  rewrite (proj2 (Nat.ltb_ge (length (A ++ D) + length G + length Q) (length (A ++ D) + length G))) by lia.
  assert (Lin : length (j_input s) = (length (A ++ D) + length G + length Q + S (length b))%nat).
  { rewrite Ein, !app_length. cbn [length]. lia. }
  rewrite (proj2 (Nat.ltb_ge (length (j_input s)) (length (A ++ D) + length Q))) by lia.
  cbn [orb]. rewrite andb_false_r.
  set (G' := skipn (length Q) (G ++ Q)).
  assert (LG : length G' = length G) by (unfold G'; rewrite skipn_length, app_length; lia).
  set (D' := D ++ Q).
  set (input := (A ++ D') ++ G' ++ c :: b).
  assert (Einp : (if (length G =? 0)%nat then j_input s
     else splice (j_input s) (length (A ++ D)) (slice (j_input s) (length (A ++ D) + length G) (length Q))) = input).
  { unfold input, D', G'. destruct (length G =? 0)%nat eqn:E0.
    - apply Nat.eqb_eq in E0. destruct G; [|discriminate]. rewrite Ein. cbn [app]. rewrite skipn_all. cbn [app]. rewrite <- !app_assoc. auto.
    - rewrite Ein. replace (slice _ _ _) with Q.
      + rewrite splice_shift, <- !app_assoc. auto.
      + symmetry. replace ((A ++ D) ++ G ++ Q ++ c :: b) with (((A ++ D) ++ G) ++ Q ++ c :: b) by (rewrite <- !app_assoc; auto).
        rewrite <- app_length. apply slice_mid. }
  rewrite Einp. clear Einp.
  assert (Ld : length (A ++ D') = (length (A ++ D) + length Q)%nat) by (unfold D'; rewrite !app_length; lia).
  assert (Le : (length (A ++ D) + length G + length Q)%nat = length ((A ++ D') ++ G')) by (rewrite (app_length (A ++ D') G'), Ld, LG; lia).
  rewrite Le.
  assert (En : nth_error input (length ((A ++ D') ++ G')) = Some c).
  { unfold input. rewrite app_assoc. apply nth_mid. }
  rewrite En. cbn [unesc j_index j_input jset].
  assert (Ltot : length (D ++ G ++ P ++ a ++ c :: b) = length (D' ++ G' ++ c :: b)).
  { unfold D', Q. rewrite !app_length, LG. lia. }
  rewrite Ltot.
  set (s1 := jset input (j_index s) s).
  assert (DD : forall lit r o, decoded s1 A lit r o -> decoded s A lit r o).
  { intros lit r o H. destruct r as [[x k]|e]; exact H. }
  apply DD.
  replace (D ++ Q) with D' by reflexivity.
  destruct (c =? 34) eqn:Ec.
  { apply Z.eqb_eq in Ec. subst c.
    rewrite (proj2 (Nat.ltb_ge _ _)) by (rewrite Ei, app_length, LG, app_length; lia).
    replace (length ((A ++ D') ++ G') - length G - j_index s)%nat with (length D') by (rewrite Ei, !app_length, LG; lia).
    unfold j_split_input. cbn [j_index j_input s1 jset j_front j_log]. rewrite Ei.
    assert (Ens : (length A + length D' + (length G + 1))%nat = length (A ++ D' ++ G' ++ [34])).
    { rewrite !app_length, LG. cbn [length]. lia. }
    rewrite Ens.
    assert (Ein2 : input = (A ++ D' ++ G' ++ [34]) ++ b) by (unfold input; rewrite <- !app_assoc; auto).
    rewrite (proj2 (Nat.leb_le _ _)) by (rewrite Ein2, (app_length (A ++ _)); lia).
    cbn [prep decoded]. rewrite app_nil_r.
    eexists. exists G'. split; [f_equal; f_equal|].
    - f_equal. unfold input. rewrite <- app_assoc. apply slice_mid.
    - cbn [j_front j_input j_index j_log]. rewrite Ein2, firstn_len, skipn_len. repeat (split; auto).
      rewrite !app_length. cbn [length]. lia. }
  unfold special in Hc. rewrite Ec in Hc.
  destruct (c =? 92) eqn:Ec2.
  2:{ cbn [orb] in Hc. rewrite Hc. cbn [prep decoded]. exists s1, (D' ++ G' ++ c :: b).
      repeat (split; auto). cbn. unfold input. rewrite <- app_assoc. auto. }
  apply Z.eqb_eq in Ec2. subst c.
  replace (length (A ++ D) + length Q)%nat with (length (A ++ D')) by auto.
  assert (Ei1 : (length ((A ++ D') ++ G') + 1)%nat = length ((A ++ D') ++ G' ++ [92])) by (rewrite !app_length; cbn [length]; lia).
  rewrite Ei1.
  assert (Ein3 : input = ((A ++ D') ++ G' ++ [92]) ++ b) by (unfold input; rewrite <- !app_assoc; auto).
  assert (Fb : (length b < fuel)%nat) by (rewrite app_length in Hf; cbn [length] in Hf; lia).
  destruct b as [|e l2].
  { rewrite (proj2 (nth_error_None _ _)) by (rewrite Ein3, app_nil_r; lia).
    cbn [prep decoded]. exists s1, (D' ++ G' ++ [92]). repeat (split; auto). cbn. unfold input. rewrite <- app_assoc. auto. }
  cbn [length] in Fb.
  rewrite Ein3 at 1. rewrite nth_mid.
  destruct ((e =? 34) || (e =? 92) || (e =? 47)).
  { (* the escaped character is kept *)
    pose proof (IH s1 A D' (G' ++ [92]) [e] l2) as H.
    rewrite prep_app.
    replace (length (D' ++ G' ++ 92 :: e :: l2)) with (length (D' ++ (G' ++ [92]) ++ [e] ++ l2)) by (f_equal; rewrite <- !app_assoc; auto).
    replace (length ((A ++ D') ++ G' ++ [92])) with (length (A ++ D' ++ G' ++ [92])) by (f_equal; rewrite <- !app_assoc; auto).
    replace (length (A ++ D' ++ G' ++ [92%Z]) + 1)%nat with (length (A ++ D' ++ (G' ++ [92%Z]) ++ [e])) by (rewrite !app_length; cbn [length]; lia).
    apply H; auto; [|lia]. cbn. unfold input. rewrite <- !app_assoc. auto. }
  assert (Long : forall bs X : bytes, (length bs <= length (G' ++ 92%Z :: e :: X))%nat -> forall T, l2 = X ++ T -> (length T < fuel)%nat ->
    decoded s1 A (length (D' ++ G' ++ 92 :: e :: l2)) (prep D' (prep bs (unesc T)))
      (parse_str_loop fuel (length (A ++ (D' ++ G' ++ 92 :: e :: X))) (length (A ++ D') + length bs) (length (A ++ (D' ++ G' ++ 92 :: e :: X)))
         (jset (splice input (length (A ++ D')) bs) (j_index s1) s1))).
  { intros bs X Hl T -> HT.
    assert (Esp : splice input (length (A ++ D')) bs = A ++ (D' ++ bs) ++ skipn (length bs) (G' ++ 92 :: e :: X) ++ [] ++ T).
    { unfold input. replace (G' ++ 92 :: e :: X ++ T) with ((G' ++ 92 :: e :: X) ++ T) by (rewrite <- !app_assoc; auto).
      rewrite splice_over by auto. rewrite <- !app_assoc. auto. }
    rewrite Esp.
    pose proof (IH (jset (A ++ (D' ++ bs) ++ skipn (length bs) (G' ++ 92 :: e :: X) ++ [] ++ T) (j_index s1) s1) A (D' ++ bs)
      (skipn (length bs) (G' ++ 92 :: e :: X)) [] T eq_refl Ei HT) as H.
    rewrite prep_app. rewrite app_nil_r in H.
    replace (length (A ++ (D' ++ bs) ++ skipn (length bs) (G' ++ 92 :: e :: X))) with (length (A ++ D' ++ G' ++ 92 :: e :: X)) in H
      by (rewrite !app_length, skipn_length, !app_length; rewrite app_length in Hl; lia).
    rewrite app_nil_r in H.
    replace (length (A ++ (D' ++ bs) ++ skipn (length bs) (G' ++ 92 :: e :: X))) with (length (A ++ D' ++ G' ++ 92 :: e :: X)) in H
      by (rewrite !app_length, skipn_length, !app_length; rewrite app_length in Hl; lia).
    replace (length ((D' ++ bs) ++ skipn (length bs) (G' ++ 92 :: e :: X) ++ [] ++ T)) with (length (D' ++ G' ++ 92 :: e :: X ++ T)) in H
      by (cbn [app]; rewrite !app_length, skipn_length, !app_length; cbn [length]; rewrite !app_length in *; cbn [length] in *; lia).
    replace (length (A ++ D' ++ bs)) with (length (A ++ D') + length bs)%nat in H by (rewrite !app_length; lia).
    destruct (prep _ _) as [[x k]|er]; exact H. }
  destruct ((98 <=? e) && (e <=? 116)).
  { destruct (_ =? 0).
    { cbn [prep decoded]. exists s1, (D' ++ G' ++ 92 :: e :: l2). repeat (split; auto). cbn. unfold input. rewrite <- app_assoc. auto. }
    rewrite (proj2 (Nat.ltb_lt _ _)) by (unfold input; rewrite !app_length; cbn [length]; lia).
    set (u := nth _ UNESCAPE 0).
    pose proof (Long [u] [] ltac:(rewrite app_length; cbn [length]; lia) l2 eq_refl ltac:(lia)) as H.
    replace (length ((A ++ D') ++ G' ++ [92%Z]) + 1)%nat with (length (A ++ D' ++ G' ++ [92%Z; e])) by (rewrite !app_length; cbn [length]; lia).
    exact H. }
  destruct (e =? 117); [|cbn [prep decoded]; exists s1, (D' ++ G' ++ 92 :: e :: l2); repeat (split; auto); cbn; unfold input; rewrite <- app_assoc; auto].
  assert (L5 : (length ((A ++ D') ++ G' ++ [92%Z]) + 5 <=? length input)%nat = (4 <=? length l2)%nat).
  { rewrite Ein3, !app_length. cbn [length]. apply Bool.eq_iff_eq_true. rewrite !Nat.leb_le. lia. }
  rewrite L5.
  assert (Eof : decoded s1 A (length (D' ++ G' ++ 92 :: e :: l2)) (Err JUnexpectedEof) (Done s1 (Err JUnexpectedEof))).
  { cbn [decoded]. exists s1, (D' ++ G' ++ 92 :: e :: l2). repeat (split; auto). cbn. unfold input. rewrite <- app_assoc. auto. }
  destruct l2 as [|h1 [|h2 [|h3 [|h4 l3]]]]; try exact Eof. clear Eof.
  cbn [Nat.leb length].
  replace (slice input (length ((A ++ D') ++ G' ++ [92%Z]) + 1) 4) with [h1; h2; h3; h4].
  2:{ rewrite Ein3. replace (((A ++ D') ++ G' ++ [92]) ++ e :: h1 :: h2 :: h3 :: h4 :: l3)
        with (((A ++ D') ++ G' ++ [92; e]) ++ [h1; h2; h3; h4] ++ l3) by (rewrite <- !app_assoc; auto).
      replace (length ((A ++ D') ++ G' ++ [92%Z]) + 1)%nat with (length ((A ++ D') ++ G' ++ [92%Z; e])) by (rewrite !app_length; cbn [length]; lia).
      symmetry. apply (slice_mid _ [h1; h2; h3; h4]). }
  destruct (parse_uuuu _) as [code|];
    [|cbn [prep decoded]; exists s1, (D' ++ G' ++ 92 :: e :: h1 :: h2 :: h3 :: h4 :: l3); repeat (split; auto); cbn; unfold input; rewrite <- app_assoc; auto].
  destruct (char_from_u32 code) as [ch|];
    [|cbn [prep decoded]; exists s1, (D' ++ G' ++ 92 :: e :: h1 :: h2 :: h3 :: h4 :: l3); repeat (split; auto); cbn; unfold input; rewrite <- app_assoc; auto].
  assert (Lc : (length (encode_utf8 ch) <= 6)%nat).
  { unfold encode_utf8. repeat match goal with |- context [if ?b then _ else _] => destruct b end; cbn; lia. }
  rewrite (proj2 (Nat.leb_le _ _)) by (unfold input; rewrite !app_length; cbn [length]; lia).
  pose proof (Long (encode_utf8 ch) [h1; h2; h3; h4] ltac:(rewrite app_length; cbn [length]; lia) l3 eq_refl ltac:(cbn [length] in Fb; lia)) as H.
  replace (length ((A ++ D') ++ G' ++ [92%Z]) + 5)%nat with (length (A ++ D' ++ G' ++ [92%Z; e; h1; h2; h3; h4])) by (rewrite !app_length; cbn [length]; lia).
  exact H.
Qed.

Theorem parse_str_bytes_spec s : (j_index s <= length (j_input s))%nat ->
  decoded s (firstn (j_index s) (j_input s)) (length (unparsed s)) (unesc (unparsed s)) (parse_str_bytes_content s).
Proof.
  intros Hi. unfold parse_str_bytes_content.
  assert (La : length (firstn (j_index s) (j_input s)) = j_index s) by (rewrite firstn_length; lia).
  pose proof (parse_str_loop_spec (S (length (j_input s))) s (firstn (j_index s) (j_input s)) [] [] [] (unparsed s)) as H.
  cbn [app] in H. rewrite !app_nil_r, prep_nil, La in H. apply H; auto.
  - unfold unparsed. symmetry. apply firstn_skipn.
  - unfold unparsed. rewrite skipn_length. lia.
Qed.

(** ** Decoding against the grammar *)
Lemma hex_nib_spec c v : 0 <= c < 256 -> (parse_hex_nib c = Some v <-> hex_digit c v).
Proof.
  intros Hc. unfold hex_digit.
  assert (E : parse_hex_nib c = if (48 <=? c) && (c <=? 57) then Some (c - 48) else if (65 <=? c) && (c <=? 70) then Some (c - 55)
     else if (97 <=? c) && (c <=? 102) then Some (c - 87) else None).
  { pose (P := fun c => match parse_hex_nib c, (if (48 <=? c) && (c <=? 57) then Some (c - 48) else if (65 <=? c) && (c <=? 70) then Some (c - 55)
     else if (97 <=? c) && (c <=? 102) then Some (c - 87) else None) with Some a, Some b => a =? b | None, None => true | _, _ => false end).
    pose proof (zrange_forall P 256 ltac:(vm_compute; reflexivity) c ltac:(lia)) as H. unfold P in H.
    destruct (parse_hex_nib c), (if (48 <=? c) && (c <=? 57) then _ else _); try discriminate; auto. f_equal. lia. }
  rewrite E. destruct ((48 <=? c) && (c <=? 57)) eqn:E1; [|destruct ((65 <=? c) && (c <=? 70)) eqn:E2; [|destruct ((97 <=? c) && (c <=? 102)) eqn:E3]].
  - split; [intros [= <-]; lia|]. intros H. f_equal. lia.
  - split; [intros [= <-]; lia|]. intros H. f_equal. lia.
  - split; [intros [= <-]; lia|]. intros H. f_equal. lia.
  - split; [discriminate|]. intros H. exfalso. lia.
Qed.

Lemma uuuu_spec a b c d n : all_bytes [a; b; c; d] -> (parse_uuuu [a; b; c; d] = Some n <-> hex4 [a; b; c; d] n).
Proof.
  intros H. inversion H as [|? ? Ha H1]; subst. inversion H1 as [|? ? Hb H2]; subst. inversion H2 as [|? ? Hc H3]; subst.
  inversion H3 as [|? ? Hd _]; subst. clear H H1 H2 H3. unfold is_byte in *. unfold hex4. cbn [parse_uuuu]. split.
  - destruct (parse_hex_nib c) as [z|] eqn:Ec; [|discriminate]. destruct (parse_hex_nib d) as [w|] eqn:Ed; [|discriminate].
    destruct (parse_hex_nib a) as [x|] eqn:Ea; [|discriminate]. destruct (parse_hex_nib b) as [y|] eqn:Eb; [|discriminate].
    intros [= <-]. exists a, b, c, d, x, y, z, w. rewrite <- !hex_nib_spec by auto. repeat split; auto. lia.
  - intros (c1 & c2 & c3 & c4 & v1 & v2 & v3 & v4 & [= <- <- <- <-] & H1 & H2 & H3 & H4 & ->).
    apply hex_nib_spec in H1, H2, H3, H4; auto. rewrite H1, H2, H3, H4. f_equal. lia.
Qed.

Lemma unescape_spec e u : nth (Z.to_nat (e - 98)) UNESCAPE 0 = u -> u <> 0 -> 98 <= e <= 116 -> esc_char e u.
Proof.
  intros Hn Hu He. assert (C : (e = 98 \/ e = 102 \/ e = 110 \/ e = 114 \/ e = 116) \/
    (e = 99 \/ e = 100 \/ e = 101 \/ e = 103 \/ e = 104 \/ e = 105 \/ e = 106 \/ e = 107 \/ e = 108 \/ e = 109) \/
    (e = 111 \/ e = 112 \/ e = 113 \/ e = 115)) by lia.
  destruct C as [C|[C|C]]; repeat (destruct C as [->|C] || subst e); vm_compute in Hn; subst u; try constructor; contradiction.
Qed.
Lemma unescape_complete e x : esc_char e x ->
  ((e =? 34) || (e =? 92) || (e =? 47) = true /\ x = e) \/
  ((e =? 34) || (e =? 92) || (e =? 47) = false /\ (98 <=? e) && (e <=? 116) = true /\ nth (Z.to_nat (e - 98)) UNESCAPE 0 = x /\ x <> 0).
Proof. destruct 1; (left; split; reflexivity) || (right; repeat split; try reflexivity; discriminate). Qed.

Lemma str_body_bytes pairs t s : str_body pairs t s -> all_bytes t /\ all_bytes s.
Proof.
  assert (X : forall h n, hex4 h n -> Forall is_byte h).
  { intros h n (c1 & c2 & c3 & c4 & v1 & v2 & v3 & v4 & -> & H). unfold hex_digit in H.
    repeat constructor; unfold is_byte; lia. }
  induction 1.
  - split; constructor.
  - unfold plain_byte in H. destruct IHstr_body. split; constructor; auto; unfold is_byte; lia.
  - destruct IHstr_body. split; [constructor; [unfold is_byte; lia|]|]; constructor; auto; destruct H; unfold is_byte; lia.
  - destruct IHstr_body. split.
    + constructor; [unfold is_byte; lia|]. constructor; [unfold is_byte; lia|]. apply Forall_app; split; eauto.
    + apply Forall_app; split; auto. apply utf8_char_bytes; auto.
  - destruct IHstr_body. split.
    + constructor; [unfold is_byte; lia|]. constructor; [unfold is_byte; lia|]. apply Forall_app; split; eauto.
      constructor; [unfold is_byte; lia|]. constructor; [unfold is_byte; lia|]. apply Forall_app; split; eauto.
    + apply Forall_app; split; auto. apply utf8_char_bytes; unfold is_scalar; lia.
Qed.

Lemma unesc_body t s : str_body false t s -> forall k, unesc (t ++ k) = prep s (unesc k).
Proof.
  induction 1; intros k; try discriminate.
  - rewrite prep_nil. reflexivity.
  - unfold plain_byte in H. cbn [app unesc].
    replace (b =? 34) with false by lia. replace (b =? 92) with false by lia. replace (b <=? 31) with false by lia.
    rewrite IHstr_body, prep_app. reflexivity.
  - cbn [app unesc]. change (92 =? 34) with false. cbn iota. change (92 =? 92) with true. cbn iota.
    destruct (unescape_complete e x H) as [[E ->]|(E & E2 & En & Hx)]; rewrite E.
    + rewrite IHstr_body, prep_app. reflexivity.
    + rewrite E2. cbn zeta. rewrite En. replace (x =? 0) with false by lia. rewrite IHstr_body, prep_app. reflexivity.
  - destruct H as (c1 & c2 & c3 & c4 & v1 & v2 & v3 & v4 & -> & H).
    cbn [app unesc]. change (92 =? 34) with false. cbn iota. change (92 =? 92) with true. cbn iota.
    change ((117 =? 34) || (117 =? 92) || (117 =? 47)) with false. change ((98 <=? 117) && (117 <=? 116)) with false.
    change (117 =? 117) with true. cbn iota.
    replace (parse_uuuu [c1; c2; c3; c4]) with (Some n).
    + unfold char_from_u32. rewrite (proj2 (is_scalarb_spec n) H0). rewrite encode_utf8_spec by auto.
      rewrite IHstr_body, prep_app. reflexivity.
    + symmetry. apply uuuu_spec; [unfold hex_digit in H; repeat constructor; unfold is_byte; lia|].
      exists c1, c2, c3, c4, v1, v2, v3, v4. tauto.
Qed.

Definition fault_error (f : str_fault) : js_de_error :=
  match f with
  | Unterminated => JUnexpectedEof
  | ControlChar => JStringControlChar
  | BadEscape => JInvalidEscapeSequence
  | BadCodePoint => JInvalidUnicodeCodePoint
  end.

(** Every text after an opening quote is a string or has a first fault. *)
Lemma unesc_cases l : all_bytes l ->
  match unesc l with
  | Ok (x, k) => exists t, l = t ++ 34 :: k /\ str_body false t x
  | Err e => exists f, faulty l f /\ e = fault_error f
  end.
Proof.
  induction l as [l IH] using list_ind_strong. intros Hb.
  (* after a piece [p] standing for [q] *)
  assert (G : forall p q l2, l = p ++ l2 -> p <> [] ->
     (forall t s, str_body false t s -> str_body false (p ++ t) (q ++ s)) ->
     match prep q (unesc l2) with
     | Ok (x, k) => exists t, l = t ++ 34 :: k /\ str_body false t x
     | Err e => exists f, faulty l f /\ e = fault_error f
     end).
  { intros p q l2 -> Hp HB. assert (Hl : (length l2 < length (p ++ l2))%nat).
    { rewrite app_length. destruct p; [contradiction|cbn [length]; lia]. }
    apply Forall_app in Hb. destruct Hb as [_ Hb]. specialize (IH l2 Hl Hb).
    destruct (unesc l2) as [[x k]|e]; cbn [prep].
    - destruct IH as (t & -> & Ht). exists (p ++ t). rewrite <- app_assoc. auto.
    - destruct IH as (f & (t & s & r & -> & Ht & Hf) & ->). exists f. split; auto.
      exists (p ++ t), (q ++ s), r. rewrite <- app_assoc. auto. }
  assert (F : forall f, fault_here l f -> exists f', faulty l f' /\ fault_error f = fault_error f').
  { intros f Hf. exists f. split; auto. exists [], [], l. split; auto. split; auto. constructor. }
  destruct l as [|c l1]; [apply (F Unterminated); constructor|].
  inversion Hb as [|? ? Hc Hb1]; subst. unfold is_byte in Hc.
  cbn [unesc]. destruct (c =? 34) eqn:E34; [exists []; split; [cbn; f_equal; lia|constructor]|].
  destruct (c =? 92) eqn:E92.
  2:{ destruct (c <=? 31) eqn:E31; [apply (F ControlChar); constructor; lia|].
      apply (G [c] [c] l1); [auto|discriminate|]. intros t s H. apply B_plain; auto. unfold plain_byte. lia. }
  assert (c = 92) as -> by lia.
  destruct l1 as [|e l2]; [apply (F Unterminated); constructor|].
  inversion Hb1 as [|? ? He Hb2]; subst. unfold is_byte in He.
  destruct ((e =? 34) || (e =? 92) || (e =? 47)) eqn:E3.
  { apply (G [92; e] [e] l2); [auto|discriminate|]. intros t s H. apply B_esc; auto.
    assert (e = 34 \/ e = 92 \/ e = 47) as [->|[->| ->]] by lia; constructor. }
  destruct ((98 <=? e) && (e <=? 116)) eqn:Er.
  { destruct (_ =? 0) eqn:E0.
    - apply (F BadEscape). apply F_escape; [|lia]. intros x Hx.
      destruct (unescape_complete e x Hx) as [[E _]|(_ & _ & En & H0)]; [congruence|]. rewrite En in E0. lia.
    - set (u := nth _ _ _) in *. apply (G [92; e] [u] l2); [auto|discriminate|].
      intros t s H. apply B_esc; auto. apply unescape_spec; [reflexivity|lia|lia]. }
  destruct (e =? 117) eqn:Eu.
  2:{ apply (F BadEscape). apply F_escape; [|lia]. intros x Hx.
      destruct (unescape_complete e x Hx) as [[E _]|(_ & E & _)]; congruence. }
  assert (e = 117) as -> by lia.
  destruct l2 as [|h1 [|h2 [|h3 [|h4 l3]]]]; try (apply (F Unterminated), F_end_u; cbn; lia).
  assert (Hh : all_bytes [h1; h2; h3; h4] /\ all_bytes l3) by (apply (Forall_app is_byte [h1; h2; h3; h4] l3); exact Hb2).
  destruct (parse_uuuu [h1; h2; h3; h4]) as [n|] eqn:En.
  - apply uuuu_spec in En; [|tauto]. unfold char_from_u32. destruct (is_scalarb n) eqn:Es.
    + apply is_scalarb_spec in Es. rewrite encode_utf8_spec by auto.
      apply (G ([92; 117] ++ [h1; h2; h3; h4]) (utf8_char n) l3); [auto|discriminate|].
      intros t s H. cbn. apply (B_u false [h1; h2; h3; h4]); auto.
    + apply (F BadCodePoint). apply (F_code [h1; h2; h3; h4] n); auto. intros C. apply is_scalarb_spec in C. congruence.
  - apply (F BadEscape). apply (F_hex [h1; h2; h3; h4]); auto. intros n Hn. apply uuuu_spec in Hn; [congruence|tauto].
Qed.

Lemma unesc_ok l x k : all_bytes l -> (unesc l = Ok (x, k) <-> exists t, l = t ++ 34 :: k /\ str_body false t x).
Proof.
  intros Hb. split.
  - intros E. pose proof (unesc_cases l Hb) as H. rewrite E in H. exact H.
  - intros (t & -> & Ht). rewrite (unesc_body t x Ht). cbn. rewrite app_nil_r. reflexivity.
Qed.

Lemma unesc_u h1 h2 h3 h4 r : unesc (92 :: 117 :: [h1; h2; h3; h4] ++ r) =
  match parse_uuuu [h1; h2; h3; h4] with
  | None => Err JInvalidEscapeSequence
  | Some code => match char_from_u32 code with None => Err JInvalidUnicodeCodePoint | Some ch => prep (encode_utf8 ch) (unesc r) end
  end.
Proof. reflexivity. Qed.
Lemma fault_unesc l f : all_bytes l -> fault_here l f -> unesc l = Err (fault_error f).
Proof.
  intros Hb Hf. destruct Hf.
  - reflexivity.
  - cbn. replace (b =? 34) with false by lia. replace (b =? 92) with false by lia. replace (b <=? 31) with true by lia. reflexivity.
  - reflexivity.
  - cbn [unesc]. change (92 =? 34) with false. cbn iota. change (92 =? 92) with true. cbn iota.
    destruct ((e =? 34) || (e =? 92) || (e =? 47)) eqn:E3.
    { exfalso. assert (e = 34 \/ e = 92 \/ e = 47) as [->|[->| ->]] by lia; eapply H; constructor. }
    destruct ((98 <=? e) && (e <=? 116)) eqn:Er.
    + destruct (_ =? 0) eqn:E0; [reflexivity|]. exfalso. eapply H, unescape_spec; [reflexivity|lia|lia].
    + replace (e =? 117) with false by lia. reflexivity.
  - cbn. destruct h as [|? [|? [|? [|? ?]]]]; try reflexivity. cbn in H. lia.
  - destruct h as [|h1 [|h2 [|h3 [|h4 [|]]]]]; try discriminate. rewrite unesc_u. destruct (parse_uuuu [h1; h2; h3; h4]) as [n|] eqn:En; [|reflexivity].
    exfalso. apply uuuu_spec in En; [eapply H0; eauto|]. inversion Hb as [|? ? _ Hb1]; subst. inversion Hb1 as [|? ? _ Hb2]; subst.
    apply (Forall_app is_byte [h1; h2; h3; h4] r) in Hb2. tauto.
  - pose proof H as (c1 & c2 & c3 & c4 & v1 & v2 & v3 & v4 & -> & _). rewrite unesc_u.
    replace (parse_uuuu [c1; c2; c3; c4]) with (Some n).
    + unfold char_from_u32. destruct (is_scalarb n) eqn:Es; [|reflexivity]. apply is_scalarb_spec in Es. contradiction.
    + symmetry. apply uuuu_spec; auto. inversion Hb as [|? ? _ Hb1]; subst. inversion Hb1 as [|? ? _ Hb2]; subst.
      apply (Forall_app is_byte [c1; c2; c3; c4] r) in Hb2. tauto.
Qed.
Lemma unesc_err l f : all_bytes l -> faulty l f -> unesc l = Err (fault_error f).
Proof.
  intros Hb (t & s & r & -> & Ht & Hf). rewrite (unesc_body t s Ht).
  apply Forall_app in Hb. rewrite (fault_unesc r f) by tauto. reflexivity.
Qed.

(** ** UTF-8 *)
Lemma utf8_char_shape c : is_scalar c -> exists b r, utf8_char c = b :: r /\ (b < 128 \/ 192 <= b) /\ Forall (fun x => 128 <= x < 192) r.
Proof.
  intros H. unfold is_scalar in H. unfold utf8_char.
  destruct (c <=? 127) eqn:?; [|destruct (c <=? 0x7FF) eqn:?; [|destruct (c <=? 0xFFFF) eqn:?]];
    eexists; eexists; (split; [reflexivity|]); (split; [lia|]); repeat constructor; lia.
Qed.

(** A whole character inside valid UTF-8 can be cut out. *)
Lemma utf8_split a c b : is_scalar c -> valid_utf8 (a ++ utf8_char c ++ b) -> valid_utf8 a /\ valid_utf8 b.
Proof.
  intros Hc (cs & F & E). revert a E. induction F as [|x cs Hx Hcs IH]; intros a E.
  - exfalso. destruct a as [|a0 a]; [|discriminate]. destruct (utf8_char c) eqn:Ec; [|discriminate].
    apply (utf8_char_nonnil c); auto.
  - unfold utf8 in E. cbn [flat_map] in E. fold (utf8 cs) in E. destruct a as [|a0 a].
    + split; [apply valid_utf8_nil|]. cbn [app] in E.
      pose proof (utf8_decode_char c b Hc) as D. rewrite E, utf8_decode_char, utf8_decode_utf8 in D by auto. cbn in D.
      destruct (utf8_decode b) as [cs'|] eqn:Eb; [|discriminate]. apply utf8_decode_sound in Eb. exists cs'. auto.
    + destruct (utf8_char_shape x Hx) as (x0 & xr & Ex & _ & Hxr). rewrite Ex in E. cbn [app] in E. injection E as -> E.
      destruct (utf8_char_shape c Hc) as (c0 & cr & Ec & Hc0 & _).
      assert (exists a', a = xr ++ a') as [a' ->].
      { clear IH Hcs Ex. revert a E. induction Hxr as [|y l Hy Hl IHl]; intros a E; [exists a; auto|].
        destruct a as [|a1 a]; cbn [app] in E.
        - exfalso. rewrite Ec in E. cbn [app] in E. injection E as -> _. lia.
        - injection E as -> E. destruct (IHl a E) as [a' ->]. exists a'. auto. }
      rewrite <- app_assoc in E. apply app_inv_head in E. destruct (IH a' E) as [Va Vb]. split; [|auto].
      change (x0 :: xr ++ a') with ((x0 :: xr) ++ a'). rewrite <- Ex. apply valid_utf8_app; [apply valid_utf8_char; auto|auto].
Qed.

Lemma utf8_cut a x b : Forall (fun c => 0 <= c <= 127) x -> x <> [] -> (valid_utf8 (a ++ x ++ b) <-> valid_utf8 a /\ valid_utf8 b).
Proof.
  intros Hx Hn. split.
  - destruct Hx as [|c x Hc Hx]; [contradiction|]. clear Hn. intros V.
    assert (Va : valid_utf8 a /\ valid_utf8 (x ++ b)) by (apply (utf8_ascii_split a c); [exact V|lia]).
    destruct Va as [Va Vb]. split; auto. clear V. induction Hx as [|d x Hd Hx IH]; [exact Vb|].
    apply IH. apply (utf8_ascii_split [] d) in Vb; [tauto|lia].
  - intros [Va Vb]. apply valid_utf8_app; auto. apply valid_utf8_app; auto. apply valid_utf8_ascii. auto.
Qed.
Lemma utf8_cut_char a c b : is_scalar c -> (valid_utf8 (a ++ utf8_char c ++ b) <-> valid_utf8 a /\ valid_utf8 b).
Proof.
  intros Hc. split; [apply utf8_split; auto|]. intros [Va Vb]. apply valid_utf8_app; auto. apply valid_utf8_app; auto.
  apply valid_utf8_char; auto.
Qed.

Lemma hex4_ascii h n : hex4 h n -> Forall (fun c => 0 <= c <= 127) h.
Proof. intros (c1 & c2 & c3 & c4 & v1 & v2 & v3 & v4 & -> & H). unfold hex_digit in H. repeat constructor; lia. Qed.

(** A literal is valid UTF-8 exactly when the string it denotes is. *)
Lemma str_body_utf8_gen pairs t s : str_body pairs t s -> forall p, valid_utf8 (p ++ t) <-> valid_utf8 (p ++ s).
Proof.
  induction 1 as [|b t s Hb H IH|e x t s He H IH|h n t s Hh Hn H IH|h1 n1 h2 n2 t s Hp Hh1 Hn1 Hh2 Hn2 H IH]; intros p.
  - tauto.
  - specialize (IH (p ++ [b])). rewrite <- !app_assoc in IH. exact IH.
  - specialize (IH []). cbn [app] in IH.
    change (92 :: e :: t) with ([92; e] ++ t). change (x :: s) with ([x] ++ s).
    rewrite !utf8_cut; [rewrite IH; tauto| | | | ]; try discriminate; destruct He; repeat constructor; lia.
  - specialize (IH []). cbn [app] in IH. rewrite utf8_cut_char by auto.
    change (92 :: 117 :: h ++ t) with (([92; 117] ++ h) ++ t). rewrite utf8_cut; [rewrite IH; tauto| |discriminate].
    apply Forall_app. split; [repeat constructor; lia|]. eapply hex4_ascii; eauto.
  - specialize (IH []). cbn [app] in IH. rewrite utf8_cut_char by (unfold is_scalar; lia).
    replace (92 :: 117 :: h1 ++ 92 :: 117 :: h2 ++ t) with (([92; 117] ++ h1 ++ [92; 117] ++ h2) ++ t) by (rewrite <- !app_assoc; reflexivity).
    rewrite utf8_cut; [rewrite IH; tauto| |discriminate].
    apply Forall_app. split; [repeat constructor; lia|]. apply Forall_app. split; [eapply hex4_ascii; eauto|].
    apply Forall_app. split; [repeat constructor; lia|]. eapply hex4_ascii; eauto.
Qed.
Lemma str_body_utf8 pairs t s : str_body pairs t s -> (valid_utf8 t <-> valid_utf8 s).
Proof. intros H. apply (str_body_utf8_gen pairs t s H []). Qed.

(** ** Skipping strings *)
(** [esc]: the previous character is an unescaped backslash. *)
Fixpoint skip (esc : bool) (l : bytes) : result bytes js_de_error :=
  match l with
  | [] => Err JUnexpectedEof
  | c :: l1 =>
    if c =? 34 then (if esc then skip false l1 else Ok l1)
    else if c <=? 31 then Err JStringControlChar
    else skip ((c =? 92) && negb esc) l1
  end.
Definition stopper (b : Z) : bool := (b =? 34) || (b <=? 0x1F).
Definition esc_state (esc : bool) (a : bytes) : bool := fold_left (fun e c => (c =? 92) && negb e) a esc.

Lemma skip_run a : Forall (fun b => stopper b = false) a -> forall esc r, skip esc (a ++ r) = skip (esc_state esc a) r.
Proof.
  induction 1 as [|c a Hc Ha IH]; intros esc r; [reflexivity|]. unfold stopper in Hc. apply orb_false_iff in Hc. destruct Hc as [H1 H2].
  cbn [app skip esc_state fold_left]. rewrite H1, H2. apply IH.
Qed.
Lemma trailing_snoc a c : trailing_backslashes (a ++ [c]) = if c =? 92 then S (trailing_backslashes a) else 0%nat.
Proof.
  unfold trailing_backslashes. rewrite rev_app_distr. cbn [rev app position]. destruct (c =? 92); cbn [negb]; [|reflexivity].
  rewrite app_length. cbn [length]. destruct (position _ (rev a)); cbn [option_map]; lia.
Qed.
Lemma esc_state_trailing a : esc_state false a = Nat.odd (trailing_backslashes a).
Proof.
  induction a as [|c a IH] using rev_ind; [reflexivity|]. unfold esc_state in *. rewrite fold_left_app. cbn [fold_left].
  rewrite IH, trailing_snoc. destruct (c =? 92); [|reflexivity]. cbn [andb]. rewrite Nat.odd_succ, <- Nat.negb_odd. reflexivity.
Qed.

Lemma eat_str_loop_spec fuel : forall s start, (start <= length (j_input s))%nat -> (length (j_input s) - start < fuel)%nat ->
  match skip false (skipn start (j_input s)) with
  | Ok k => exists n, eat_str_loop fuel start s = Done (jset (j_input s) n s) (Ok tt) /\ (n <= length (j_input s))%nat /\ skipn n (j_input s) = k
  | Err e => eat_str_loop fuel start s = Done s (Err e)
  end.
Proof.
  induction fuel as [|fuel IH]; intros s start Hs Hf; [lia|].
  cbn [eat_str_loop]. rewrite (proj2 (Nat.leb_le _ _) Hs). change (fun b => (b =? 34) || (b <=? 31)) with stopper.
  set (R := skipn start (j_input s)). destruct (position stopper R) as [n|] eqn:Ep.
  2:{ apply position_none in Ep. rewrite <- (app_nil_r R), (skip_run R Ep). reflexivity. }
  destruct (position_split _ _ _ Ep) as (a & c & b & ER & La & Hc & Ha). rewrite ER. subst n.
  assert (Ein : j_input s = firstn start (j_input s) ++ a ++ c :: b) by (rewrite <- ER; unfold R; symmetry; apply firstn_skipn).
  assert (Lf : length (firstn start (j_input s)) = start) by (rewrite firstn_length; lia).
  assert (En : nth_error (j_input s) (start + length a) = Some c).
  { rewrite <- nth_error_skipn. fold R. rewrite ER. apply nth_mid. }
  rewrite En, (skip_run a Ha). cbn [skip]. rewrite esc_state_trailing.
  assert (Lin : (start + length a + S (length b))%nat = length (j_input s)).
  { rewrite Ein at 1. rewrite !app_length, Lf. cbn [length]. lia. }
  assert (Ek : skipn (start + length a + 1) (j_input s) = b).
  { replace (start + length a + 1)%nat with (start + (length a + 1))%nat by lia. rewrite <- skipn_add. fold R.
    rewrite ER. rewrite <- skipn_add. rewrite skipn_len. reflexivity. }
  assert (Esl : slice (j_input s) start (length a) = a).
  { unfold slice. fold R. rewrite ER. apply firstn_len. }
  rewrite Esl. unfold stopper in Hc. destruct (c =? 34) eqn:E34.
  2:{ cbn [orb] in Hc. rewrite Hc. reflexivity. }
  rewrite <- Nat.negb_even. destruct (Nat.even (trailing_backslashes a)); cbn [negb].
  - exists (start + length a + 1)%nat. split; auto. split; [lia|auto].
  - specialize (IH s (start + length a + 1)%nat ltac:(lia) ltac:(lia)). rewrite Ek in IH. exact IH.
Qed.

Theorem eat_str_spec s : (j_index s <= length (j_input s))%nat ->
  match skip false (unparsed s) with
  | Ok k => exists n, eat_str_content s = Done (jset (j_input s) n s) (Ok tt) /\ (n <= length (j_input s))%nat /\ skipn n (j_input s) = k
  | Err e => eat_str_content s = Done s (Err e)
  end.
Proof. intros H. apply eat_str_loop_spec; [auto|lia]. Qed.

(** Skipping stops at the quote where decoding would. *)
Lemma skip_body pairs t x : str_body pairs t x -> forall k, skip false (t ++ k) = skip false k.
Proof.
  assert (X : forall h n, hex4 h n -> forall k, skip false (h ++ k) = skip false k).
  { intros h n (c1 & c2 & c3 & c4 & v1 & v2 & v3 & v4 & -> & H) k. unfold hex_digit in H. cbn [app skip].
    assert (P : forall c l, 48 <= c <= 57 \/ 65 <= c <= 70 \/ 97 <= c <= 102 -> skip false (c :: l) = skip false l).
    { intros c l Hc. cbn [skip]. replace (c =? 34) with false by lia. replace (c <=? 31) with false by lia. replace (c =? 92) with false by lia. reflexivity. }
    change (skip false (c1 :: c2 :: c3 :: c4 :: k) = skip false k). rewrite !P by lia. reflexivity. }
  induction 1 as [|b t s Hb H IH|e x t s He H IH|h n t s Hh Hn H IH|h1 n1 h2 n2 t s Hp Hh1 Hn1 Hh2 Hn2 H IH]; intros k.
  - reflexivity.
  - unfold plain_byte in Hb. cbn [app skip]. replace (b =? 34) with false by lia. replace (b <=? 31) with false by lia.
    replace (b =? 92) with false by lia. apply IH.
  - transitivity (skip false (t ++ k)); [destruct He; reflexivity|apply IH].
  - cbn [app]. rewrite <- app_assoc. change (skip false (92 :: 117 :: h ++ t ++ k)) with (skip false (h ++ t ++ k)).
    rewrite (X h n Hh). apply IH.
  - cbn [app]. repeat (rewrite <- app_assoc; cbn [app]).
    change (skip false (92 :: 117 :: h1 ++ 92 :: 117 :: h2 ++ t ++ k)) with (skip false (h1 ++ 92 :: 117 :: h2 ++ t ++ k)).
    rewrite (X h1 n1 Hh1). change (skip false (92 :: 117 :: h2 ++ t ++ k)) with (skip false (h2 ++ t ++ k)).
    rewrite (X h2 n2 Hh2). apply IH.
Qed.

Lemma skip_span t : quoted_span t -> forall k, skip false (t ++ k) = skip false k.
Proof.
  induction 1 as [|b t Hb H IH|e t He H IH]; intros k; [reflexivity| |].
  - unfold plain_byte in Hb. cbn [app skip]. replace (b =? 34) with false by lia. replace (b <=? 31) with false by lia.
    replace (b =? 92) with false by lia. apply IH.
  - cbn [app skip]. change (92 =? 34) with false. change (92 <=? 31) with false. cbn iota.
    change ((92 =? 92) && negb false) with true. replace (e <=? 31) with false by lia. cbn [negb]. rewrite andb_false_r.
    transitivity (skip false (t ++ k)); [destruct (e =? 34); reflexivity|apply IH].
Qed.
Lemma skip_ok l k : all_bytes l -> (skip false l = Ok k <-> exists t, l = t ++ 34 :: k /\ quoted_span t).
Proof.
  intros Hb. split.
  - revert Hb k. induction l as [l IH] using list_ind_strong. intros Hb k. destruct l as [|c l1]; [discriminate|].
    inversion Hb as [|? ? Hc Hb1]; subst. unfold is_byte in Hc. cbn [skip].
    destruct (c =? 34) eqn:E34; [intros [= ->]; exists []; split; [cbn; f_equal; lia|constructor]|].
    destruct (c <=? 31) eqn:E31; [discriminate|]. destruct (c =? 92) eqn:E92; cbn [andb negb].
    + destruct l1 as [|e l2]; [discriminate|]. inversion Hb1 as [|? ? He Hb2]; subst. unfold is_byte in He. cbn [skip].
      intros E. destruct (IH l2 ltac:(cbn; lia) Hb2 k) as (t & -> & Ht).
      { destruct (e =? 34); [exact E|]. destruct (e <=? 31); [discriminate|]. rewrite andb_false_r in E. exact E. }
      exists (92 :: e :: t). split; [cbn; f_equal; lia|]. apply Q_esc; auto. destruct (e =? 34) eqn:?; [lia|]. destruct (e <=? 31) eqn:?; [discriminate|lia].
    + intros E. destruct (IH l1 ltac:(cbn; lia) Hb1 k E) as (t & -> & Ht). exists (c :: t). split; [auto|].
      apply Q_plain; auto. unfold plain_byte. lia.
  - intros (t & -> & Ht). rewrite (skip_span t Ht). reflexivity.
Qed.
Lemma body_span pairs t x : str_body pairs t x -> quoted_span t.
Proof.
  intros H. pose proof (str_body_bytes _ _ _ H) as [Hb _].
  assert (E : skip false (t ++ 34 :: []) = Ok []) by (rewrite (skip_body _ _ _ H); reflexivity).
  apply skip_ok in E; [|apply Forall_app; split; auto; repeat constructor; unfold is_byte; lia].
  destruct E as (t' & E & Ht'). apply app_inj_tail in E. destruct E as [-> _]. auto.
Qed.

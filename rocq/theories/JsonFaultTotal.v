(** Every input either starts with a value of the type or has a fault. *)
From Verif Require Import Prelude PreludeFacts Utf8 Utf8Spec Utf8Facts SerdeDe SerdeSer MpSpec Base64Spec
  JsonSpec JsonTypeSpec JsonFacts JsonDe JsonDeSafe JsonStr JsonView JsonTok JsonMeth JsonEats JsonTyped
  Types TypesFacts MpTypeSpec MpTyped MpSerSim JsonSound JsonFaultSpec JsonFaultLeaf JsonFault JsonFaultTyped.
Ltac Zify.zify_post_hook ::= Z.div_mod_to_equations.

(** ** Items *)
Lemma next_cases close a b c first l : close <> 44 ->
  (exists r, begins l close r) \/ (exists e, gap_fault close a b c first l e) \/ (exists x, item close first l x).
Proof.
  intros N. destruct (ws_cases l) as [Hw|(ch & r & Hb)]; [right; left; eexists; apply G_end; auto|].
  destruct (Z.eq_dec ch close) as [->|Nc]; [left; eauto|]. right. destruct (Z.eq_dec ch 44) as [->|N4].
  - destruct first; [left; eexists; eapply G_leading; eauto|]. destruct (ws_cases r) as [Hw|(ch & q & Hb2)]; [left; eexists; eapply G_comma_end; eauto|].
    destruct (Z.eq_dec ch close) as [->|Nc2]; [left; eexists; eapply G_trailing; eauto|]. right. exists (ch :: q), ch, q. eauto.
  - destruct first; [|left; eexists; eapply G_missing; eauto]. right. exists (ch :: r), ch, r. auto.
Qed.
Lemma item_split close first l x : item close first l x -> exists w0 w, any_ws w0 /\ any_ws w /\ l = (if first then [] else w0 ++ [44]) ++ w ++ x.
Proof.
  intros (c & r & -> & _ & H). destruct first.
  - destruct H as [(w & -> & Hw & _) _]. exists [], w. cbn. repeat split; auto. constructor.
  - destruct H as (m & (w0 & -> & Hw0 & _) & (w & -> & Hw & _)). exists w0, w. rewrite <- app_assoc. auto.
Qed.
Lemma item_length close first l x : item close first l x -> (length x <= length l)%nat.
Proof. intros H. apply tail_length. eapply item_tail; eauto. Qed.

(** Items read one after the other until something stops them. *)
Lemma walk_cases {A} (tk : A -> bytes -> bytes -> Prop) (flt : bytes -> Prop) close e1 e2 e3 (P : bytes -> Prop) : close <> 44 ->
  (forall k l, tail_of k l -> P l -> P k) ->
  (forall x, P x -> (exists a y, tk a x y /\ tail_of y x /\ (length y < length x)%nat) \/ flt x) ->
  forall n first l, (length l < n)%nat -> P l -> exists s first' k, walk close first (map tk s) l first' k /\ tail_of k l /\
    ((exists r, begins k close r) \/ (exists e, gap_fault close e1 e2 e3 first' k e) \/ (exists x, item close first' k x /\ flt x)).
Proof.
  intros Nc HP HT. induction n as [|n IH]; [lia|]. intros first l L Pl.
  destruct (next_cases close e1 e2 e3 first l Nc) as [H|[H|(x & Hx)]].
  - exists [], first, l. split; [constructor|]. split; [apply tail_refl|auto].
  - exists [], first, l. split; [constructor|]. split; [apply tail_refl|auto].
  - pose proof (item_tail _ _ _ _ Hx) as T. destruct (HT x (HP _ _ T Pl)) as [(a & y & Ha & Ty & Ly)|Hf].
    + pose proof (tail_length _ _ T). assert (Ty' : tail_of y l) by (eapply tail_trans; eauto).
      destruct (IH false y ltac:(lia) (HP _ _ Ty' Pl)) as (s & first' & k & Hw & Tk & Hk). exists (a :: s), first', k.
      split; [cbn [map]; eapply Wa_cons; eauto|]. split; [eapply tail_trans; eauto|auto].
    + exists [], first, l. split; [constructor|]. split; [apply tail_refl|]. right. right. eauto.
Qed.
(** A list of items of given kinds. *)
Lemma list_cases {A V} (tk : A -> V -> bytes -> bytes -> Prop) (flt : A -> bytes -> Prop) close e1 e2 e3 (P : bytes -> Prop) l0 : close <> 44 ->
  (forall k l, tail_of k l -> P l -> P k) ->
  Forall (fun a => forall x, P x -> (exists v y, tk a v x y /\ tail_of y x) \/ flt a x) l0 ->
  forall first l, P l ->
    (exists vs first' k, length vs = length l0 /\ walk close first (zip (fun (p : V -> bytes -> bytes -> Prop) v => p v) (map tk l0) vs) l first' k /\ tail_of k l) \/
    (exists l1 a l2 vs first' k, l0 = l1 ++ a :: l2 /\ length vs = length l1 /\
       walk close first (zip (fun (p : V -> bytes -> bytes -> Prop) v => p v) (map tk l1) vs) l first' k /\ tail_of k l /\
       ((exists r, begins k close r) \/ (exists e, gap_fault close e1 e2 e3 first' k e) \/ (exists x, item close first' k x /\ flt a x))).
Proof.
  intros Nc HP. induction 1 as [|a l0 Ha _ IH]; intros first l Pl.
  { left. exists [], first, l. split; auto. split; [constructor|apply tail_refl]. }
  assert (Stop : ((exists r, begins l close r) \/ (exists e, gap_fault close e1 e2 e3 first l e) \/ (exists x, item close first l x /\ flt a x)) ->
    exists l1 a' l2 vs first' k, a :: l0 = l1 ++ a' :: l2 /\ length vs = length l1 /\
       walk close first (zip (fun (p : V -> bytes -> bytes -> Prop) v => p v) (map tk l1) vs) l first' k /\ tail_of k l /\
       ((exists r, begins k close r) \/ (exists e, gap_fault close e1 e2 e3 first' k e) \/ (exists x, item close first' k x /\ flt a' x))).
  { intros H. exists [], a, l0, [], first, l. split; auto. split; auto. split; [constructor|]. split; [apply tail_refl|auto]. }
  destruct (next_cases close e1 e2 e3 first l Nc) as [H|[H|(x & Hx)]]; [right; auto..|].
  pose proof (item_tail _ _ _ _ Hx) as T. destruct (Ha x (HP _ _ T Pl)) as [(v & y & Hv & Ty)|Hf]; [|right; apply Stop; eauto].
  assert (Ty' : tail_of y l) by (eapply tail_trans; eauto).
  destruct (IH false y (HP _ _ Ty' Pl)) as [(vs & first' & k & Lv & Hw & Tk)|(l1 & a' & l2 & vs & first' & k & -> & Lv & Hw & Tk & Hk)].
  - left. exists (v :: vs), first', k. split; [cbn; lia|]. split; [cbn [map zip]; eapply Wa_cons; eauto|eapply tail_trans; eauto].
  - right. exists (a :: l1), a', l2, (v :: vs), first', k. split; auto. split; [cbn; lia|]. split; [cbn [map zip]; eapply Wa_cons; eauto|]. split; [eapply tail_trans; eauto|auto].
Qed.

(** ** The documents read *)
Definition vals (p : bytes -> bytes -> Prop) (R : jv -> Prop) : Prop := forall x y, p x y ->
  exists w d b, x = w ++ b ++ y /\ any_ws w /\ loose_text d b /\ R d.
Lemma walk_arr ps Rs : Forall2 vals ps Rs -> forall first l first' k, walk 93 first ps l first' k ->
  exists ds b, l = b ++ k /\ arr_part first ds b /\ Forall2 (fun (R : jv -> Prop) d => R d) Rs ds.
Proof.
  induction 1 as [|p R ps Rs Hp _ IH]; intros first l first' k H.
  - apply walk_nil_inv in H. destruct H as [-> ->]. exists [], []. split; auto. split; [apply arr_part_nil; constructor|constructor].
  - apply walk_cons_inv in H. destruct H as (x & y & Hi & Hx & Hw). destruct (IH _ _ _ _ Hw) as (ds & b & -> & Hb & Hr).
    destruct (Hp _ _ Hx) as (w & d & t & -> & Hws & Ht & Hd). destruct (item_split _ _ _ _ Hi) as (w0 & w1 & H0 & H1 & ->).
    exists (d :: ds), ((if first then [] else w0 ++ [44]) ++ (w1 ++ w) ++ t ++ b). split; [rewrite <- !app_assoc; auto|]. split; [|constructor; auto].
    apply arr_part_cons; auto. apply blank_app; auto.
Qed.
Definition mems (p : bytes -> bytes -> Prop) (R : bytes * jv -> Prop) : Prop := forall x y, p x y ->
  exists raw w2 w3 d t, x = 34 :: raw ++ 34 :: w2 ++ 58 :: w3 ++ t ++ y /\ loose_key raw (34 :: raw ++ [34]) /\ any_ws w2 /\ any_ws w3 /\ loose_text d t /\ R (raw, d).
Lemma member_split (first : bool) l raw w2 w3 d t y ms b k : item 125 first l (34 :: raw ++ 34 :: w2 ++ 58 :: w3 ++ t ++ y) ->
  loose_key raw (34 :: raw ++ [34]) -> any_ws w2 -> any_ws w3 -> loose_text d t -> y = b ++ k -> obj_part false ms b ->
  exists b', l = b' ++ k /\ obj_part first ((raw, d) :: ms) b'.
Proof.
  intros Hi Hk H2 H3 Ht -> Hb. destruct (item_split _ _ _ _ Hi) as (w0 & w1 & H0 & H1 & ->).
  exists ((if first then [] else w0 ++ [44]) ++ w1 ++ (34 :: raw ++ [34]) ++ w2 ++ 58 :: w3 ++ t ++ b). split; [|apply obj_part_cons; auto].
  repeat (rewrite <- app_assoc; cbn [app]). reflexivity.
Qed.
Lemma walk_obj ps Rs : Forall2 mems ps Rs -> forall first l first' k, walk 125 first ps l first' k ->
  exists ms b, l = b ++ k /\ obj_part first ms b /\ Forall2 (fun (R : bytes * jv -> Prop) d => R d) Rs ms.
Proof.
  induction 1 as [|p R ps Rs Hp _ IH]; intros first l first' k H.
  - apply walk_nil_inv in H. destruct H as [-> ->]. exists [], []. split; auto. split; [apply obj_part_nil; constructor|constructor].
  - apply walk_cons_inv in H. destruct H as (x & y & Hi & Hx & Hw). destruct (IH _ _ _ _ Hw) as (ms & b & Ey & Hb & Hr).
    destruct (Hp _ _ Hx) as (raw & w2 & w3 & d & t & -> & Hk & H2 & H3 & Ht & HR).
    destruct (member_split first l raw w2 w3 d t y ms b k) as (b' & E & Hb'); auto. exists ((raw, d) :: ms), b'. split; auto.
Qed.
Lemma Forall2_const {A B} (P : A -> B -> Prop) a s : P a s -> forall n, Forall2 P (repeat a n) (repeat s n).
Proof. intros H. induction n; constructor; auto. Qed.
Lemma map_repeat {A B} (b : B) (l : list A) : map (fun _ => b) l = repeat b (length l).
Proof. induction l; cbn; congruence. Qed.
Lemma literal_key raw s : literal raw s -> loose_key raw (34 :: raw ++ [34]).
Proof. intros L. split; auto. exists [], raw. split; auto. split; [constructor|]. eapply literal_span; eauto. Qed.
Lemma text_length d b : loose_text d b -> (0 < length b)%nat.
Proof. intros H. destruct (text_head _ _ H) as (c & b' & -> & _). cbn. lia. Qed.

(** ** Strings *)
Lemma text_cases l : all_bytes l -> (exists raw s k, l = raw ++ 34 :: k /\ literal raw s) \/ (exists e, text_fault l e).
Proof.
  intros B. destruct (p_str l) as [[s k]|e] eqn:E.
  - left. apply str_ok in E; auto. destruct E as (raw & -> & L). eauto.
  - right. apply str_err in E; auto. eauto.
Qed.
Lemma colon_cases l : (exists r, begins l 58 r) \/ (exists e, colon_fault l e).
Proof.
  destruct (ws_cases l) as [Hw|(c & r & Hb)]; [right; eexists; apply CF_end; auto|]. destruct (Z.eq_dec c 58) as [->|N]; [left; eauto|]. right. eexists. eapply CF_colon; eauto.
Qed.
Lemma word_cases rest l : (exists k, l = rest ++ k) \/ (exists e, word_fault rest l e).
Proof.
  destruct (p_tok rest l) as [[u k]|e] eqn:E; [left; apply word_ok in E; eauto|right; apply word_err in E; eauto].
Qed.

(** ** Skipped values *)
Lemma skips_length l k : skips l k -> (length k < length l)%nat.
Proof. intros (w & d & b & -> & _ & H & _). rewrite !app_length. apply text_length in H. lia. Qed.
Lemma begins_skips l c r d b k : begins l c r -> loose_text d b -> c :: r = b ++ k -> skippable d -> cannot_extend d k -> skips l k.
Proof. intros (w & -> & Hw & _) Ht E Hs Hk. exists w, d, b. rewrite E. auto. Qed.
Lemma number_split l c r : l = c :: r -> number_char c = true -> exists tok k, l = tok ++ k /\ number_run tok /\ (exists r', tok = c :: r') /\ cannot_extend (JNum tok) k.
Proof.
  intros -> Hc. destruct (number_prefix_split (c :: r)) as (t & Et & Hn & Hh). exists (number_prefix (c :: r)), t. split; auto.
  assert (Ex : exists l', number_prefix (c :: r) = c :: l').
  { destruct (number_prefix (c :: r)) as [|c' l'] eqn:Ep; [|exists l'; cbn in Et; congruence]. cbn in Et. rewrite <- Et in Hh. congruence. }
  split; [|split; auto].
  - split; [destruct Ex as (l' & ->); discriminate|]. eapply Forall_impl; [|exact Hn]. intros b. apply run_char.
  - destruct t as [|c' t]; [exact I|]. cbn [cannot_extend]. intros X. apply run_char in X. congruence.
Qed.
Lemma skip_cases n : forall l, (length l < n)%nat -> all_bytes l -> (exists k, skips l k) \/ (exists e, skip_fault l e).
Proof.
  induction n as [|n IH]; [lia|]. intros l L B. destruct (ws_cases l) as [Hw|(c & r & Hb)]; [right; eexists; apply S_end; auto|].
  pose proof (begins_length _ _ _ Hb) as Lr. assert (Br : all_bytes r) by (eapply tail_bytes; [eapply begins_tail1; eauto|auto]).
  destruct (Z.eq_dec c 110) as [->|N1].
  { destruct (word_cases ull r) as [(k & E)|(e & Hf)]; [left; exists k|right; eexists; eapply S_null; eauto].
    eapply begins_skips; [exact Hb|apply T_null| |exact I|exact I]. rewrite E. reflexivity. }
  destruct (Z.eq_dec c 116) as [->|N2].
  { destruct (word_cases rue r) as [(k & E)|(e & Hf)]; [left; exists k|right; eexists; eapply S_true; eauto].
    eapply begins_skips; [exact Hb|apply T_true| |exact I|exact I]. rewrite E. reflexivity. }
  destruct (Z.eq_dec c 102) as [->|N3].
  { destruct (word_cases alse r) as [(k & E)|(e & Hf)]; [left; exists k|right; eexists; eapply S_false; eauto].
    eapply begins_skips; [exact Hb|apply T_false| |exact I|exact I]. rewrite E. reflexivity. }
  destruct (Z.eq_dec c 34) as [->|N4].
  { destruct (p_skip r) as [[u k]|e] eqn:E.
    - left. exists k. apply span_ok in E; auto. destruct E as (t & -> & Ht). eapply begins_skips; [exact Hb|apply (T_str _ _ _ _ t (34 :: t ++ [34])); split; auto| |exact I|exact I].
      cbn [app]. rewrite <- app_assoc. reflexivity.
    - right. exists e. apply span_err in E; auto. eapply S_str; eauto. }
  destruct (Z.eq_dec c 91) as [->|N5].
  { destruct (walk_cases (fun _ : unit => skips) (fun x => exists e, skip_fault x e) 93 JLeadingArrayComma JTrailingArrayComma JExpectedArrayCommaOrEnd
      (fun l => all_bytes l /\ (length l < n)%nat) ltac:(lia)) with (n := n) (first := true) (l := r) as (s & first' & k & Hw & Tk & Hk).
    - intros k l0 T [B0 L0]. split; [eapply tail_bytes; eauto|]. pose proof (tail_length _ _ T). lia.
    - intros x [Bx Lx]. destruct (IH x Lx Bx) as [(k & Hk)|H]; [left|right; auto]. exists tt, k. split; auto. split; [apply skips_tail|apply skips_length]; auto.
    - lia.
    - split; auto. lia.
    - rewrite map_repeat in Hw. destruct Hk as [(k' & Hk)|[(e & He)|(x & Hx & e & He)]]; [left|right; eexists; eapply S_arr_gap; eauto|right; eexists; eapply S_arr; eauto].
      exists k'. destruct (walk_arr _ _ (Forall2_const vals skips skippable ltac:(intros x y (w & d & b & -> & H1 & H2 & H3 & _); eauto 8) (length s)) _ _ _ _ Hw) as (ds & b & E & Hd & Hs).
      destruct Hk as (w & -> & Hws & _). eapply begins_skips; [exact Hb|eapply (arr_whole ds b w); eauto| | |exact I].
      + rewrite E. cbn [app]. rewrite <- !app_assoc. reflexivity.
      + cbn [skippable]. apply all_list_Forall. clear - Hs. revert ds Hs. generalize (length s). induction n as [|n IH]; intros ds H; inversion H; subst; constructor; auto. }
  destruct (Z.eq_dec c 123) as [->|N6].
  { destruct (walk_cases (fun _ : unit => skips_member) (fun x => forall c q, x = c :: q -> c <> 34 \/ (c = 34 /\ ((exists e, text_fault q e) \/
      (exists raw s m, q = raw ++ 34 :: m /\ literal raw s /\ ((exists e, colon_fault m e) \/ (exists z e, begins m 58 z /\ skip_fault z e)))))) 125 JLeadingObjectComma JTrailingObjectComma JExpectedObjectCommaOrEnd
      (fun l => all_bytes l /\ (length l < n)%nat) ltac:(lia)) with (n := n) (first := true) (l := r) as (s & first' & k & Hw & Tk & Hk).
    - intros k l0 T [B0 L0]. split; [eapply tail_bytes; eauto|]. pose proof (tail_length _ _ T). lia.
    - intros x [Bx Lx]. destruct x as [|c q]; [right; intros; discriminate|]. destruct (Z.eq_dec c 34) as [->|N]; [|right; intros c' q' [= <- <-]; auto].
      assert (Bq : all_bytes q) by (inversion Bx; auto).
      destruct (text_cases q Bq) as [(raw & s & m & -> & Lr')|(e & He)]; [|right; intros c' q' [= <- <-]; right; eauto].
      destruct (colon_cases m) as [(z & Hz)|(e & He)]; [|right; intros c' q' [= <- <-]; right; split; auto; right; exists raw, s, m; eauto].
      assert (Tz : tail_of z (34 :: raw ++ 34 :: m)) by (eapply tail_trans; [eapply begins_tail1; exact Hz|apply quoted_tail]).
      pose proof (tail_length _ _ Tz) as Lz.
      destruct (IH z ltac:(lia) (tail_bytes _ _ Tz Bx)) as [(y & Hy)|(e & He)]; [|right; intros c' q' [= <- <-]; right; split; auto; right; exists raw, s, m; eauto 8].
      left. assert (M : skips_member (34 :: raw ++ 34 :: m) y) by (exists raw, s, m, z; auto). exists tt, y. split; auto. split; [apply skips_member_tail; auto|].
      apply skips_length in Hy. lia.
    - lia.
    - split; auto. lia.
    - rewrite map_repeat in Hw. destruct Hk as [(k' & Hk)|[(e & He)|(x & Hx & He)]]; [left|right; eexists; eapply S_obj_gap; eauto|right].
      + exists k'. assert (V : mems skips_member (fun m => (exists s, literal (fst m) s) /\ skippable (snd m))).
        { intros x y (raw & s0 & m & z & -> & Ll & (w2 & -> & H2 & _) & (w3 & d & b & -> & H3 & Ht & Hs & _)).
          exists raw, w2, w3, d, b. split; auto. split; [eapply literal_key; eauto|]. split; auto. split; auto. split; auto. cbn. split; eauto. }
        destruct (walk_obj _ _ (Forall2_const mems skips_member _ V (length s)) _ _ _ _ Hw) as (ds & b & E & Hd & Hs).
        destruct Hk as (w & -> & Hws & _). eapply begins_skips; [exact Hb|eapply (obj_whole ds b w); eauto| | |exact I].
        * rewrite E. cbn [app]. rewrite <- !app_assoc. reflexivity.
        * cbn [skippable]. apply all_list_Forall. clear - Hs. revert ds Hs. generalize (length s). induction n as [|n IH]; intros ds H; inversion H; subst; constructor; auto.
      + assert (X : exists c q, x = c :: q) by (destruct Hx as (c & q & -> & _); eauto). destruct X as (c & q & ->).
        destruct (He c q eq_refl) as [N|[-> [(e & Ht)|(raw & s0 & m & -> & Ll & [(e & Hc)|(z & e & Hz & Hs)])]]].
        * eexists. eapply S_obj_key; eauto.
        * eexists. eapply S_obj_text; eauto.
        * eexists. eapply S_obj_colon; eauto.
        * eexists. eapply S_obj_value; eauto. }
  destruct (ascii_digit c || (c =? 45)) eqn:E.
  { left. apply digit_number in E. destruct E as [E1 E2]. destruct (number_split (c :: r) c r eq_refl E1) as (tok & k & Et & Hn & Hx & Hk). exists k.
    eapply begins_skips; [exact Hb|apply T_num; exact Hn|exact Et| |exact Hk]. destruct Hx as (r' & ->). cbn [skippable]. eauto. }
  right. eexists. eapply S_kind; [exact Hb|]. unfold value_start, is_digit. unfold ascii_digit in E. lia.
Qed.
Lemma skip_total l : all_bytes l -> (exists k, skips l k) \/ (exists e, skip_fault l e).
Proof. apply (skip_cases (S (length l))). lia. Qed.

(** ** Keys *)
Lemma key_loose t u raw : key_as any_ws t u raw -> loose_key raw (34 :: raw ++ [34]).
Proof.
  assert (P : forall w r, any_ws w -> quoted_span r -> raw = w ++ r -> loose_key raw (34 :: raw ++ [34])) by (intros w r Hw Hr E; split; auto; exists w, r; auto).
  destruct t, u; cbn [key_as]; intros H; try contradiction.
  - destruct H as (w & Hw & E). eapply P; eauto. destruct b; repeat (apply Q_plain; [unfold plain_byte; lia|]); apply Q_nil.
  - destruct H as (w & tok & Hw & E & L). eapply P; eauto. eapply int_lit_span; eauto.
  - destruct H as [H _]. eapply literal_key; eauto.
  - eapply literal_key; eauto.
  - eapply literal_key; eauto.
  - destruct H as (_ & n & _ & H). eapply literal_key; eauto.
Qed.
Lemma known {A} (fs : list (bytes * A * ty)) s : (exists i f, nth_error fs i = Some f /\ name_of f = s) \/ ~ In s (map name_of fs).
Proof.
  destruct (in_dec (list_eq_dec Z.eq_dec) s (map name_of fs)) as [Hi|Hi]; [left|auto]. apply in_map_iff in Hi. destruct Hi as (f & E & Hf). apply In_nth_error in Hf. destruct Hf as [i Hi]. eauto.
Qed.
Lemma char_cases s : (exists c, is_scalar c /\ s = utf8_char c) \/ (forall c, is_scalar c -> s <> utf8_char c).
Proof.
  destruct (char_from_str s) as [c|] eqn:E; [left; exists c; apply char_from_str_spec; auto|right]. intros c Hc Es.
  assert (X : char_from_str s = Some c) by (apply char_from_str_spec; auto). congruence.
Qed.
Lemma unit_kind (k : vkind) : k = KUnit \/ k <> KUnit.
Proof. destruct k; auto; right; discriminate. Qed.
Lemma bool_cases l : (exists w (b : bool) k, l = w ++ (if b then 116 :: rue else 102 :: alse) ++ k /\ any_ws w) \/ (exists e, bool_fault l e).
Proof.
  destruct (ws_cases l) as [Hw|(c & r & Hb)]; [right; eexists; apply BF_end; auto|].
  destruct (Z.eq_dec c 116) as [->|N1].
  { destruct (word_cases rue r) as [(k & ->)|(e & He)]; [|right; eexists; eapply BF_true; eauto]. left. destruct Hb as (w & -> & Hw & _). exists w, true, k. auto. }
  destruct (Z.eq_dec c 102) as [->|N2].
  { destruct (word_cases alse r) as [(k & ->)|(e & He)]; [|right; eexists; eapply BF_false; eauto]. left. destruct Hb as (w & -> & Hw & _). exists w, false, k. auto. }
  right. eexists. eapply BF_kind; eauto.
Qed.
Lemma key_cases t q : all_bytes q -> (exists raw u m, q = raw ++ 34 :: m /\ key_as any_ws t u raw) \/ (exists e, key_fault t q e).
Proof.
  intros B.
  assert (T : text_key t -> (exists raw s m, q = raw ++ 34 :: m /\ literal raw s) \/ (exists e, key_fault t q e)).
  { intros H. destruct (text_cases q B) as [(raw & s & k & -> & L)|(e & He)]; [left; eauto 6|right; eexists; apply K_text; eauto]. }
  destruct t; try (destruct (T I) as [(raw & s & m & -> & L)|]; [|auto]; clear T);
    try (right; eexists; eapply K_type; [exact I|exact L]).
  - clear T. destruct (bool_cases q) as [(w & b & k & -> & Hw)|(e & He)]; [|right; eexists; apply K_bool; eauto].
    destruct k as [|c k]; [right; eexists; rewrite app_nil_r; apply K_bool_end; auto|].
    destruct (Z.eq_dec c 34) as [->|N]; [|right; eexists; apply K_bool_more; auto].
    left. exists (w ++ (if b then 116 :: rue else 102 :: alse)), (UBool b), k. split; [rewrite <- app_assoc; auto|]. cbn [key_as]. exists w. split; auto.
  - clear T. destruct (p_int k q) as [[z r]|e] eqn:E; [|right; eexists; apply K_int; apply int_err; eauto].
    apply int_ok in E. destruct E as (w & tok & -> & Hw & L & He). destruct r as [|c r]; [right; eexists; rewrite app_nil_r; eapply K_int_end; eauto|].
    destruct (Z.eq_dec c 34) as [->|N]; [|right; eexists; eapply K_int_more; eauto].
    left. exists (w ++ tok), (UInt z), r. split; [rewrite <- app_assoc; auto|]. cbn [key_as]. eauto.
  - destruct (char_cases s) as [(c & Hc & ->)|H]; [|right; eexists; eapply K_char; eauto]. left. exists raw, (UChar c), m. split; auto. cbn [key_as]. auto.
  - left. exists raw, (UStr s), m. auto.
  - left. exists raw, (UBytes s), m. auto.
  - destruct (known vs s) as [(i & f & Hf & <-)|Hu]; [|right; eexists; eapply K_unknown; eauto].
    destruct (unit_kind (attr_of f)) as [Hk|Hk]; [|right; eexists; eapply K_data; eauto].
    left. exists raw, (UVar i UUnit), m. split; auto. cbn [key_as]. split; auto. exists (name_of f). split; auto. rewrite nth_error_map, Hf. cbn [option_map]. rewrite Hk. reflexivity.
Qed.

Section Total.
Context (ar : arch) (fl : float_parser) (dec : byte_decoder).
Context (F32 : f32_from_str fl [] = None) (F64 : f64_from_str fl [] = None).
Local Notation reads := (reads_as any_ws (f32_from_str fl) (f64_from_str fl) (byte_literal dec)).
Local Notation takes := (takes (f32_from_str fl) (f64_from_str fl) dec).
Local Notation takes_entry := (takes_entry (f32_from_str fl) (f64_from_str fl) dec).
Local Notation takes_fields := (takes_fields (f32_from_str fl) (f64_from_str fl) dec).
Local Notation js_fault := (js_fault (f32_from_str fl) (f64_from_str fl) dec).
Definition ready (l : bytes) : Prop := all_bytes l /\ fits ar dec (length l).
Lemma ready_tail k l : tail_of k l -> ready l -> ready k.
Proof. intros T [B F]. split; [eapply tail_bytes; eauto|]. eapply fits_mono; [exact F|apply tail_length; auto]. Qed.
Lemma takes_length t v l k : takes t v l k -> (length k < length l)%nat.
Proof. intros (w & d & b & -> & _ & H & _). rewrite !app_length. apply text_length in H. lia. Qed.
Lemma begins_takes t v l c r d b k : begins l c r -> c :: r = b ++ k -> loose_text d b -> reads t v d -> (forall tok, d <> JNum tok) -> takes t v l k.
Proof. intros (w & -> & Hw & _) E Ht Hr N. exists w, d, b. rewrite E. repeat split; auto. destruct d; try exact I. exfalso. eapply N; eauto. Qed.
Lemma takes_vals t v : vals (takes t v) (reads t v).
Proof. intros x y (w & d & b & -> & Hw & Ht & Hr & _). exists w, d, b. auto. Qed.
Lemma entry_mems kt vt e : mems (takes_entry kt vt e) (fun m => key_as any_ws kt (fst e) (fst m) /\ reads vt (snd e) (snd m)).
Proof.
  intros x y (raw & m & r & -> & Hk & (w2 & -> & H2 & _) & (w3 & d & b & -> & H3 & Ht & Hr & _)). exists raw, w2, w3, d, b.
  split; auto. split; [eapply key_loose; eauto|]. repeat split; auto.
Qed.
Lemma Forall2_maps {A B C} (P : B -> C -> Prop) (f : A -> B) (g : A -> C) l : (forall a, P (f a) (g a)) -> Forall2 P (map f l) (map g l).
Proof. intros H. induction l; constructor; auto. Qed.
Lemma Forall2_apply {A D} (R : A -> D -> Prop) l ds : Forall2 (fun (Q : D -> Prop) d => Q d) (map R l) ds -> Forall2 R l ds.
Proof. revert ds. induction l as [|a l IH]; intros ds H; inversion H; subst; constructor; auto. Qed.
Lemma zip_vals {A} (g : A -> ty) l : forall vs, Forall2 vals (zip (fun (p : val -> bytes -> bytes -> Prop) v => p v) (map (fun a => takes (g a)) l) vs)
  (zip (fun (p : val -> jv -> Prop) v => p v) (map (fun a => reads (g a)) l) vs).
Proof. induction l as [|a l IH]; intros [|v vs]; cbn [map zip]; constructor; auto. apply takes_vals. Qed.
Lemma zip_all3 (ps : list (val -> jv -> Prop)) : forall vs ds, length vs = length ps ->
  Forall2 (fun (R : jv -> Prop) d => R d) (zip (fun (p : val -> jv -> Prop) v => p v) ps vs) ds -> all3 (fun p v d => p v d) ps vs ds.
Proof.
  induction ps as [|p ps IH]; intros [|v vs] ds L H; try discriminate; cbn [zip] in H; inversion H; subst; cbn [all3]; auto.
Qed.
Lemma array_takes t v l r ps Rs first k k' : begins l 91 r -> walk 93 true ps r first k -> Forall2 vals ps Rs -> begins k 93 k' ->
  (forall ds, Forall2 (fun (R : jv -> Prop) d => R d) Rs ds -> reads t v (JArr ds)) -> takes t v l k'.
Proof.
  intros Hb Hw Hv (w & -> & Hws & _) H. destruct (walk_arr _ _ Hv _ _ _ _ Hw) as (ds & b & E & Hd & Hr).
  eapply begins_takes; [exact Hb| |eapply (arr_whole ds b w); eauto|apply H; auto|discriminate]. rewrite E. cbn [app]. rewrite <- !app_assoc. reflexivity.
Qed.
Lemma Forall2_len {A B} (P : A -> B -> Prop) l m : Forall2 P l m -> length l = length m.
Proof. induction 1; cbn; auto. Qed.
Lemma zip_len {A B C} (f : A -> B -> C) l : forall m, length l = length m -> length (zip f l m) = length l.
Proof. induction l as [|a l IH]; intros [|b m] L; cbn in *; auto; try discriminate. Qed.

(** ** Structs *)
Lemma fields_obj fs got first l got' first' k : takes_fields fs got first l got' first' k ->
  exists ms b, l = b ++ k /\ obj_part first ms b /\ obj_fields (map name_of fs) (map (fun f => reads (snd f)) fs) got ms got'.
Proof.
  induction 1 as [got first l|got first l i f v raw m r y got' first' k Hi Hg Hf L Hb Ht _ IH|got first l raw s m r y got' first' k Hi L Hs Hb Ht _ IH].
  - exists [], []. split; auto. split; [apply obj_part_nil; constructor|constructor].
  - destruct IH as (ms & b & E & Hp & Ho). destruct Hb as (w2 & -> & H2 & _). destruct Ht as (w3 & d & t & -> & H3 & Ht & Hr & _).
    destruct (member_split first l raw w2 w3 d t y ms b k) as (b' & E' & Hb'); auto; [eapply literal_key; eauto|].
    exists ((raw, d) :: ms), b'. split; auto. split; auto. eapply OF_field; [exact Hg| | |exact L|exact Hr|exact Ho]; rewrite nth_error_map, Hf; reflexivity.
  - destruct IH as (ms & b & E & Hp & Ho). destruct Hb as (w2 & -> & H2 & _). destruct Ht as (w3 & d & t & -> & H3 & Ht & Hr & _).
    destruct (member_split first l raw w2 w3 d t y ms b k) as (b' & E' & Hb'); auto; [eapply literal_key; eauto|].
    exists ((raw, d) :: ms), b'. split; auto. split; auto. eapply OF_unknown; eauto.
Qed.
Definition bad_member (fs : list (bytes * fattr * ty)) (got : list (option val)) (x : bytes) : Prop := forall c q, x = c :: q ->
  c <> 34 \/ (c = 34 /\ ((exists e, text_fault q e) \/ exists raw s m, q = raw ++ 34 :: m /\ literal raw s /\
    ((exists i f v, nth_error fs i = Some f /\ name_of f = s /\ nth_error got i = Some (Some v)) \/
     ((forall i f v, nth_error fs i = Some f -> name_of f = s -> nth_error got i <> Some (Some v)) /\ exists e, colon_fault m e) \/
     (exists i f z e, nth_error fs i = Some f /\ name_of f = s /\ nth_error got i = Some None /\ begins m 58 z /\ js_fault (snd f) z e) \/
     (exists z e, ~ In s (map name_of fs) /\ begins m 58 z /\ skip_fault z e)))).
Lemma struct_cases fs : NoDup (map name_of fs) -> Forall (fun f => forall l, ready l -> (exists v k, takes (snd f) v l k) \/ (exists e, js_fault (snd f) l e)) fs ->
  forall n got first l, (length l < n)%nat -> ready l -> length got = length fs -> exists got' first' k, takes_fields fs got first l got' first' k /\
    ((exists r, begins k 125 r) \/ (exists e, object_gap first' k e) \/ (exists x, item 125 first' k x /\ bad_member fs got' x)).
Proof.
  intros Nd IHf. induction n as [|n IH]; [lia|]. intros got first l L Pl Lg.
  assert (Stop : ((exists r, begins l 125 r) \/ (exists e, object_gap first l e) \/ (exists x, item 125 first l x /\ bad_member fs got x)) ->
    exists got' first' k, takes_fields fs got first l got' first' k /\
    ((exists r, begins k 125 r) \/ (exists e, object_gap first' k e) \/ (exists x, item 125 first' k x /\ bad_member fs got' x))).
  { intros H. exists got, first, l. split; [constructor|auto]. }
  destruct (next_cases 125 JLeadingObjectComma JTrailingObjectComma JExpectedObjectCommaOrEnd first l ltac:(lia)) as [H|[H|(x & Hx)]]; [apply Stop; auto..|].
  pose proof (item_tail _ _ _ _ Hx) as T. pose proof (ready_tail _ _ T Pl) as Px. pose proof (tail_length _ _ T) as Lx.
  assert (X : exists c q, x = c :: q) by (destruct Hx as (c & q & -> & _); eauto). destruct X as (c & q & ->).
  assert (Bad : (forall c' q', c :: q = c' :: q' -> c' = c -> q' = q -> bad_member fs got (c :: q)) -> bad_member fs got (c :: q)) by (intros H; eapply H; eauto).
  destruct (Z.eq_dec c 34) as [->|N]; [|apply Stop; right; right; exists (c :: q); split; auto; intros c' q' [= <- <-]; auto].
  assert (Bq : all_bytes q) by (destruct Px as [Bx _]; inversion Bx; auto).
  destruct (text_cases q Bq) as [(raw & s & m & -> & Ll)|(e & He)]; [|apply Stop; right; right; exists (34 :: q); split; auto; intros c' q' [= <- <-]; right; eauto].
  assert (Bad2 : ((exists i f v, nth_error fs i = Some f /\ name_of f = s /\ nth_error got i = Some (Some v)) \/
     ((forall i f v, nth_error fs i = Some f -> name_of f = s -> nth_error got i <> Some (Some v)) /\ exists e, colon_fault m e) \/
     (exists i f z e, nth_error fs i = Some f /\ name_of f = s /\ nth_error got i = Some None /\ begins m 58 z /\ js_fault (snd f) z e) \/
     (exists z e, ~ In s (map name_of fs) /\ begins m 58 z /\ skip_fault z e)) -> exists x, item 125 first l x /\ bad_member fs got x).
  { intros H. exists (34 :: raw ++ 34 :: m). split; auto. intros c' q' [= <- <-]. right. split; auto. right. exists raw, s, m. auto. }
  assert (Tm : forall z, begins m 58 z -> tail_of z l) by (intros z Hz; eapply tail_trans; [eapply begins_tail1; exact Hz|]; eapply tail_trans; [apply quoted_tail|exact T]).
  assert (Lm : forall z, begins m 58 z -> (length z < length l)%nat).
  { intros z Hz. apply begins_length in Hz. pose proof (tail_length _ _ (quoted_tail raw m)). lia. }
  destruct (known fs s) as [(i & f & Hf & Hn)|Hu].
  - destruct (nth_error got i) as [[v|]|] eqn:Hg.
    + apply Stop. right. right. apply Bad2. left. eauto 6.
    + assert (Free : forall i f v, nth_error fs i = Some f -> name_of f = s -> nth_error got i <> Some (Some v)).
      { intros i' f' v Hf' Hn'. assert (i' = i) as ->; [|congruence]. rewrite NoDup_nth_error in Nd. apply Nd.
        - rewrite map_length. apply nth_error_Some. congruence.
        - rewrite !nth_error_map, Hf, Hf'. cbn. congruence. }
      destruct (colon_cases m) as [(z & Hz)|(e & He)]; [|apply Stop; right; right; apply Bad2; right; left; eauto].
      rewrite Forall_forall in IHf. destruct (IHf f ltac:(eapply nth_error_In; eauto) z (ready_tail _ _ (Tm z Hz) Pl)) as [(v & y & Hv)|(e & He)];
        [|apply Stop; right; right; apply Bad2; right; right; left; exists i, f, z, e; auto].
      assert (Ty : tail_of y l) by (eapply tail_trans; [eapply takes_tail; exact Hv|auto]). specialize (Lm z Hz). pose proof (takes_length _ _ _ _ Hv) as Ly.
      destruct (IH (set_nth got i (Some v)) false y ltac:(lia) (ready_tail _ _ Ty Pl) ltac:(rewrite set_nth_len; auto)) as (got' & first' & k & Hk & HH).
      exists got', first', k. split; auto. subst s. eapply TM_field; eauto.
    + exfalso. apply nth_error_None in Hg. assert (i < length fs)%nat by (apply nth_error_Some; congruence). lia.
  - destruct (colon_cases m) as [(z & Hz)|(e & He)].
    2:{ apply Stop. right. right. apply Bad2. right. left. split; eauto. intros i f v Hf Hn. exfalso. apply Hu. rewrite <- Hn. apply in_map. eapply nth_error_In; eauto. }
    destruct (skip_total z) as [(y & Hy)|(e & He)]; [apply (ready_tail _ _ (Tm z Hz) Pl)| |apply Stop; right; right; apply Bad2; right; right; right; eauto 6].
    assert (Ty : tail_of y l) by (eapply tail_trans; [eapply skips_tail; exact Hy|auto]). specialize (Lm z Hz). pose proof (skips_length _ _ Hy) as Ly.
    destruct (IH got false y ltac:(lia) (ready_tail _ _ Ty Pl) Lg) as (got' & first' & k & Hk & HH).
    exists got', first', k. split; auto. eapply TM_unknown; eauto.
Qed.
Lemma finish_none (fs : list (bytes * fattr * ty)) : forall got, length got = length fs -> finish got (map absent_val fs) = None ->
  exists i f, nth_error fs i = Some f /\ nth_error got i = Some None /\ attr_of f = FPlain /\ (forall t, snd f <> TOption t).
Proof.
  induction fs as [|f fs IH]; intros [|g got] L H; try discriminate. cbn [map finish] in H. cbn [length] in L.
  assert (R : finish got (map absent_val fs) = None -> exists i f0, nth_error (f :: fs) i = Some f0 /\ nth_error (g :: got) i = Some None /\ attr_of f0 = FPlain /\ (forall t, snd f0 <> TOption t)).
  { intros E. destruct (IH got ltac:(lia) E) as (i & f0 & H0). exists (S i), f0. exact H0. }
  destruct g as [v|].
  - destruct (finish got (map absent_val fs)); [discriminate|auto].
  - destruct (absent_val f) as [d|] eqn:Ea.
    + destruct (finish got (map absent_val fs)); [discriminate|auto].
    + exists O, f. split; auto. split; auto. unfold absent_val in Ea. destruct (attr_of f); [|discriminate]. split; auto. intros t E. rewrite E in Ea. discriminate.
Qed.
Lemma plain_split (fs : list (bytes * fattr * ty)) : (exists ds, all2 (fun f v => attr_of f = FDefault v) fs ds) \/
  (exists l1 f l2, fs = l1 ++ f :: l2 /\ Forall (fun f => attr_of f <> FPlain) l1 /\ attr_of f = FPlain).
Proof.
  induction fs as [|f fs IH]; [left; exists []; exact I|]. destruct (attr_of f) as [|d] eqn:E.
  - right. exists [], f, fs. auto.
  - destruct IH as [(ds & H)|(l1 & g & l2 & -> & H1 & H2)]; [left; exists (d :: ds); cbn; auto|right]. exists (f :: l1), g, l2. split; auto. split; auto. constructor; auto. congruence.
Qed.
Lemma all2_len {A B} (P : A -> B -> Prop) l : forall m, all2 P l m -> length l = length m.
Proof. induction l as [|a l IH]; intros [|b m] H; cbn in *; try tauto; auto. destruct H. f_equal. auto. Qed.

(** ** Values *)
Definition total (t : ty) : Prop := forall l, ready l -> (exists v k, takes t v l k) \/ (exists e, js_fault t l e).
Lemma elems_cases {A} (g : A -> ty) l0 : Forall (fun a => total (g a)) l0 -> forall l, ready l ->
    (exists vs first' k, length vs = length l0 /\ walk 93 true (zip (fun (p : val -> bytes -> bytes -> Prop) v => p v) (map (fun a => takes (g a)) l0) vs) l first' k) \/
    (exists l1 a l2 vs first' k, l0 = l1 ++ a :: l2 /\ length vs = length l1 /\
       walk 93 true (zip (fun (p : val -> bytes -> bytes -> Prop) v => p v) (map (fun a => takes (g a)) l1) vs) l first' k /\
       ((exists r, begins k 93 r) \/ (exists e, array_gap first' k e) \/ (exists x, item 93 first' k x /\ exists e, js_fault (g a) x e))).
Proof.
  intros H l Pl.
  destruct (list_cases (fun a => takes (g a)) (fun a x => exists e, js_fault (g a) x e) 93 JLeadingArrayComma JTrailingArrayComma JExpectedArrayCommaOrEnd ready l0 ltac:(lia) ready_tail) with (first := true) (l := l)
    as [(vs & first' & k & Lv & Hw & _)|(l1 & a & l2 & vs & first' & k & E & Lv & Hw & _ & Hk)]; auto.
  - eapply Forall_impl; [|exact H]. intros a Ha x Px. cbv beta in *. destruct (Ha x Px) as [(v & y & Hv)|]; [left|auto]. exists v, y. split; auto. eapply takes_tail; eauto.
  - left. eauto 6.
  - right. exists l1, a, l2, vs, first', k. auto.
Qed.
Lemma tuple_total T ts : T = TTuple \/ T = TTupleStruct -> Forall total ts -> total (T ts).
Proof.
  intros HT IH l Pl. destruct (ws_cases l) as [Hw|(c & r & Hb)]; [right; eexists; apply X_tuple_end; auto|].
  destruct (Z.eq_dec c 91) as [->|N]; [|right; eexists; eapply X_tuple_kind; eauto].
  pose proof (ready_tail _ _ (begins_tail1 _ _ _ Hb) Pl) as Pr.
  destruct (elems_cases (fun t => t) ts IH r Pr) as [(vs & first & k & Lv & Hw)|(l1 & a & l2 & vs & first & k & -> & Lv & Hw & [(k' & Hk)|[(e & He)|(x & Hx & e & He)]])].
  - destruct (ws_cases k) as [Hk|(c & k' & Hk)]; [right; eexists; eapply X_tuple_open; eauto|].
    destruct (Z.eq_dec c 93) as [->|N]; [|right; eexists; eapply X_tuple_many; eauto].
    left. exists (USeq vs), k'. eapply array_takes; [exact Hb|exact Hw|apply zip_vals|exact Hk|].
    intros ds Hd. apply zip_all3 in Hd; [|rewrite map_length; auto]. destruct HT as [-> | ->]; cbn [reads_as]; exists ds; split; auto.
  - right. eexists. eapply X_tuple_few; eauto.
  - right. eexists. eapply X_tuple_gap; eauto.
  - right. eexists. eapply X_tuple_elem; eauto.
Qed.
Lemma struct_total fs : wf (TStruct fs) -> Forall (fun f => total (snd f)) fs -> total (TStruct fs).
Proof.
  intros W IH l Pl. destruct (ws_cases l) as [Hw|(c & r & Hb)]; [right; eexists; apply X_struct_end; auto|].
  pose proof (ready_tail _ _ (begins_tail1 _ _ _ Hb) Pl) as Pr.
  destruct (Z.eq_dec c 91) as [->|N1]; [|destruct (Z.eq_dec c 123) as [->|N2]; [|right; eexists; eapply X_struct_kind; eauto]].
  - destruct (elems_cases snd fs IH r Pr) as [(vs & first & k & Lv & Hw)|(l1 & a & l2 & vs & first & k & -> & Lv & Hw & [(k' & Hk)|[(e & He)|(x & Hx & e & He)]])].
    + destruct (ws_cases k) as [Hk|(c & k' & Hk)]; [right; eexists; eapply X_fields_open; eauto|].
      destruct (Z.eq_dec c 93) as [->|N]; [|right; eexists; eapply X_fields_many; eauto].
      left. exists (USeq vs), k'. eapply array_takes; [exact Hb|exact Hw|apply zip_vals|exact Hk|].
      intros ds Hd. pose proof (Forall2_len _ _ _ Hd) as Ld. rewrite zip_len, map_length in Ld by (rewrite map_length; auto).
      apply zip_all3 in Hd; [|rewrite map_length; auto]. cbn [reads_as]. left. exists ds. split; auto. rewrite <- Ld. split; auto. split; auto.
      rewrite !firstn_all2, !skipn_all2 by (rewrite ?map_length; lia). split; auto. exact I.
    + destruct (plain_split (a :: l2)) as [(dv & Hdv)|(d1 & f & d2 & E & H1 & H2)].
      * left. exists (USeq (vs ++ dv)), k'. eapply array_takes; [exact Hb|exact Hw|apply zip_vals|exact Hk|].
        intros ds Hd. pose proof (Forall2_len _ _ _ Hd) as Ld. rewrite zip_len, map_length in Ld by (rewrite map_length; auto).
        apply zip_all3 in Hd; [|rewrite map_length; auto]. cbn [reads_as]. left. exists ds. split; auto. pose proof (all2_len _ _ _ Hdv) as Lw. rewrite <- Ld.
        split; [rewrite app_length; lia|]. split; [rewrite !app_length; lia|]. rewrite map_app.
        rewrite !firstn_app, !skipn_app. rewrite !map_length, Lv, !Nat.sub_diag. cbn [firstn skipn]. rewrite !app_nil_r.
        rewrite !firstn_all2, !skipn_all2 by (rewrite ?map_length; lia). cbn [app]. auto.
      * right. eexists. rewrite E. eapply X_fields_few; eauto.
    + right. eexists. eapply X_fields_gap; eauto.
    + right. eexists. eapply X_fields_elem; eauto.
  - destruct (fields_wf fs W) as [_ Nd].
    destruct (struct_cases fs Nd IH (S (length r)) (map (fun _ => None) fs) true r ltac:(lia) Pr ltac:(apply map_length)) as (got & first & k & Hw & [(k' & Hk)|[(e & He)|(x & Hx & Hm)]]).
    + pose proof (takes_fields_len _ _ _ _ _ _ _ _ _ Hw) as Lg. rewrite map_length in Lg. destruct (finish got (map absent_val fs)) as [vs|] eqn:E.
      * left. exists (USeq vs), k'. destruct (fields_obj _ _ _ _ _ _ _ Hw) as (ms & b & Er & Hp & Ho). destruct Hk as (w & -> & Hws & _).
        eapply begins_takes; [exact Hb| |eapply (obj_whole ms b w); eauto| |discriminate].
        { rewrite Er. cbn [app]. rewrite <- !app_assoc. reflexivity. }
        cbn [reads_as]. right. exists ms, got. split; auto. split; auto. apply MpSound.finish_sound; auto.
      * right. destruct (finish_none fs got Lg E) as (i & f & H1 & H2 & H3 & H4). eexists. eapply X_field_missing; eauto.
    + right. eexists. eapply X_field_gap; eauto.
    + right. assert (X : exists c q, x = c :: q) by (destruct Hx as (c & q & -> & _); eauto). destruct X as (c & q & ->).
      destruct (Hm c q eq_refl) as [N|[-> [(e & Ht)|(raw & s & m & -> & Ll & [(i & f & v & Hf & <- & Hg)|[(Hn & e & He)|[(i & f & z & e & Hf & <- & Hg & Hz & He)|(z & e & Hu & Hz & He)]]])]]];
        eexists; [eapply X_field_key|eapply X_field_text|eapply X_field_again|eapply X_field_colon|eapply X_field_value|eapply X_field_skip]; eauto.
Qed.
Lemma map_total kt vt : total vt -> total (TMap kt vt).
Proof.
  intros IH l Pl. destruct (ws_cases l) as [Hw|(c & r & Hb)]; [right; eexists; apply X_map_end; auto|].
  destruct (Z.eq_dec c 123) as [->|N]; [|right; eexists; eapply X_map_kind; eauto].
  pose proof (ready_tail _ _ (begins_tail1 _ _ _ Hb) Pl) as Pr.
  destruct (walk_cases (takes_entry kt vt) (fun x => forall c q, x = c :: q -> c <> 34 \/ (c = 34 /\ ((exists e, key_fault kt q e) \/
      (exists raw u m, q = raw ++ 34 :: m /\ key_as any_ws kt u raw /\ ((exists e, colon_fault m e) \/ (exists z e, begins m 58 z /\ js_fault vt z e)))))) 125 JLeadingObjectComma JTrailingObjectComma JExpectedObjectCommaOrEnd
      ready ltac:(lia) ready_tail) with (n := S (length r)) (first := true) (l := r) as (s & first & k & Hw & Tk & Hk); auto.
  - intros x Px. destruct x as [|c q]; [right; intros; discriminate|]. destruct (Z.eq_dec c 34) as [->|N]; [|right; intros c' q' [= <- <-]; auto].
    assert (Bq : all_bytes q) by (destruct Px as [Bx _]; inversion Bx; auto).
    destruct (key_cases kt q Bq) as [(raw & u & m & -> & Hk)|(e & He)]; [|right; intros c' q' [= <- <-]; right; eauto].
    destruct (colon_cases m) as [(z & Hz)|(e & He)]; [|right; intros c' q' [= <- <-]; right; split; auto; right; exists raw, u, m; eauto].
    assert (Tz : tail_of z (34 :: raw ++ 34 :: m)) by (eapply tail_trans; [eapply begins_tail1; exact Hz|apply quoted_tail]).
    destruct (IH z (ready_tail _ _ Tz Px)) as [(v & y & Hy)|(e & He)]; [|right; intros c' q' [= <- <-]; right; split; auto; right; exists raw, u, m; eauto 8].
    left. assert (M : takes_entry kt vt (u, v) (34 :: raw ++ 34 :: m) y) by (exists raw, m, z; auto). exists (u, v), y. split; auto. split; [eapply takes_entry_tail; eauto|].
    apply takes_length in Hy. apply tail_length in Tz. lia.
  - destruct Hk as [(k' & Hk)|[(e & He)|(x & Hx & He)]]; [left|right; eexists; eapply X_map_gap; eauto|right].
    + exists (UMap s), k'. destruct (walk_obj _ _ (Forall2_maps mems _ _ s (entry_mems kt vt)) _ _ _ _ Hw) as (ms & b & E & Hd & Hs). destruct Hk as (w & -> & Hws & _).
      eapply begins_takes; [exact Hb| |eapply (obj_whole ms b w); eauto| |discriminate].
      { rewrite E. cbn [app]. rewrite <- !app_assoc. reflexivity. }
      cbn [reads_as]. exists ms. split; auto. apply Forall2_apply in Hs. exact Hs.
    + assert (X : exists c q, x = c :: q) by (destruct Hx as (c & q & -> & _); eauto). destruct X as (c & q & ->).
      destruct (He c q eq_refl) as [N|[-> [(e & Ht)|(raw & s0 & m & -> & Ll & [(e & Hc)|(z & e & Hz & Hs)])]]];
        eexists; [eapply X_map_key|eapply X_map_text|eapply X_map_colon|eapply X_map_value]; eauto.
Qed.
Lemma enum_total vs : Forall (fun f => total (snd f)) vs -> total (TEnum vs).
Proof.
  intros IH l Pl. destruct (ws_cases l) as [Hw|(c & r & Hb)]; [right; eexists; apply X_enum_end; auto|].
  pose proof (ready_tail _ _ (begins_tail1 _ _ _ Hb) Pl) as Pr.
  destruct (Z.eq_dec c 34) as [->|N1]; [|destruct (Z.eq_dec c 123) as [->|N2]; [|right; eexists; eapply X_enum_kind; eauto]].
  - destruct (text_cases r (proj1 Pr)) as [(raw & s & k & -> & L)|(e & He)]; [|right; eexists; eapply X_name_text; eauto].
    destruct (known vs s) as [(i & f & Hf & <-)|Hu]; [|right; eexists; eapply X_name_unknown; eauto].
    destruct (unit_kind (attr_of f)) as [Hk|Hk]; [|right; eexists; eapply X_name_data; eauto].
    left. exists (UVar i UUnit), k. eapply (begins_takes _ _ _ _ _ (JStr raw) (34 :: raw ++ [34])); [exact Hb| | | |discriminate].
    + cbn [app]. rewrite <- app_assoc. reflexivity.
    + apply T_str. split; auto. eapply literal_span; eauto.
    + cbn [reads_as]. rewrite nth_error_map, Hf. cbn [option_map]. rewrite Hk. split; auto. eauto.
  - destruct (ws_cases r) as [Hw|(c & q & Hq)]; [right; eexists; eapply X_variant_end; eauto|].
    destruct (Z.eq_dec c 34) as [->|N]; [|right; eexists; eapply X_variant_kind; eauto].
    pose proof (ready_tail _ _ (begins_tail1 _ _ _ Hq) Pr) as Pq.
    destruct (text_cases q (proj1 Pq)) as [(raw & s & m & -> & L)|(e & He)]; [|right; eexists; eapply X_variant_text; eauto].
    destruct (known vs s) as [(i & f & Hf & <-)|Hu]; [|right; eexists; eapply X_variant_unknown; eauto].
    destruct (colon_cases m) as [(x & Hx)|(e & He)]; [|right; eexists; eapply X_variant_colon; eauto].
    destruct (unit_kind (attr_of f)) as [Hk|Hk]; [right; eexists; eapply X_variant_unit; eauto|].
    assert (Tx : tail_of x (raw ++ 34 :: m)) by (eapply tail_trans; [eapply begins_tail1; exact Hx|]; eapply tail_trans; [apply tail_cons|apply tail_app]).
    rewrite Forall_forall in IH. destruct (IH f ltac:(eapply nth_error_In; eauto) x (ready_tail _ _ Tx Pq)) as [(v & y & Hv)|(e & He)]; [|right; eexists; eapply X_variant_content; eauto].
    destruct (ws_cases y) as [Hy|(c & z & Hy)]; [right; eexists; eapply X_variant_open; eauto|].
    destruct (Z.eq_dec c 125) as [->|N]; [|right; eexists; eapply X_variant_more; eauto].
    left. exists (UVar i v), z. destruct Hq as (w1 & -> & H1 & _), Hx as (w2 & -> & H2 & _), Hv as (w3 & d & b & -> & H3 & Ht & Hr & _), Hy as (w4 & -> & H4 & _).
    pose proof (obj_part_cons true [] w1 w2 w3 raw (34 :: raw ++ [34]) d b [] [] ltac:(constructor) H1 (literal_key _ _ L) H2 H3 Ht (obj_part_nil false [] ltac:(constructor))) as Hp.
    eapply begins_takes; [exact Hb| |apply (obj_whole [(raw, d)] _ w4 Hp H4)| |discriminate].
    + repeat (cbn [app]; rewrite <- ?app_assoc). reflexivity.
    + cbn [reads_as]. rewrite nth_error_map, Hf. cbn [option_map]. destruct (attr_of f); [congruence|exists raw, d; auto..].
Qed.
Lemma string_cases l : ready l -> (exists raw s k, l = raw ++ 34 :: k /\ byte_literal dec raw s /\ quoted_span raw) \/ (exists e, string_fault dec l e).
Proof.
  intros [B F]. destruct (p_bytes_str ar dec l) as [[s k]|e] eqn:E; [left|right; exists e; eapply string_err; eauto].
  destruct (psound_bytes_str ar dec l s k B F E) as (bs & -> & raw & -> & H1 & H2). exists raw, s, k. rewrite <- app_assoc. auto.
Qed.
Lemma array_cases l : ready l -> (exists s toks b k, l = b ++ 93 :: k /\ arr_rest true (map JNum toks) b /\ Forall2 (int_lit U8) s toks) \/ (exists e, array_fault l e).
Proof.
  intros [B F]. destruct (p_array l) as [[s k]|e] eqn:E; [left|right; exists e; eapply array_err; eauto].
  destruct (psound_array ar dec l s k B F E) as (bs & -> & toks & b & -> & H1 & H2). exists s, toks, b, k. rewrite <- app_assoc. auto.
Qed.
Lemma null_cases l : (exists w k, l = w ++ [110; 117; 108; 108] ++ k /\ any_ws w) \/ (exists e, null_fault l e).
Proof.
  destruct (ws_cases l) as [Hw|(c & r & Hb)]; [right; eexists; apply NF_end; auto|]. destruct (Z.eq_dec c 110) as [->|N]; [|right; eexists; eapply NF_kind; eauto].
  destruct (word_cases ull r) as [(k & ->)|(e & He)]; [|right; eexists; eapply NF_null; eauto]. left. destruct Hb as (w & -> & Hw & _). exists w, k. auto.
Qed.
Theorem takes_or_fault t : wf t -> total t.
Proof.
  induction t as [|k0| | | | | | | |t IH|t IH|t IH|ts IH|ts IH|kt vt IHk IHv|fs IH|vs IH] using ty_ind'; intros W.
  all: try (intros l Pl).
  - destruct (bool_cases l) as [(w & b & k & -> & Hw)|(e & He)]; [left|right; eexists; apply X_bool; eauto]. exists (UBool b), k, w, (JBool b), (if b then 116 :: rue else 102 :: alse).
    split; auto. split; auto. split; [destruct b; [apply T_true|apply T_false]|]. split; [reflexivity|exact I].
  - destruct (p_int k0 l) as [[z k]|e] eqn:E; [left|right; eexists; apply X_int; apply int_err; eauto]. apply int_ok in E. destruct E as (w & tok & -> & Hw & L & He).
    exists (UInt z), k, w, (JNum tok), tok. split; auto. split; auto. split; [apply T_num; eapply int_lit_run; eauto|]. split; [cbn; eauto|exact He].
  - destruct (p_float (f32_from_str fl) l) as [[o k]|e] eqn:E; [left|right; eexists; apply X_f32; apply float_err; eauto].
    apply float_ok in E; auto. destruct E as (w & d & b & -> & Hw & Ht & [(x & -> & -> & Hx & Hc)|[-> ->]]).
    + exists (UF32 x), k, w, (JNum b), b. repeat split; auto. cbn [reads_as]. left. eauto.
    + exists (UF32 0x7fc00000), k, w, JNull, b. repeat split; auto. cbn [reads_as]. right. auto.
  - destruct (p_float (f64_from_str fl) l) as [[o k]|e] eqn:E; [left|right; eexists; apply X_f64; apply float_err; eauto].
    apply float_ok in E; auto. destruct E as (w & d & b & -> & Hw & Ht & [(x & -> & -> & Hx & Hc)|[-> ->]]).
    + exists (UF64 x), k, w, (JNum b), b. repeat split; auto. cbn [reads_as]. left. eauto.
    + exists (UF64 0x7ff8000000000000), k, w, JNull, b. repeat split; auto. cbn [reads_as]. right. auto.
  - destruct (ws_cases l) as [Hw|(c & r & Hb)]; [right; eexists; apply X_text_end; auto|]. destruct (Z.eq_dec c 34) as [->|N]; [|right; eexists; eapply X_text_kind; eauto].
    pose proof (ready_tail _ _ (begins_tail1 _ _ _ Hb) Pl) as Pr. destruct (text_cases r (proj1 Pr)) as [(raw & s & k & -> & L)|(e & He)]; [|right; eexists; eapply X_text; eauto].
    destruct (char_cases s) as [(c & Hc & ->)|H]; [|right; eexists; eapply X_char; eauto].
    left. exists (UChar c), k. eapply (begins_takes _ _ _ _ _ (JStr raw) (34 :: raw ++ [34])); [exact Hb| | | |discriminate].
    + cbn [app]. rewrite <- app_assoc. reflexivity.
    + apply T_str. split; auto. eapply literal_span; eauto.
    + cbn [reads_as]. eauto.
  - destruct (ws_cases l) as [Hw|(c & r & Hb)]; [right; eexists; apply X_text_end; auto|]. destruct (Z.eq_dec c 34) as [->|N]; [|right; eexists; eapply X_text_kind; eauto].
    pose proof (ready_tail _ _ (begins_tail1 _ _ _ Hb) Pl) as Pr. destruct (text_cases r (proj1 Pr)) as [(raw & s & k & -> & L)|(e & He)]; [|right; eexists; eapply X_text; eauto].
    left. exists (UStr s), k. eapply (begins_takes _ _ _ _ _ (JStr raw) (34 :: raw ++ [34])); [exact Hb| | | |discriminate].
    + cbn [app]. rewrite <- app_assoc. reflexivity.
    + apply T_str. split; auto. eapply literal_span; eauto.
    + cbn [reads_as]. eauto.
  - destruct (ws_cases l) as [Hw|(c & r & Hb)]; [right; eexists; apply X_bytes_end; auto|]. pose proof (ready_tail _ _ (begins_tail1 _ _ _ Hb) Pl) as Pr.
    destruct (Z.eq_dec c 34) as [->|N1]; [|destruct (Z.eq_dec c 91) as [->|N2]; [|right; eexists; eapply X_bytes_kind; eauto]].
    + destruct (string_cases r Pr) as [(raw & s & k & -> & L & Q)|(e & He)]; [|right; eexists; eapply X_bytes_string; eauto].
      left. exists (UBytes s), k. eapply (begins_takes _ _ _ _ _ (JStr raw) (34 :: raw ++ [34])); [exact Hb| | | |discriminate].
      * cbn [app]. rewrite <- app_assoc. reflexivity.
      * apply T_str. split; auto.
      * cbn [reads_as]. left. eauto.
    + destruct (array_cases r Pr) as [(s & toks & b & k & -> & L & Q)|(e & He)]; [|right; eexists; eapply X_bytes_array; eauto].
      left. exists (UBytes s), k. eapply (begins_takes _ _ _ _ _ (JArr (map JNum toks)) (91 :: b ++ [93])); [exact Hb| | | |discriminate].
      * cbn [app]. rewrite <- app_assoc. reflexivity.
      * destruct L as [[-> Hw]|He]; [apply T_arr0|apply T_arr]; auto.
      * cbn [reads_as]. right. eauto.
  - destruct (null_cases l) as [(w & k & -> & Hw)|(e & He)]; [left|right; eexists; apply X_unit; eauto]. exists UUnit, k, w, JNull, [110; 117; 108; 108]. repeat split; auto. apply T_null.
  - destruct (null_cases l) as [(w & k & -> & Hw)|(e & He)]; [left|right; eexists; apply X_unit; eauto]. exists UUnit, k, w, JNull, [110; 117; 108; 108]. repeat split; auto. apply T_null.
  - destruct (ws_cases l) as [Hw|(c & r & Hb)]; [right; eexists; apply X_option_end; auto|]. destruct (Z.eq_dec c 110) as [->|N].
    + destruct (word_cases ull r) as [(k & ->)|(e & He)]; [|right; eexists; eapply X_option_null; eauto]. left. exists UNone, k.
      eapply (begins_takes _ _ _ _ _ JNull [110; 117; 108; 108]); [exact Hb|reflexivity|apply T_null|reflexivity|discriminate].
    + destruct (IH W (c :: r) (ready_tail _ _ (begins_tail _ _ _ Hb) Pl)) as [(v & k & w & d & b & E & Hw & Ht & Hr & He)|(e & He)]; [|right; eexists; eapply X_option; eauto].
      left. exists (USome v), k. destruct Hb as (w0 & -> & H0 & Hc). destruct Hw as [|c' w Hc' Hw]; [|exfalso; apply Hc; injection E as <- _; exact Hc'].
      exists w0, d, b. cbn [app] in E. rewrite E. split; auto. split; auto. split; auto. split; [|destruct d; exact He].
      cbn [reads_as]. split; auto. intros ->. inversion Ht; subst. injection E as E _. congruence.
  - destruct (IH W l Pl) as [(v & k & w & d & b & E & Hw & Ht & Hr & He)|(e & He)]; [left|right; eexists; apply X_newtype; eauto].
    exists v, k, w, d, b. repeat split; auto.
  - destruct (ws_cases l) as [Hw|(c & r & Hb)]; [right; eexists; apply X_seq_end; auto|].
    destruct (Z.eq_dec c 91) as [->|N]; [|right; eexists; eapply X_seq_kind; eauto]. pose proof (ready_tail _ _ (begins_tail1 _ _ _ Hb) Pl) as Pr.
    destruct (walk_cases (takes t) (fun x => exists e, js_fault t x e) 93 JLeadingArrayComma JTrailingArrayComma JExpectedArrayCommaOrEnd
      ready ltac:(lia) ready_tail) with (n := S (length r)) (first := true) (l := r) as (s & first & k & Hw & Tk & [(k' & Hk)|[(e & He)|(x & Hx & e & He)]]); auto.
    + intros x Px. destruct (IH W x Px) as [(v & y & Hy)|H]; [left|right; auto]. exists v, y. split; auto. split; [eapply takes_tail; eauto|eapply takes_length; eauto].
    + left. exists (USeq s), k'. eapply array_takes; [exact Hb|exact Hw|apply (Forall2_maps vals _ (reads t)); intros a; apply takes_vals|exact Hk|].
      intros ds Hd. cbn [reads_as]. exists ds. split; auto. apply Forall2_apply in Hd. exact Hd.
    + right. eexists. eapply X_seq_gap; eauto.
    + right. eexists. eapply X_seq_elem; eauto.
  - apply (tuple_total TTuple ts); auto. destruct W as [W _]. apply all_list_Forall in W. rewrite Forall_forall in *. auto.
  - apply (tuple_total TTupleStruct ts); auto. destruct W as [W _]. apply all_list_Forall in W. rewrite Forall_forall in *. auto.
  - destruct W as [_ W]. apply map_total; auto. 
  - apply struct_total; auto. destruct (fields_wf _ W) as [Wf _]. rewrite Forall_forall in *. auto.
  - apply enum_total; auto. destruct W as [_ W]. apply all_list_Forall in W. rewrite Forall_forall in *. intros f Hf. apply IH; auto. apply W; auto.
Qed.
End Total.

(** Each text stands for one document, and none is a beginning of another (C56). *)
From Verif Require Import Prelude PreludeFacts Utf8Spec SerdeSer SerdeDe MpSpec Base64Spec JsonSpec JsonTypeSpec JsonFacts JsonSer JsonErrMap JsonSerFacts JsonDe
  Types TypesFacts MpTypeSpec JsonTypedTop JsonTypedSer JsonAnySpec JsonAny JsonSound JsonSoundTop.

Definition num_char (c : Z) : Prop := is_digit c \/ c = 43 \/ c = 45 \/ c = 46 \/ c = 101 \/ c = 69.
Definition starts (P : Z -> Prop) (l : bytes) : Prop := match l with [] => True | c :: _ => P c end.

(** ** Runs of characters of a class *)
Lemma run_split (P : Z -> Prop) a b x y : Forall P a -> Forall P b ->
  starts (fun c => ~ P c) x -> starts (fun c => ~ P c) y -> a ++ x = b ++ y -> a = b /\ x = y.
Proof.
  revert b. induction a as [|c a IH]; intros [|d b] Ha Hb Hx Hy E; cbn in E.
  - auto.
  - subst x. inversion Hb; subst. contradiction.
  - subst y. inversion Ha; subst. contradiction.
  - injection E as -> E. inversion Ha; inversion Hb; subst. destruct (IH b) as [-> ->]; auto.
Qed.

(** ** Literals *)
Lemma span_split a b x y : quoted_span a -> quoted_span b -> a ++ 34 :: x = b ++ 34 :: y -> a = b /\ x = y.
Proof.
  intros Ha. revert b. induction Ha as [|c a Hc Ha IH|e a He Ha IH]; intros b Hb E; inversion Hb as [|d b' Hd Hb'|f b' Hf Hb']; subst; cbn in E.
  - injection E as <-. auto.
  - injection E as E _. unfold plain_byte in Hd. lia.
  - discriminate.
  - injection E as E _. unfold plain_byte in Hc. lia.
  - injection E as -> E. destruct (IH _ Hb' E) as [-> ->]. auto.
  - injection E as -> _. unfold plain_byte in Hc. lia.
  - discriminate.
  - injection E as <- _. unfold plain_byte in Hd. lia.
  - injection E as -> E. destruct (IH _ Hb' E) as [-> ->]. auto.
Qed.
Lemma span_no_ws a : quoted_span a -> forall x, exists w r, a = w ++ r /\ any_ws w /\ quoted_span r /\ starts (fun c => ~ is_ws c) (r ++ 34 :: x).
Proof.
  induction 1 as [|c a Hc Ha IH|e a He Ha IH]; intros x.
  - exists [], []. repeat split; [constructor|constructor|]. cbn. unfold is_ws. lia.
  - destruct (Z.eq_dec c 32) as [->|N].
    + destruct (IH x) as (w & r & -> & W & R & S). exists (32 :: w), r. repeat split; auto. constructor; auto. unfold is_ws. auto.
    + exists [], (c :: a). repeat split; [constructor|constructor; auto|]. cbn. unfold is_ws, plain_byte in *. lia.
  - exists [], (92 :: e :: a). split; [auto|]. split; [constructor|]. split; [apply Q_esc; auto|]. cbn. unfold is_ws. lia.
Qed.
Lemma loose_span raw w r : raw = w ++ r -> any_ws w -> quoted_span r -> forall x,
  exists w' r', raw = w' ++ r' /\ any_ws w' /\ quoted_span r' /\ starts (fun c => ~ is_ws c) (r' ++ 34 :: x).
Proof.
  intros -> W R x. destruct (span_no_ws r R x) as (w' & r' & -> & W' & R' & S). exists (w ++ w'), r'.
  rewrite app_assoc. repeat split; auto. apply Forall_app. auto.
Qed.
Lemma key_split k1 t1 k2 t2 x y : loose_key k1 t1 -> loose_key k2 t2 -> t1 ++ x = t2 ++ y -> k1 = k2 /\ t1 = t2 /\ x = y.
Proof.
  intros [-> (w1 & r1 & E1 & W1 & R1)] [-> (w2 & r2 & E2 & W2 & R2)] E. cbn in E. injection E as E. rewrite <- !app_assoc in E. cbn in E.
  destruct (loose_span _ _ _ E1 W1 R1 x) as (u1 & s1 & F1 & U1 & S1 & N1).
  destruct (loose_span _ _ _ E2 W2 R2 y) as (u2 & s2 & F2 & U2 & S2 & N2).
  clear E1 E2 W1 W2 R1 R2. subst k1 k2. rewrite <- !app_assoc in E.
  destruct (run_split is_ws _ _ _ _ U1 U2 N1 N2 E) as [-> E']. destruct (span_split _ _ _ _ S1 S2 E') as [-> ->]. auto.
Qed.
Lemma quoted_split s1 t1 s2 t2 x y : quoted s1 t1 -> quoted s2 t2 -> t1 ++ x = t2 ++ y -> s1 = s2 /\ t1 = t2 /\ x = y.
Proof.
  intros [-> R1] [-> R2] E. cbn in E. injection E as E. rewrite <- !app_assoc in E. cbn in E.
  destruct (span_split _ _ _ _ R1 R2 E) as [-> ->]. auto.
Qed.

(** ** Texts *)
(** The first character of a text tells its kind. *)
Definition head_of (d : jv) (c : Z) : Prop :=
  match d with
  | JNull => c = 110 | JBool true => c = 116 | JBool false => c = 102 | JNum _ => num_char c
  | JStr _ => c = 34 | JArr _ => c = 91 | JObj _ => c = 123
  end.
Lemma text_head d t : loose_text d t -> exists c r, t = c :: r /\ head_of d c.
Proof.
  intros T. inversion T as [| | |tok H|s t0 [-> _]| | | |]; subst; try (do 2 eexists; split; [reflexivity|cbn; reflexivity]).
  destruct H as [Ne F]. destruct t as [|c r]; [contradiction|]. inversion F; subst. exists c, r. split; auto.
Qed.
Lemma head_not_ws d c : head_of d c -> ~ is_ws c.
Proof. destruct d as [|[]| | | |]; cbn; unfold is_ws, num_char, is_digit; lia. Qed.
Lemma text_no_ws d t x : loose_text d t -> starts (fun c => ~ is_ws c) (t ++ x).
Proof. intros T. destruct (text_head d t T) as (c & r & -> & H). cbn. eapply head_not_ws; eauto. Qed.

Local Notation text := (jtext any_ws quoted loose_key number_run).
Local Notation elems := (elements any_ws quoted loose_key number_run).
Local Notation mems := (members any_ws quoted loose_key number_run).
Definition stops (d : jv) (k : bytes) : Prop := match d with JNum _ => starts (fun c => ~ num_char c) k | _ => True end.
Lemma stops_ws d w c k : any_ws w -> c = 44 \/ c = 93 \/ c = 125 -> stops d (w ++ c :: k).
Proof.
  intros W C. destruct d; cbn; auto. destruct W as [|b w Hb _]; cbn.
  - unfold num_char, is_digit. lia.
  - unfold is_ws, num_char, is_digit in *. lia.
Qed.
Lemma ws_tail w1 w2 c1 c2 x y : any_ws w1 -> any_ws w2 -> ~ is_ws c1 -> ~ is_ws c2 ->
  w1 ++ c1 :: x = w2 ++ c2 :: y -> w1 = w2 /\ c1 = c2 /\ x = y.
Proof.
  intros W1 W2 N1 N2 E. destruct (run_split is_ws w1 w2 (c1 :: x) (c2 :: y)) as [-> F]; auto. injection F as -> ->. auto.
Qed.

Lemma stops_end d w : any_ws w -> stops d w.
Proof. intros W. destruct d; cbn; auto. destruct W as [|c w C W]; cbn; auto. unfold is_ws in C. unfold num_char, is_digit. lia. Qed.
Definition Ptext (d : jv) (t : bytes) : Prop := forall d' t' x y, text d' t' -> t ++ x = t' ++ y -> stops d x -> stops d' y ->
  d = d' /\ t = t' /\ x = y.
Definition Pelems (l : list jv) (b : bytes) : Prop := forall l' b' x y, elems l' b' -> b ++ 93 :: x = b' ++ 93 :: y ->
  l = l' /\ b = b' /\ x = y.
Definition Pmems (l : list (bytes * jv)) (b : bytes) : Prop := forall l' b' x y, mems l' b' -> b ++ 125 :: x = b' ++ 125 :: y ->
  l = l' /\ b = b' /\ x = y.

Definition same_kind (d d' : jv) : Prop :=
  match d, d' with
  | JNull, JNull | JNum _, JNum _ | JStr _, JStr _ | JArr _, JArr _ | JObj _, JObj _ => True
  | JBool b, JBool b' => b = b'
  | _, _ => False
  end.
Lemma text_kind d t d' t' x y : text d t -> text d' t' -> t ++ x = t' ++ y -> same_kind d d'.
Proof.
  intros T T' E. destruct (text_head _ _ T) as (c & r & -> & H). destruct (text_head _ _ T') as (c' & r' & -> & H').
  cbn in E. injection E as <- _. destruct d as [|[]| | | |], d' as [|[]| | | |]; cbn in *; auto; unfold num_char, is_digit in *; lia.
Qed.

Lemma head_not_end d c : head_of d c -> c <> 93.
Proof. destruct d as [|[]| | | |]; cbn; unfold num_char, is_digit; lia. Qed.
Lemma elems_head l b x : elems l b -> exists w c r, b ++ x = w ++ c :: r /\ any_ws w /\ ~ is_ws c /\ c <> 93.
Proof.
  intros H. inversion H as [v b0 w1 w2 W1 T W2|v b0 l0 r0 w1 w2 W1 T W2 X]; subst;
    destruct (text_head _ _ T) as (c & r & -> & Hd); rewrite <- !app_assoc; cbn;
    (do 3 eexists; split; [reflexivity|]; split; [auto|]; split; [eapply head_not_ws; eauto|eapply head_not_end; eauto]).
Qed.
Lemma mems_head l b x : mems l b -> exists w c r, b ++ x = w ++ c :: r /\ any_ws w /\ ~ is_ws c /\ c <> 125.
Proof.
  intros H. inversion H; subst;
    match goal with K : loose_key _ _ |- _ => destruct K as [-> _] end; rewrite <- !app_assoc; cbn;
    (do 3 eexists; split; [reflexivity|]; split; [auto|]); unfold is_ws; lia.
Qed.

(** ** Inversions *)
Lemma inv_null t : text JNull t -> t = [110; 117; 108; 108].
Proof. intros T. inversion T. auto. Qed.
Lemma inv_bool b t : text (JBool b) t -> t = if b then [116; 114; 117; 101] else [102; 97; 108; 115; 101].
Proof. intros T. inversion T; auto. Qed.
Lemma inv_num tok t : text (JNum tok) t -> t = tok /\ number_run tok.
Proof. intros T. inversion T; subst; auto. Qed.
Lemma inv_str s t : text (JStr s) t -> quoted s t.
Proof. intros T. inversion T; subst; auto. Qed.
Lemma inv_arr l t : text (JArr l) t -> exists b, t = 91 :: b ++ [93] /\ (l = [] /\ any_ws b \/ elems l b).
Proof. intros T. inversion T; subst; eauto. Qed.
Lemma inv_obj l t : text (JObj l) t -> exists b, t = 123 :: b ++ [125] /\ (l = [] /\ any_ws b \/ mems l b).
Proof. intros T. inversion T; subst; eauto. Qed.
(** What follows an element: the end, or a comma and more. *)
Lemma inv_elems l b : elems l b -> exists w1 v t w2, any_ws w1 /\ text v t /\ any_ws w2 /\
  (l = [v] /\ b = w1 ++ t ++ w2 \/ exists l' r, l = v :: l' /\ b = w1 ++ t ++ w2 ++ 44 :: r /\ elems l' r).
Proof.
  intros H. inversion H as [v t w1 w2 W1 T W2|v t l' r w1 w2 W1 T W2 X]; subst; exists w1, v, t, w2; do 3 (split; [assumption|]); eauto 8.
Qed.
Lemma inv_mems l b : mems l b -> exists w1 k kt w2 w3 v t w4, any_ws w1 /\ loose_key k kt /\ any_ws w2 /\ any_ws w3 /\ text v t /\ any_ws w4 /\
  (l = [(k, v)] /\ b = w1 ++ kt ++ w2 ++ 58 :: w3 ++ t ++ w4 \/
   exists l' r, l = (k, v) :: l' /\ b = w1 ++ kt ++ w2 ++ 58 :: w3 ++ t ++ w4 ++ 44 :: r /\ mems l' r).
Proof.
  intros H. inversion H as [k kt v t w1 w2 w3 w4 W1 K W2 W3 T W4|k kt v t l' r w1 w2 w3 w4 W1 K W2 W3 T W4 X]; subst;
    exists w1, k, kt, w2, w3, v, t, w4; do 6 (split; [assumption|]); eauto 8.
Qed.

Ltac flat E := repeat (progress (rewrite <- ?app_assoc in E; cbn [app] in E)).
Lemma not_ws c : c = 44 \/ c = 93 \/ c = 125 \/ c = 58 -> ~ is_ws c.
Proof. unfold is_ws. lia. Qed.

Lemma arr_case l b d' t' x y : (l = [] /\ any_ws b \/ elems l b /\ Pelems l b) -> text (JArr l) (91 :: b ++ [93]) -> text d' t' ->
  (91 :: b ++ [93]) ++ x = t' ++ y -> JArr l = d' /\ 91 :: b ++ [93] = t' /\ x = y.
Proof.
  intros H T T' E. pose proof (text_kind _ _ _ _ _ _ T T' E) as K. destruct d'; cbn in K; try contradiction.
  destruct (inv_arr _ _ T') as (b' & -> & H'). cbn in E. injection E as E. flat E.
  destruct H as [[-> W]|[X IH]], H' as [[-> W']|X'].
  - destruct (ws_tail b b' 93 93 x y) as (-> & _ & ->); auto using not_ws.
  - destruct (elems_head _ _ (93 :: y) X') as (w' & c & r & F & W' & N & M). rewrite F in E.
    destruct (ws_tail b w' 93 c x r) as (_ & C & _); auto using not_ws. congruence.
  - destruct (elems_head _ _ (93 :: x) X) as (w' & c & r & F & W & N & M). rewrite F in E.
    destruct (ws_tail w' b' c 93 r y) as (_ & C & _); auto using not_ws. congruence.
  - destruct (IH _ _ _ _ X' E) as (-> & -> & ->). auto.
Qed.
Lemma obj_case l b d' t' x y : (l = [] /\ any_ws b \/ mems l b /\ Pmems l b) -> text (JObj l) (123 :: b ++ [125]) -> text d' t' ->
  (123 :: b ++ [125]) ++ x = t' ++ y -> JObj l = d' /\ 123 :: b ++ [125] = t' /\ x = y.
Proof.
  intros H T T' E. pose proof (text_kind _ _ _ _ _ _ T T' E) as K. destruct d'; cbn in K; try contradiction.
  destruct (inv_obj _ _ T') as (b' & -> & H'). cbn in E. injection E as E. flat E.
  destruct H as [[-> W]|[X IH]], H' as [[-> W']|X'].
  - destruct (ws_tail b b' 125 125 x y) as (-> & _ & ->); auto using not_ws.
  - destruct (mems_head _ _ (125 :: y) X') as (w' & c & r & F & W' & N & M). rewrite F in E.
    destruct (ws_tail b w' 125 c x r) as (_ & C & _); auto using not_ws. congruence.
  - destruct (mems_head _ _ (125 :: x) X) as (w' & c & r & F & W & N & M). rewrite F in E.
    destruct (ws_tail w' b' c 125 r y) as (_ & C & _); auto using not_ws. congruence.
  - destruct (IH _ _ _ _ X' E) as (-> & -> & ->). auto.
Qed.

(** One element and the rest, which begins with [c] after whitespace. *)
Lemma elem_split v t w1 w2 c x v' t' w1' w2' c' y : Ptext v t -> text v t -> text v' t' ->
  any_ws w1 -> any_ws w2 -> any_ws w1' -> any_ws w2' -> c = 44 \/ c = 93 \/ c = 125 -> c' = 44 \/ c' = 93 \/ c' = 125 ->
  w1 ++ t ++ w2 ++ c :: x = w1' ++ t' ++ w2' ++ c' :: y -> w1 = w1' /\ v = v' /\ t = t' /\ w2 = w2' /\ c = c' /\ x = y.
Proof.
  intros P T T' W1 W2 W1' W2' C C' E.
  destruct (run_split is_ws w1 w1' _ _ W1 W1' (text_no_ws _ _ _ T) (text_no_ws _ _ _ T') E) as [-> E1].
  destruct (P _ _ _ _ T' E1) as (-> & -> & E2); [apply stops_ws; auto|apply stops_ws; auto|].
  destruct (ws_tail w2 w2' c c' x y) as (-> & -> & ->); auto 10; apply not_ws; tauto.
Qed.
Lemma key_no_ws k kt x : loose_key k kt -> starts (fun c => ~ is_ws c) (kt ++ x).
Proof. intros [-> _]. cbn. unfold is_ws. lia. Qed.
Lemma member_split k kt v t w1 w2 w3 w4 c x k' kt' v' t' w1' w2' w3' w4' c' y : Ptext v t -> text v t -> text v' t' ->
  loose_key k kt -> loose_key k' kt' ->
  any_ws w1 -> any_ws w2 -> any_ws w3 -> any_ws w4 -> any_ws w1' -> any_ws w2' -> any_ws w3' -> any_ws w4' ->
  c = 44 \/ c = 93 \/ c = 125 -> c' = 44 \/ c' = 93 \/ c' = 125 ->
  w1 ++ kt ++ w2 ++ 58 :: w3 ++ t ++ w4 ++ c :: x = w1' ++ kt' ++ w2' ++ 58 :: w3' ++ t' ++ w4' ++ c' :: y ->
  (w1 = w1' /\ k = k' /\ kt = kt' /\ w2 = w2' /\ w3 = w3') /\ v = v' /\ t = t' /\ w4 = w4' /\ c = c' /\ x = y.
Proof.
  intros P T T' K K' W1 W2 W3 W4 W1' W2' W3' W4' C C' E.
  destruct (run_split is_ws w1 w1' _ _ W1 W1' (key_no_ws _ _ _ K) (key_no_ws _ _ _ K') E) as [-> E1].
  destruct (key_split _ _ _ _ _ _ K K' E1) as (-> & -> & E2).
  edestruct (ws_tail w2 w2' 58 58) as (-> & _ & E3); [exact W2|exact W2'|apply not_ws; tauto|apply not_ws; tauto|exact E2|].
  destruct (elem_split v t w3 w4 c x v' t' w3' w4' c' y) as (-> & -> & -> & -> & -> & ->); auto 10.
Qed.

Lemma unambiguous : (forall d t, text d t -> Ptext d t) /\ (forall l b, elems l b -> Pelems l b) /\ (forall l b, mems l b -> Pmems l b).
Proof.
  apply jtext_mutind.
  - intros d' t' x y T E _ _. pose proof (text_kind JNull _ _ _ _ _ (T_null _ _ _ _) T E) as K. destruct d'; cbn in K; try contradiction.
    rewrite (inv_null _ T) in *. injection E as <-. auto.
  - intros d' t' x y T E _ _. pose proof (text_kind (JBool true) _ _ _ _ _ (T_true _ _ _ _) T E) as K. destruct d'; cbn in K; try contradiction.
    subst b. rewrite (inv_bool _ _ T) in *. injection E as <-. auto.
  - intros d' t' x y T E _ _. pose proof (text_kind (JBool false) _ _ _ _ _ (T_false _ _ _ _) T E) as K. destruct d'; cbn in K; try contradiction.
    subst b. rewrite (inv_bool _ _ T) in *. injection E as <-. auto.
  - intros tok N d' t' x y T E S S'. pose proof (text_kind (JNum tok) _ _ _ _ _ (T_num _ _ _ _ tok N) T E) as K. destruct d'; cbn in K; try contradiction.
    destruct (inv_num _ _ T) as [-> [_ N']]. destruct N as [_ N]. cbn in S, S'.
    destruct (run_split num_char tok tok0 x y) as [-> ->]; auto.
  - intros s t Q d' t' x y T E _ _. pose proof (text_kind (JStr s) _ _ _ _ _ (T_str _ _ _ _ s t Q) T E) as K. destruct d'; cbn in K; try contradiction.
    destruct (quoted_split _ _ _ _ _ _ Q (inv_str _ _ T) E) as (-> & -> & ->). auto.
  - intros w W d' t' x y T E _ _. apply (arr_case [] w d' t' x y); auto. apply T_arr0. auto.
  - intros l b X IH d' t' x y T E _ _. apply (arr_case l b d' t' x y); auto. apply T_arr. auto.
  - intros w W d' t' x y T E _ _. apply (obj_case [] w d' t' x y); auto. apply T_obj0. auto.
  - intros l b X IH d' t' x y T E _ _. apply (obj_case l b d' t' x y); auto. apply T_obj. auto.
  - intros v b w1 w2 W1 T IH W2 l' b' x y X' E. destruct (inv_elems _ _ X') as (w1' & v' & t' & w2' & W1' & T' & W2' & [[-> ->]|(l2 & r2 & -> & -> & X2)]); flat E.
    + destruct (elem_split v b w1 w2 93 x v' t' w1' w2' 93 y) as (-> & -> & -> & -> & _ & ->); auto.
    + destruct (elem_split v b w1 w2 93 x v' t' w1' w2' 44 (r2 ++ 93 :: y)) as (_ & _ & _ & _ & C & _); auto. discriminate.
  - intros v b l r w1 w2 W1 T IH W2 X IHl l' b' x y X' E.
    destruct (inv_elems _ _ X') as (w1' & v' & t' & w2' & W1' & T' & W2' & [[-> ->]|(l2 & r2 & -> & -> & X2)]); flat E.
    + destruct (elem_split v b w1 w2 44 (r ++ 93 :: x) v' t' w1' w2' 93 y) as (_ & _ & _ & _ & C & _); auto. discriminate.
    + destruct (elem_split v b w1 w2 44 (r ++ 93 :: x) v' t' w1' w2' 44 (r2 ++ 93 :: y)) as (-> & -> & -> & -> & _ & E'); auto.
      destruct (IHl _ _ _ _ X2 E') as (-> & -> & ->). auto.
  - intros k kt v b w1 w2 w3 w4 W1 K W2 W3 T IH W4 l' b' x y X' E.
    destruct (inv_mems _ _ X') as (w1' & k' & kt' & w2' & w3' & v' & t' & w4' & W1' & K' & W2' & W3' & T' & W4' & [[-> ->]|(l2 & r2 & -> & -> & X2)]);
      flat E.
    + destruct (member_split k kt v b w1 w2 w3 w4 125 x k' kt' v' t' w1' w2' w3' w4' 125 y) as ((-> & -> & -> & -> & ->) & -> & -> & -> & _ & ->); auto.
    + destruct (member_split k kt v b w1 w2 w3 w4 125 x k' kt' v' t' w1' w2' w3' w4' 44 (r2 ++ 125 :: y)) as (_ & _ & _ & _ & C & _); auto; discriminate.
  - intros k kt v b l r w1 w2 w3 w4 W1 K W2 W3 T IH W4 X IHl l' b' x y X' E.
    destruct (inv_mems _ _ X') as (w1' & k' & kt' & w2' & w3' & v' & t' & w4' & W1' & K' & W2' & W3' & T' & W4' & [[-> ->]|(l2 & r2 & -> & -> & X2)]);
      flat E.
    + destruct (member_split k kt v b w1 w2 w3 w4 44 (r ++ 125 :: x) k' kt' v' t' w1' w2' w3' w4' 125 y) as (_ & _ & _ & _ & C & _); auto. discriminate.
    + destruct (member_split k kt v b w1 w2 w3 w4 44 (r ++ 125 :: x) k' kt' v' t' w1' w2' w3' w4' 44 (r2 ++ 125 :: y))
        as ((-> & -> & -> & -> & ->) & -> & -> & -> & _ & E'); auto.
      destruct (IHl _ _ _ _ X2 E') as (-> & -> & ->). auto.
Qed.

Theorem text_one_document d d' t : loose_text d t -> loose_text d' t -> d = d'.
Proof. intros T T'. apply (proj1 unambiguous d t T d' t [] []); auto; destruct d, d'; cbn; auto. Qed.

(** A document with anything before its last character, cut anywhere. *)
Theorem cut_text d w1 text p q d' u1 text' u2 : loose_text d text -> any_ws w1 -> (forall tok, d <> JNum tok) ->
  w1 ++ text = p ++ q -> q <> [] -> p = u1 ++ text' ++ u2 -> any_ws u1 -> loose_text d' text' -> False.
Proof.
  intros T W Hn E Q -> U T'. rewrite <- !app_assoc in E.
  rewrite <- (app_nil_r text) in E.
  destruct (run_split is_ws w1 u1 _ _ W U (text_no_ws _ _ _ T) (text_no_ws _ _ _ T') E) as [_ E1].
  pose proof (text_kind _ _ _ _ _ _ T T' E1) as K.
  destruct (proj1 unambiguous d text T d' text' [] (u2 ++ q) T' E1) as (_ & _ & X).
  - destruct d; cbn; auto.
  - destruct d'; cbn; auto. destruct d; cbn in K; try contradiction. destruct (Hn tok0 eq_refl).
  - symmetry in X. apply app_eq_nil in X. tauto.
Qed.

(** ** Texts are bytes *)
Lemma ws_bytes w : any_ws w -> all_bytes w.
Proof. apply Forall_impl. intros c C. unfold is_ws in C. unfold is_byte. lia. Qed.
Lemma span_bytes s : quoted_span s -> all_bytes s.
Proof.
  induction 1 as [|c a Hc _ IH|e a He _ IH]; [constructor| |]; repeat apply Forall_cons; auto; unfold plain_byte, is_byte in *; lia.
Qed.
Ltac bytes := unfold all_bytes in *; rewrite ?Forall_app in *;
  repeat match goal with |- _ /\ _ => split | |- Forall _ (_ ++ _) => apply Forall_app | |- Forall _ (_ :: _) => apply Forall_cons | |- Forall _ [] => apply Forall_nil
    | |- is_byte _ => unfold is_byte; lia end; auto using ws_bytes.
Lemma text_bytes :
  (forall d t, text d t -> all_bytes t) /\ (forall l b, elems l b -> all_bytes b) /\ (forall l b, mems l b -> all_bytes b).
Proof.
  assert (K : forall k t, loose_key k t -> all_bytes t).
  { intros k t [-> (w & r & -> & W & R)]. pose proof (ws_bytes _ W). pose proof (span_bytes _ R). bytes. }
  apply jtext_mutind; intros; repeat match goal with H : loose_key _ _ |- _ => apply K in H | H : any_ws _ |- _ => apply ws_bytes in H end;
    try solve [bytes].
  - match goal with H : number_run _ |- _ => destruct H as [_ N] end. revert N. apply Forall_impl. intros c C. unfold is_digit in C. unfold is_byte. lia.
  - match goal with H : quoted _ _ |- _ => destruct H as [-> R] end. pose proof (span_bytes _ R). bytes.
Qed.

(** ** Decoders *)
Section Cut.
Context (ar : arch) (fl : float_parser) (any_f32 : bool) (dec : byte_decoder).
Local Notation prog t := (denote JDeserializeError t).
Local Notation readings dec := (match dec with NopeDecoder => bytes_as_string | HexDecoder => hex_bytes | Base64Decoder => bytes_as_base64 end).
Local Notation run := (js_from_mut_slice ar fl any_f32 dec).

Lemma cut_bytes d (a b : bytes) p q : a ++ b = p ++ q -> any_ws a -> loose_text d b -> all_bytes p.
Proof.
  intros E W T. assert (H : all_bytes (a ++ b)) by (apply Forall_app; split; [apply ws_bytes|apply (proj1 text_bytes d)]; auto).
  rewrite E in H. apply Forall_app in H. tauto.
Qed.
Lemma cut_bound (l p q : bytes) : l = p ++ q -> (dec = Base64Decoder -> 3 * zlen l <= usize_max ar) -> dec = Base64Decoder -> 3 * zlen p <= usize_max ar.
Proof. intros -> H D. specialize (H D). unfold zlen in *. rewrite app_length in H. lia. Qed.

Theorem cut_typed t fuel s v d w1 text p q :
  f32_from_str fl [] = None -> f64_from_str fl [] = None -> wf t ->
  (dec = Base64Decoder -> 3 * zlen (w1 ++ text) <= usize_max ar) ->
  loose_text d text -> any_ws w1 -> (forall tok, d <> JNum tok) -> w1 ++ text = p ++ q -> q <> [] ->
  run fuel (prog t) p <> Done s (Ok v).
Proof.
  intros F1 F2 Wt R T W Hn E Q H.
  destruct (proj1 (decoding_exact ar fl any_f32 dec t v p F1 F2 Wt (cut_bytes _ _ _ _ _ E W T) (cut_bound _ _ _ E R))) as (d' & u1 & t' & u2 & -> & U1 & _ & T' & _);
    [eauto|]. apply (cut_text d w1 text _ q d' u1 t' u2 T W Hn E Q); auto.
Qed.
Theorem cut_any fuel s v d w1 text p q :
  (dec = Base64Decoder -> 3 * zlen (w1 ++ text) <= usize_max ar) ->
  loose_text d text -> any_ws w1 -> (forall tok, d <> JNum tok) -> w1 ++ text = p ++ q -> q <> [] ->
  run fuel (any JDeserializeError) p <> Done s (Ok v).
Proof.
  intros R T W Hn E Q H.
  destruct (proj1 (self_describing_exact ar fl any_f32 dec v p (cut_bytes _ _ _ _ _ E W T) (cut_bound _ _ _ E R))) as (d' & u1 & t' & u2 & -> & U1 & _ & T' & _);
    [eauto|]. apply (cut_text d w1 text _ q d' u1 t' u2 T W Hn E Q); auto.
Qed.
Theorem cut_ignored fuel s d w1 text p q :
  (dec = Base64Decoder -> 3 * zlen (w1 ++ text) <= usize_max ar) ->
  loose_text d text -> any_ws w1 -> (forall tok, d <> JNum tok) -> w1 ++ text = p ++ q -> q <> [] ->
  run fuel ignored p <> Done s (Ok UUnit).
Proof.
  intros R T W Hn E Q H.
  destruct (proj1 (skip_exact ar fl any_f32 dec p (cut_bytes _ _ _ _ _ E W T) (cut_bound _ _ _ E R))) as (d' & u1 & t' & u2 & -> & U1 & _ & T' & _);
    [eauto|]. apply (cut_text d w1 text _ q d' u1 t' u2 T W Hn E Q); auto.
Qed.

(** Two types that both read an input read the same document. *)
Theorem same_document t t' fuel fuel' s s' v v' input :
  f32_from_str fl [] = None -> f64_from_str fl [] = None -> wf t -> wf t' ->
  all_bytes input -> (dec = Base64Decoder -> 3 * zlen input <= usize_max ar) ->
  run fuel (prog t) input = Done s (Ok v) -> run fuel' (prog t') input = Done s' (Ok v') ->
  exists d, reads_as any_ws (f32_from_str fl) (f64_from_str fl) (readings dec) t v d /\
            reads_as any_ws (f32_from_str fl) (f64_from_str fl) (readings dec) t' v' d.
Proof.
  intros F1 F2 Wt Wt' B R H H'.
  destruct (proj1 (decoding_exact ar fl any_f32 dec t v input F1 F2 Wt B R)) as (d & w1 & tx & w2 & E & W1 & W2 & T & A); [eauto|].
  destruct (proj1 (decoding_exact ar fl any_f32 dec t' v' input F1 F2 Wt' B R)) as (d' & w1' & tx' & w2' & E' & W1' & W2' & T' & A'); [eauto|].
  exists d. split; [exact A|]. rewrite E in E'.
  destruct (run_split is_ws w1 w1' _ _ W1 W1' (text_no_ws _ _ _ T) (text_no_ws _ _ _ T') E') as [_ E1].
  destruct (proj1 unambiguous d tx T d' tx' w2 w2' T' E1) as (-> & _); auto; apply stops_end; auto.
Qed.

Theorem cut_output fp enc v out t fuel s u w1 p q :
  enc <> PassThroughByteEncoder -> printer_ok fp -> strings_ok v -> maps_ok v ->
  js_to_string fp enc v = Ok out -> (forall tok, js_value fp enc v <> Some (JNum tok)) ->
  f32_from_str fl [] = None -> f64_from_str fl [] = None -> wf t ->
  any_ws w1 -> (dec = Base64Decoder -> 3 * zlen (w1 ++ out) <= usize_max ar) ->
  w1 ++ out = p ++ q -> q <> [] -> run fuel (prog t) p <> Done s (Ok u).
Proof.
  intros Ne P S M E Hn F1 F2 Wt W R Ep Q. pose proof (to_string_canon fp enc v Ne P S M) as C.
  destruct (js_value fp enc v) as [j|] eqn:Ej; [|destruct C as (e & C & _); congruence].
  destruct C as (out' & C & T). assert (out' = out) by congruence. subst out'.
  apply (cut_typed t fuel s u (tok_doc j) w1 out p q); auto.
  - apply raw_loose, canon_raw. exact T.
  - intros tok X. destruct j; cbn in X; try discriminate. destruct (Hn tok0 eq_refl).
Qed.
End Cut.

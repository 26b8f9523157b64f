(** JSON decoding terminates: an explicit step budget for every type and input length,
    and independence of the result from the budget. *)
From Verif Require Import Prelude PreludeFacts SerdeSer SerdeDe Base64Spec JsonSpec JsonTypeSpec JsonAnySpec JsonDe JsonDeSafe Types TypesFacts TypeSize
  MpSpec MpTypeSpec JsonSound JsonSoundTop JsonAny.
From Coq Require Import Wf_nat.

Local Notation ignored := (@ignored js_de_error).
Local Notation ignored_seq := (@ignored_seq js_de_error).
Local Notation ignored_map := (@ignored_map js_de_error).
Local Notation any := (any JDeserializeError).
Local Notation any_seq := (any_seq JDeserializeError).
Local Notation any_map := (any_map JDeserializeError).
Local Notation prog t := (denote JDeserializeError t).

(** ** A larger budget changes nothing once the run ends *)
Section Mono.
Context (ar : arch) (fl : float_parser) (any_f32 : bool) (dec : byte_decoder).
Local Notation M := (DM jde js_de_error).

Definition mle {A} (m m' : M A) : Prop := forall s, m s = OutOfFuel \/ m s = m' s.

Lemma mle_refl {A} (m : M A) : mle m m.
Proof. right. reflexivity. Qed.
Lemma mle_oof {A} (m : M A) : mle (fun _ => OutOfFuel) m.
Proof. left. reflexivity. Qed.
Lemma mle_bind {A B} (m m' : M A) (k k' : A -> M B) : mle m m' -> (forall a, mle (k a) (k' a)) -> mle (dbind m k) (dbind m' k').
Proof.
  intros Hm Hk s. unfold dbind. destruct (Hm s) as [->|E]; [left; auto|]. rewrite <- E.
  destruct (m s) as [s1 [a|e]| |]; auto. apply Hk.
Qed.
Lemma mle_try {A B} (m m' : M A) (k k' : result A js_de_error -> M B) : mle m m' -> (forall a, mle (k a) (k' a)) -> mle (dtry m k) (dtry m' k').
Proof.
  intros Hm Hk s. unfold dtry. destruct (Hm s) as [->|E]; [left; auto|]. rewrite <- E.
  destruct (m s) as [s1 a| |]; auto. apply Hk.
Qed.
Lemma mle_post {A B} (f : result A js_de_error -> result B js_de_error) m m' : mle m m' -> mle (dpost f m) (dpost f m').
Proof. intros. apply mle_try; auto. intros. apply mle_refl. Qed.
Lemma mle_if {A} (b : bool) (m n m' n' : M A) : mle m m' -> mle n n' -> mle (if b then m else n) (if b then m' else n').
Proof. destruct b; auto. Qed.

Section Methods.
Context {U : Type} (R R' : @jrunner U).
Record rle : Prop := {
  le_de : forall key p, mle (jr_de R key p) (jr_de R' key p);
  le_seq : forall p b, mle (jr_seq R p b) (jr_seq R' p b);
  le_map : forall p b, mle (jr_map R p b) (jr_map R' p b);
  le_enum : forall u p, mle (jr_enum R u p) (jr_enum R' u p)
}.
Context (L : rle).

Ltac step := first
  [ apply mle_refl | apply (le_de L) | apply (le_seq L) | apply (le_map L) | apply (le_enum L)
  | apply mle_if | apply mle_bind; [|intros ?] ].

Lemma mle_seq v : mle (j_deserialize_seq R v) (j_deserialize_seq R' v).
Proof. unfold j_deserialize_seq. repeat step. Qed.
Lemma mle_map v : mle (j_deserialize_map R v) (j_deserialize_map R' v).
Proof. unfold j_deserialize_map. repeat step. Qed.
Lemma mle_struct v : mle (j_deserialize_struct R v) (j_deserialize_struct R' v).
Proof. unfold j_deserialize_struct. repeat first [apply mle_seq|apply mle_map|step]. Qed.
Lemma mle_enum v : mle (j_deserialize_enum R v) (j_deserialize_enum R' v).
Proof. unfold j_deserialize_enum. repeat step. Qed.
Lemma mle_method m v : mle (js_method ar fl any_f32 dec R m v) (js_method ar fl any_f32 dec R' m v).
Proof.
  destruct m; cbn [js_method];
    try first [apply mle_refl|apply mle_seq|apply mle_map|apply mle_struct|apply mle_enum|apply (le_de L)].
  - unfold j_deserialize_any. repeat first [apply mle_seq|apply mle_map|step].
  - unfold j_deserialize_option. repeat step.
  - unfold j_deserialize_ignored_any. repeat first [apply mle_seq|apply mle_map|step].
Qed.
Lemma mle_key m v : mle (key_method R m v) (key_method R' m v).
Proof. destruct m; cbn [key_method]; first [apply mle_refl|apply (le_enum L)]. Qed.
Lemma mle_variant u p : mle (j_run_variant R u p) (j_run_variant R' u p).
Proof.
  destruct p; cbn [j_run_variant]; try apply mle_refl; (apply mle_post, mle_if; [apply mle_refl|]);
    [apply (le_de L)|apply mle_seq|apply mle_struct].
Qed.
End Methods.

Lemma mle_run {U} f : @rle U (js_run ar fl any_f32 dec f) (js_run ar fl any_f32 dec (S f)).
Proof.
  induction f as [|f IH].
  - split; intros; apply mle_oof.
  - remember (S f) as f' eqn:Ef.
    assert (E1 : @js_run ar fl any_f32 dec U f' = let R := js_run ar fl any_f32 dec f in
           {| jr_de := j_step_de ar fl any_f32 dec R; jr_seq := j_step_seq R; jr_map := j_step_map R; jr_enum := j_step_enum R |})
      by (subst; reflexivity).
    assert (E2 : @js_run ar fl any_f32 dec U (S f') = let R := js_run ar fl any_f32 dec f' in
           {| jr_de := j_step_de ar fl any_f32 dec R; jr_seq := j_step_seq R; jr_map := j_step_map R; jr_enum := j_step_enum R |})
      by reflexivity.
    rewrite E2. set (R' := @js_run ar fl any_f32 dec U f') in *. rewrite E1 at 1. clear E1 E2. cbv zeta.
    set (R := js_run ar fl any_f32 dec f) in *. split; cbn [jr_de jr_seq jr_map jr_enum].
    + intros key [r|k|m v post]; cbn [j_step_de]; [apply mle_refl|apply IH|apply mle_post, mle_if; [apply mle_key, IH|apply mle_method, IH]].
    + intros [r|seed k|k] b; cbn [j_step_seq]; [apply mle_refl| |apply IH].
      apply mle_try; [apply mle_refl|]. intros [[[c b']|]|e]; try apply IH. apply mle_try; [apply IH|]. intros. apply IH.
    + intros [r|seed k|seed k|k] b; cbn [j_step_map]; [apply mle_refl| | |apply IH].
      * apply mle_try; [apply mle_refl|]. intros [[[c b']|]|e]; try apply IH. apply mle_if; [|apply IH].
        apply mle_try; [apply IH|]. intros. apply IH.
      * apply mle_try; [apply mle_bind; [apply mle_refl|intros; apply IH]|]. intros. apply IH.
    + intros u [r|seed kerr kok]; cbn [j_step_enum]; [apply mle_refl|].
      apply mle_try; [apply mle_bind; [apply IH|intros; apply mle_refl]|]. intros [a|e]; [apply mle_variant, IH|apply mle_refl].
Qed.

Lemma mle_from_slice {U} f (p : deser U js_de_error) input :
  js_from_mut_slice ar fl any_f32 dec f p input = OutOfFuel \/
  js_from_mut_slice ar fl any_f32 dec f p input = js_from_mut_slice ar fl any_f32 dec (S f) p input.
Proof.
  unfold js_from_mut_slice. refine (mle_bind _ _ _ _ _ _ _); [apply mle_run|intros; apply mle_refl].
Qed.
Lemma from_slice_mono {U} f g (p : deser U js_de_error) input : (f <= g)%nat ->
  js_from_mut_slice ar fl any_f32 dec f p input <> OutOfFuel ->
  js_from_mut_slice ar fl any_f32 dec g p input = js_from_mut_slice ar fl any_f32 dec f p input.
Proof.
  intros H Hne. induction H as [|g H IH]; auto. destruct (mle_from_slice g p input) as [E|E]; congruence.
Qed.
End Mono.

(** ** Every run of a type of the universe ends *)
Section Ends.
Context (ar : arch) (fl : float_parser) (any_f32 : bool) (dec : byte_decoder) (total : nat).
Context (room : dec = Base64Decoder -> 3 * Z.of_nat total <= usize_max ar).
Local Notation M := (DM jde js_de_error).
Local Notation tri := (tri total False).
Local Notation jinv := (jinv total).
Local Notation run := (js_run ar fl any_f32 dec (U := val)).

(** At most [n] bytes are left. *)
Definition left (n : nat) (s : jde) : Prop := (total <= n + jpos s)%nat.
Definition ends {A} (n : nat) (P : jde -> Prop) (m : M A) : Prop := tri (fun s => P s /\ left n s) m any_res.

Lemma left_later n s s' : left n s -> jlater s s' -> left n s'.
Proof. unfold left. intros H (L & _). lia. Qed.
Lemma ends_tri {A} n P (m : M A) Q : tri P m Q -> ends n P m.
Proof. intros H. eapply tri_conseq; [exact H| |]; [intros s []; auto|intros; exact I]. Qed.
Lemma ends_less {A} n n' P (m : M A) : (n' <= n)%nat -> ends n P m -> ends n' P m.
Proof. intros H E. eapply tri_conseq; [exact E| |auto]. unfold left. intros s []. split; auto. lia. Qed.
Lemma ends_pre {A} n (P P' : jde -> Prop) (m : M A) : (forall s, P' s -> P s) -> ends n P m -> ends n P' m.
Proof. intros H E. eapply tri_conseq; [exact E| |auto]. intros s []. auto. Qed.
Lemma ends_any {A} n P (m : M A) : ends n any_st m -> ends n P m.
Proof. apply ends_pre. intros; exact I. Qed.
Lemma ends_bind {A B} n P (m : M A) (Q : A -> jde -> Prop) (k : A -> M B) :
  tri (fun s => P s /\ left n s) m Q -> (forall a, ends n (Q a) (k a)) -> ends n P (dbind m k).
Proof.
  intros Hm Hk s Hs Ps. unfold dbind. specialize (Hm s Hs Ps). destruct (m s) as [s1 [a|e]| |]; auto.
  destruct Hm as (I1 & L1 & Qa). specialize (Hk a s1 I1 (conj Qa (left_later _ _ _ (proj2 Ps) L1))).
  destruct (k a s1) as [s2 [b|e]| |]; auto; intuition (eapply jlater_trans; eauto).
Qed.
Lemma ends_try {A B} n P (m : M A) (Q : A -> jde -> Prop) (k : result A js_de_error -> M B) :
  tri (fun s => P s /\ left n s) m Q -> (forall a, ends n (Q a) (k (Ok a))) -> (forall e, ends n any_st (k (Err e))) -> ends n P (dtry m k).
Proof.
  intros Hm H1 H2 s Hs Ps. unfold dtry. specialize (Hm s Hs Ps). destruct (m s) as [s1 [a|e]| |]; auto.
  - destruct Hm as (I1 & L1 & Qa). specialize (H1 a s1 I1 (conj Qa (left_later _ _ _ (proj2 Ps) L1))).
    destruct (k (Ok a) s1) as [s2 [b|e]| |]; auto; intuition (eapply jlater_trans; eauto).
  - destruct Hm as (I1 & L1). specialize (H2 e s1 I1 (conj I (left_later _ _ _ (proj2 Ps) L1))).
    destruct (k (Err e) s1) as [s2 [b|e']| |]; auto; intuition (eapply jlater_trans; eauto).
Qed.
(** The same for a first part that ends. *)
Lemma ends_try' {A B} n P (m : M A) (k : result A js_de_error -> M B) :
  ends n P m -> (forall r, ends n any_st (k r)) -> ends n P (dtry m k).
Proof. intros Hm Hk. eapply ends_try; [exact Hm| |]; intros; [apply ends_any|]; apply Hk. Qed.
Lemma ends_bind' {A B} n P (m : M A) (k : A -> M B) :
  ends n P m -> (forall a, ends n any_st (k a)) -> ends n P (dbind m k).
Proof. intros Hm Hk. eapply ends_bind; [exact Hm|]; intros; apply ends_any, Hk. Qed.
Lemma ends_post {A B} n P (f : result A js_de_error -> result B js_de_error) m : ends n P m -> ends n P (dpost f m).
Proof. intros H. apply ends_try'; auto. intros. eapply ends_tri, tri_lift. Qed.
Lemma ends_if {A} (b : bool) n P (m m' : M A) : (b = true -> ends n P m) -> (b = false -> ends n P m') -> ends n P (if b then m else m').
Proof. destruct b; auto. Qed.
Lemma ends_lift {A} n P (r : result A js_de_error) : ends n P (dlift r).
Proof. eapply ends_tri, tri_lift. Qed.
Lemma ends_fail {A} n P e : ends n P (dfail e : M A).
Proof. eapply ends_tri, (tri_fail total False P e any_res). Qed.
(** Whitespace, then on with the character found. *)
Lemma ends_ws {A} n P (k : Z -> M A) : (forall c, ends n (at_char c) (k c)) -> ends n P (c <-- eat_whitespace ;; k c).
Proof. intros H. eapply ends_bind with (Q := at_char); [eapply (tri_conseq total False any_st); [apply tri_whitespace|intros; exact I|auto]|]. exact H. Qed.
(** Eating a character leaves less. *)
Lemma ends_eat {A} n c (k : unit -> M A) : (forall m, n = S m -> ends m any_st (k tt)) -> ends n (at_char c) (x <-- j_eat_some 1 ;; k x).
Proof.
  intros H s Hs [Ps L]. unfold dbind. pose proof (tri_eat1 total False c s Hs Ps) as Ht.
  unfold j_eat_some in *. destruct Ht as (I1 & L1 & _). pose proof (at_lt _ _ Ps) as Lt. pose proof Hs as (_ & Hl & _).
  unfold left, jpos in L. destruct n as [|m]; [lia|]. specialize (H m eq_refl). cbn in I1, L1.
  set (s1 := jset _ _ _) in *. specialize (H s1 I1). assert (L2 : left m s1) by (unfold left, jpos, s1; cbn; lia).
  specialize (H (conj I L2)). destruct (k tt s1) as [s2 [b|e]| |]; auto; intuition (eapply jlater_trans; eauto).
Qed.

Section Methods.
Context (R : @jrunner val).

Lemma e_after (m : M val) n close e : ends n any_st m ->
  ends n any_st (value <-- m ;; c <-- eat_whitespace ;; if c =? close then _ <-- j_eat_some 1 ;; dret value else dfail e).
Proof.
  intros H. apply ends_bind'; auto. intros u. apply ends_ws. intros c. apply ends_if; intros _; [|apply ends_fail].
  apply ends_eat. intros. apply (ends_lift _ _ (Ok u)).
Qed.
Lemma e_seq n v : (forall m, n = S m -> ends m any_st (jr_seq R (visit_seq v) true)) -> ends n any_st (j_deserialize_seq R v).
Proof.
  intros H. unfold j_deserialize_seq. apply ends_ws. intros c. apply ends_if; intros _; [|apply ends_fail].
  apply ends_eat. intros m E. apply e_after. auto.
Qed.
Lemma e_map n v : (forall m, n = S m -> ends m any_st (jr_map R (visit_map v) true)) -> ends n any_st (j_deserialize_map R v).
Proof.
  intros H. unfold j_deserialize_map. apply ends_ws. intros c. apply ends_if; intros _; [|apply ends_fail].
  apply ends_eat. intros m E. apply e_after. auto.
Qed.
Lemma e_struct n v : (forall m, n = S m -> ends m any_st (jr_seq R (visit_seq v) true)) ->
  (forall m, n = S m -> ends m any_st (jr_map R (visit_map v) true)) -> ends n any_st (j_deserialize_struct R v).
Proof.
  intros H1 H2. unfold j_deserialize_struct. apply ends_ws. intros c.
  apply ends_if; intros _; [apply ends_any, e_map; auto|]. apply ends_if; intros _; [apply ends_any, e_seq; auto|apply ends_fail].
Qed.
Lemma e_enum n v : ends n any_st (jr_enum R true (visit_enum v)) ->
  (forall m, n = S m -> ends m any_st (jr_enum R false (visit_enum v))) -> ends n any_st (j_deserialize_enum R v).
Proof.
  intros H1 H2. unfold j_deserialize_enum. apply ends_ws. intros c. apply ends_if; intros _; [apply ends_any; auto|].
  apply ends_if; intros _; [|apply ends_fail]. apply ends_eat. intros m E. apply e_after. auto.
Qed.
Lemma e_option n v : ends n any_st (jr_de R false (visit_some v)) -> ends n any_st (j_deserialize_option R v).
Proof.
  intros H. unfold j_deserialize_option. apply ends_ws. intros c. apply ends_if; intros _; [|apply ends_any; auto].
  apply ends_eat. intros m E. apply ends_bind'; [eapply ends_tri, tri_token|]. intros. apply ends_lift.
Qed.
Lemma e_ignored n v : (forall m, n = S m -> ends m any_st (jr_seq R (visit_seq v) true)) ->
  (forall m, n = S m -> ends m any_st (jr_map R (visit_map v) true)) -> ends n any_st (j_deserialize_ignored_any R v).
Proof.
  intros H1 H2. unfold j_deserialize_ignored_any. apply ends_ws. intros c.
  apply ends_if; intros _; [apply ends_any; eapply ends_tri, m_unit|].
  apply ends_if; intros _; [apply ends_any; eapply ends_tri, m_bool|].
  apply ends_if; intros _.
  { apply ends_eat. intros m E. apply ends_bind'; [eapply ends_tri, tri_eat_str|]. intros. apply ends_lift. }
  apply ends_if; intros _.
  { apply ends_any. eapply ends_bind; [eapply tri_conseq; [apply tri_match_float|intros; exact I|intros ? ? H; exact H]|].
    intros t. cbn beta. eapply ends_tri, tri_bind; [apply tri_eat|]. intros. apply tri_lift. }
  apply ends_if; intros _; [apply ends_any, e_seq; auto|]. apply ends_if; intros _; [apply ends_any, e_map; auto|apply ends_fail].
Qed.
Lemma e_any n v : (forall m, n = S m -> ends m any_st (jr_seq R (visit_seq v) true)) ->
  (forall m, n = S m -> ends m any_st (jr_map R (visit_map v) true)) -> ends n any_st (j_deserialize_any fl any_f32 R v).
Proof.
  intros H1 H2. unfold j_deserialize_any. apply ends_ws. intros c.
  apply ends_if; intros _; [apply ends_any; eapply ends_tri, m_unit|].
  apply ends_if; intros _; [apply ends_any; eapply ends_tri, m_bool|].
  apply ends_if; intros _; [apply ends_any; eapply ends_tri, m_str|].
  apply ends_if; intros _.
  { apply ends_any. apply ends_bind'; [eapply ends_tri, tri_float_or_int|]. intros. apply ends_lift. }
  apply ends_if; intros _; [apply ends_any, e_seq; auto|]. apply ends_if; intros _; [apply ends_any, e_map; auto|apply ends_fail].
Qed.
Lemma e_method n m v :
  (forall n', n = S n' -> ends n' any_st (jr_seq R (visit_seq v) true)) ->
  (forall n', n = S n' -> ends n' any_st (jr_map R (visit_map v) true)) ->
  (m = DOption -> ends n any_st (jr_de R false (visit_some v))) ->
  (m = DNewtypeStruct -> ends n any_st (jr_de R false (visit_newtype v))) ->
  (m = DEnum -> forall u, ends n any_st (jr_enum R u (visit_enum v))) ->
  ends n any_st (js_method ar fl any_f32 dec R m v).
Proof.
  intros H1 H2 H3 H4 H5. destruct m; cbn [js_method];
    try (eapply ends_tri; first [apply m_bool|apply m_int|apply m_f32|apply m_f64|apply m_char|apply m_str|apply m_bytes; exact room|apply m_unit]; fail).
  - apply e_any; auto.
  - apply ends_fail.
  - apply e_option; auto.
  - apply H4; auto.
  - apply e_seq; auto.
  - apply e_seq; auto.
  - apply e_seq; auto.
  - apply e_map; auto.
  - apply e_struct; auto.
  - apply e_enum; [auto|]. intros n' E. apply (ends_less n); [lia|]. apply H5; auto.
  - apply e_ignored; auto.
Qed.
Lemma e_key n m v : (m = DEnum -> forall u, ends n any_st (jr_enum R u (visit_enum v))) -> ends n (at_char 34) (key_method R m v).
Proof.
  intros H. destruct m; cbn [key_method]; try (apply ends_any; eapply ends_tri; first [apply m_str|apply m_char]; fail).
  - unfold key_bool. apply ends_eat. intros n' E. apply ends_bind'; [eapply ends_tri, m_bool|]. intros b.
    eapply ends_bind with (Q := at_char); [eapply (tri_conseq total False any_st); [apply tri_peek|intros; exact I|auto]|]. intros c. cbn beta.
    apply ends_if; intros _; [|apply ends_fail]. apply ends_eat. intros. apply (ends_lift _ _ (Ok b)).
  - apply ends_bind'; [|intros; apply ends_lift]. unfold parse_numkey. apply ends_eat. intros n' E.
    apply ends_bind'; [eapply ends_tri, tri_int|]. intros b.
    eapply ends_bind with (Q := at_char); [eapply (tri_conseq total False any_st); [apply tri_peek|intros; exact I|auto]|]. intros c. cbn beta.
    apply ends_if; intros _; [|apply ends_fail]. apply ends_eat. intros. apply (ends_lift _ _ (Ok b)).
  - apply ends_any. auto.
Qed.

(** What the flag [first] is worth. *)
Definition after (first : bool) (n m : nat) : Prop := if first then m = n else n = S m.
Lemma e_next {A} n close e1 e2 e3 first (k : result (option (Z * bool)) js_de_error -> M A) :
  ends n any_st (k (Ok None)) -> (forall e, ends n any_st (k (Err e))) ->
  (forall c m, after first n m -> ends m (at_char c) (k (Ok (Some (c, false))))) ->
  ends n any_st (dtry (next_item close e1 e2 e3 first) k).
Proof.
  intros H1 H2 H3 s Hs Ps. unfold dtry. destruct Ps as [_ L].
  pose proof (tri_next total False close e1 e2 e3 first s Hs I) as Ht.
  destruct (next_item _ _ _ _ _ s) as [s1 [[[c b]|]|e]| |] eqn:E; auto.
  - destruct Ht as (I1 & L1 & Q). assert (Hm : b = false /\ exists m, after first n m /\ left m s1).
    { unfold next_item, dbind in E. pose proof (tri_whitespace total False s Hs I) as Hw.
      destruct (eat_whitespace s) as [s2 [c2|e]| |]; try discriminate. destruct Hw as (I2 & L2 & A2).
      destruct (c2 =? close); [discriminate|]. destruct (c2 =? 44).
      - destruct first; [discriminate|]. pose proof (tri_eat1 total False c2 s2 I2 A2) as He.
        unfold j_eat_some in *. destruct He as (I3 & L3 & _). set (s3 := jset _ _ _) in *.
        pose proof (tri_whitespace total False s3 I3 I) as Hw. destruct (eat_whitespace s3) as [s4 [c4|e]| |]; try discriminate.
        destruct Hw as (I4 & L4 & A4). destruct (c4 =? close); [discriminate|]. injection E as <- <- <-. split; auto.
        assert (P3 : jpos s3 = S (jpos s2)) by (unfold jpos, s3; cbn; lia).
        pose proof (at_lt _ _ A2) as Lt. pose proof I2 as (_ & Hl & _). unfold left in L.
        destruct L2 as (L2 & _), L4 as (L4 & _).
        destruct n as [|m]; [unfold jpos in *; lia|]. exists m. split; [reflexivity|]. unfold left. lia.
      - destruct first; [|discriminate]. injection E as <- <- <-. split; auto. exists n. split; [reflexivity|].
        eapply left_later; eauto. }
    destruct Hm as (-> & m & Hm & Lm). specialize (H3 c m Hm s1 I1 (conj Q Lm)).
    destruct (k _ s1) as [s2 [a|e]| |]; auto; intuition (eapply jlater_trans; eauto).
  - destruct Ht as (I1 & L1 & _). specialize (H1 s1 I1 (conj I (left_later _ _ _ L L1))).
    destruct (k _ s1) as [s2 [a|e]| |]; auto; intuition (eapply jlater_trans; eauto).
  - destruct Ht as (I1 & L1). specialize (H2 e s1 I1 (conj I (left_later _ _ _ L L1))).
    destruct (k _ s1) as [s2 [a|e']| |]; auto; intuition (eapply jlater_trans; eauto).
Qed.
Lemma e_step_seq n seed k first : ends n any_st (jr_seq R (k (Ok None)) first) ->
  (forall e b, ends n any_st (jr_seq R (k (Err e)) b)) ->
  (forall m, after first n m -> ends m any_st (jr_de R false seed) /\ forall u, ends m any_st (jr_seq R (k (Ok (Some u))) false)) ->
  ends n any_st (j_step_seq R (SNext seed k) first).
Proof.
  intros H1 H2 H3. cbn [j_step_seq]. apply e_next; auto. intros c m Hm. destruct (H3 m Hm) as [H4 H5].
  apply ends_any, ends_try'; auto. intros [u|e]; cbn [jres_some]; auto.
  apply (ends_less n); [unfold after in Hm; destruct first; lia|]. auto.
Qed.
Lemma e_step_key n seed k first : ends n any_st (jr_map R (k (Ok None)) first) ->
  (forall e b, ends n any_st (jr_map R (k (Err e)) b)) ->
  (forall m, after first n m -> ends m (at_char 34) (jr_de R true seed) /\ forall u, ends m any_st (jr_map R (k (Ok (Some u))) false)) ->
  ends n any_st (j_step_map R (MKey seed k) first).
Proof.
  intros H1 H2 H3. cbn [j_step_map]. apply e_next; auto. intros c m Hm. destruct (H3 m Hm) as [H4 H5].
  apply ends_if; intros Ec.
  - apply Z.eqb_eq in Ec. subst c. apply ends_try'; auto. intros [u|e]; cbn [jres_some]; auto.
    apply (ends_less n); [unfold after in Hm; destruct first; lia|]. auto.
  - apply ends_any, (ends_less n); [unfold after in Hm; destruct first; lia|]. auto.
Qed.
Lemma e_step_val n seed k first : ends n any_st (jr_de R false seed) -> (forall r, ends n any_st (jr_map R (k r) first)) ->
  ends n any_st (j_step_map R (MVal seed k) first).
Proof.
  intros H1 H2. cbn [j_step_map]. apply ends_try'; auto. apply ends_bind'; [eapply ends_tri, tri_colon|]. auto.
Qed.
Lemma e_variant n u p :
  (forall seed post, p = VNewtype seed post -> ends n any_st (jr_de R false seed)) ->
  (forall v post, p = VTuple v post \/ p = VStruct v post -> forall m, n = S m -> ends m any_st (jr_seq R (visit_seq v) true)) ->
  (forall v post, p = VStruct v post -> forall m, n = S m -> ends m any_st (jr_map R (visit_map v) true)) ->
  ends n any_st (j_run_variant R u p).
Proof.
  intros H1 H2 H3. destruct p; cbn [j_run_variant]; try apply ends_lift; apply ends_post; (apply ends_if; intros _; [apply ends_fail|]).
  - eapply H1; eauto.
  - apply e_seq. eapply H2; eauto.
  - apply e_struct; [eapply H2; eauto|eapply H3; eauto].
Qed.
End Methods.

(** ** Budgets *)
Local Notation pre key := (if key : bool then at_char 34 else any_st).
Definition dB (n B : nat) (p : deser val js_de_error) : Prop := forall f key, (B + 3 * n <= f)%nat -> ends n (pre key) (jr_de (run f) key p).
Definition sB (n B : nat) (p : sprog val js_de_error) : Prop := forall f, (B + 3 * n <= f)%nat -> ends n any_st (jr_seq (run f) p true).
Definition mB (n B : nat) (p : mprog val js_de_error) : Prop := forall f, (B + 3 * n <= f)%nat -> ends n any_st (jr_map (run f) p true).
Definition eB (n B : nat) (p : eprog val js_de_error) : Prop := forall f u, (B + 3 * n <= f)%nat -> ends n any_st (jr_enum (run f) u p).

Lemma dB_less n n' B B' p : (B' + 3 * n' <= B + 3 * n)%nat -> (n <= n')%nat -> dB n' B' p -> dB n B p.
Proof. intros H1 H2 H f key Hf. apply (ends_less n'); auto. apply H. lia. Qed.

Lemma sret_ends n r first f : (1 <= f)%nat -> ends n any_st (jr_seq (run f) (SRet r) first).
Proof. intros H. destruct f; [lia|]. apply ends_lift. Qed.
Lemma mret_ends n r first f : (1 <= f)%nat -> ends n any_st (jr_map (run f) (MRet r) first).
Proof. intros H. destruct f; [lia|]. apply ends_lift. Qed.

(** A loop over a sequence that stops at the end and at errors. *)
Definition seq_stops (X : sprog val js_de_error -> Prop) (seed : deser val js_de_error) : Prop := forall p, X p -> exists k,
  p = SNext seed k /\ (forall e, exists r, k (Err e) = SRet r) /\ (exists r, k (Ok None) = SRet r) /\ (forall u, X (k (Ok (Some u)))).
Lemma seq_bound X seed B n : (3 <= B)%nat -> seq_stops X seed -> (forall m, (m <= n)%nat -> dB m B seed) ->
  forall f first p, X p -> (B + 3 * n + (if first : bool then 1 else 0) <= f)%nat -> ends n any_st (jr_seq (run f) p first).
Proof.
  intros HB HX. revert n. assert (W : forall n, (forall m, (m <= n)%nat -> dB m B seed) ->
    forall f p, X p -> (B + 3 * n <= f)%nat -> ends n any_st (jr_seq (run f) p false)).
  { induction n as [n IH] using (well_founded_induction lt_wf). intros HD f p Hp Hf. destruct f as [|f]; [lia|].
    destruct (HX p Hp) as (k & -> & He & (rn & Hn) & Hs). change (ends n any_st (j_step_seq (run f) (SNext seed k) false)).
    apply e_step_seq.
    - rewrite Hn. apply sret_ends. lia.
    - intros e b. destruct (He e) as (r & ->). apply sret_ends. lia.
    - intros m ->. split; [apply (HD m ltac:(lia) f false); lia|]. intros u. apply IH; auto; lia. }
  intros n HD f [|] p Hp Hf; [|apply W; auto; lia]. destruct f as [|f]; [lia|].
  destruct (HX p Hp) as (k & -> & He & (rn & Hn) & Hs). change (ends n any_st (j_step_seq (run f) (SNext seed k) true)).
  apply e_step_seq.
  - rewrite Hn. apply sret_ends. lia.
  - intros e b. destruct (He e) as (r & ->). apply sret_ends. lia.
  - intros m ->. split; [apply (HD n ltac:(lia) f false); lia|]. intros u. apply W; auto. lia.
Qed.
(** The same for maps; [G]: the seeds. *)
Definition map_stops_or (X : mprog val js_de_error -> Prop) (G : deser val js_de_error -> Prop) : Prop := forall p, X p -> exists kseed k,
  p = MKey kseed k /\ G kseed /\ (forall e, exists r, k (Err e) = MRet r) /\ (exists r, k (Ok None) = MRet r) /\
  (forall u, (exists r, k (Ok (Some u)) = MRet r) \/
     exists vseed k2, k (Ok (Some u)) = MVal vseed k2 /\ G vseed /\ (forall e, exists r, k2 (Err e) = MRet r) /\
       forall u, (exists r, k2 (Ok u) = MRet r) \/ X (k2 (Ok u))).
Lemma map_bound_or X B n : (3 <= B)%nat -> map_stops_or X (fun seed => forall m, (m <= n)%nat -> dB m B seed) ->
  forall f first p, X p -> (B + 3 * n + (if first : bool then 2 else 0) <= f)%nat -> ends n any_st (jr_map (run f) p first).
Proof.
  intros HB HX. assert (W : forall n', (n' <= n)%nat -> forall f p, X p -> (B + 3 * n' <= f)%nat -> ends n' any_st (jr_map (run f) p false)).
  { induction n' as [n' IH] using (well_founded_induction lt_wf). intros Hn' f p Hp Hf. destruct f as [|f]; [lia|].
    destruct (HX p Hp) as (kseed & k & -> & Hk & He & (rn & Hn) & Hs). change (ends n' any_st (j_step_map (run f) (MKey kseed k) false)).
    apply e_step_key.
    - rewrite Hn. apply mret_ends. lia.
    - intros e b. destruct (He e) as (r & ->). apply mret_ends. lia.
    - intros m ->. split; [apply (Hk m ltac:(lia) f true); lia|]. intros u.
      destruct (Hs u) as [(r & ->)|(vseed & k2 & -> & Hv & He2 & Hs2)]; [apply mret_ends; lia|].
      destruct f as [|f]; [lia|]. change (ends m any_st (j_step_map (run f) (MVal vseed k2) false)).
      apply e_step_val; [apply (Hv m ltac:(lia) f false); lia|]. intros [a|e]; [destruct (Hs2 a) as [(r & ->)|Hx]; [apply mret_ends; lia|apply IH; auto; lia]|].
      destruct (He2 e) as (r & ->). apply mret_ends. lia. }
  intros f [|] p Hp Hf; [|apply W; auto; lia]. destruct f as [|f]; [lia|].
  destruct (HX p Hp) as (kseed & k & -> & Hk & He & (rn & Hn) & Hs). change (ends n any_st (j_step_map (run f) (MKey kseed k) true)).
  apply e_step_key.
  - rewrite Hn. apply mret_ends. lia.
  - intros e b. destruct (He e) as (r & ->). apply mret_ends. lia.
  - intros m ->. split; [apply (Hk n ltac:(lia) f true); lia|]. intros u.
    destruct (Hs u) as [(r & ->)|(vseed & k2 & -> & Hv & He2 & Hs2)]; [apply mret_ends; lia|].
    destruct f as [|f]; [lia|]. change (ends n any_st (j_step_map (run f) (MVal vseed k2) false)).
    apply e_step_val; [apply (Hv n ltac:(lia) f false); lia|]. intros [a|e]; [destruct (Hs2 a) as [(r & ->)|Hx]; [apply mret_ends; lia|apply W; auto; lia]|].
    destruct (He2 e) as (r & ->). apply mret_ends. lia.
Qed.
Definition map_stops (X : mprog val js_de_error -> Prop) (G : deser val js_de_error -> Prop) : Prop := forall p, X p -> exists kseed k,
  p = MKey kseed k /\ G kseed /\ (forall e, exists r, k (Err e) = MRet r) /\ (exists r, k (Ok None) = MRet r) /\
  (forall u, (exists r, k (Ok (Some u)) = MRet r) \/
     exists vseed k2, k (Ok (Some u)) = MVal vseed k2 /\ G vseed /\ (forall e, exists r, k2 (Err e) = MRet r) /\ forall u, X (k2 (Ok u))).
Lemma map_bound X B n : (3 <= B)%nat -> map_stops X (fun seed => forall m, (m <= n)%nat -> dB m B seed) ->
  forall f first p, X p -> (B + 3 * n + (if first : bool then 2 else 0) <= f)%nat -> ends n any_st (jr_map (run f) p first).
Proof.
  intros HB HX. apply map_bound_or; auto. intros p Hp. destruct (HX p Hp) as (kseed & k & H1 & H2 & H4 & H5 & H6). exists kseed, k. repeat (split; [assumption|]).
  intros u. destruct (H6 u) as [H|(vseed & k2 & H7 & H8 & H9 & H10)]; [left; exact H|right]. exists vseed, k2. auto 10.
Qed.

(** Requests for values whose visitor is within the budget. *)
Definition v_within (n B : nat) (m : dmethod) (v : visitor val js_de_error) : Prop :=
  (forall n', n = S n' -> sB n' (B + 3) (visit_seq v) /\ mB n' (B + 3) (visit_map v)) /\
  (m = DOption -> dB n B (visit_some v)) /\ (m = DNewtypeStruct -> dB n B (visit_newtype v)) /\ (m = DEnum -> eB n B (visit_enum v)).
Lemma req_bound n B m v post : v_within n B m v -> dB n (S B) (DReq m v post).
Proof.
  intros (H1 & H2 & H3 & H4) f key Hf. destruct f as [|f]; [lia|]. change (ends n (pre key) (j_step_de ar fl any_f32 dec (run f) key (DReq m v post))).
  cbn [j_step_de]. apply ends_post. destruct key.
  - apply e_key. intros E u. apply H4; auto. lia.
  - apply e_method; try (intros n' E; apply H1; auto; lia).
    + intros E. apply (H2 E f false). lia.
    + intros E. apply (H3 E f false). lia.
    + intros E u. apply H4; auto. lia.
Qed.

(** ** IgnoredAny and self-describing types *)
Lemma ignored_bound n : dB n 6 ignored.
Proof.
  induction n as [n IH] using (well_founded_induction lt_wf).
  destruct (@ignored_req js_de_error) as (v & -> & _ & _ & _ & Es & Em).
  apply req_bound. split; [|split; [|split]; discriminate]. intros n' ->. rewrite Es, Em. split; intros f Hf.
  - eapply (seq_bound (fun p => p = ignored_seq) ignored 6 n'); [lia| | |reflexivity|cbn; lia].
    + intros p ->. eexists. split; [apply ignored_seq_eq|]. repeat split; eauto.
    + intros. apply IH. lia.
  - eapply (map_bound (fun p => p = ignored_map) 6 n'); [lia| |reflexivity|cbn; lia].
    intros p ->. exists ignored. eexists. split; [apply ignored_map_eq|].
    split; [intros; apply IH; lia|]. split; [eauto|]. split; [eauto|]. intros u. right. exists ignored. eexists. split; [reflexivity|].
    split; [intros; apply IH; lia|]. split; eauto.
Qed.
Lemma any_bound n : dB n 6 any.
Proof.
  induction n as [n IH] using (well_founded_induction lt_wf).
  rewrite any_eq. apply req_bound. split; [|split; [|split]; discriminate]. intros n' ->.
  change (visit_seq j_any_visitor) with (any_seq []). change (visit_map j_any_visitor) with (any_map []). split; intros f Hf.
  - eapply (seq_bound (fun p => exists acc, p = any_seq acc) any 6 n'); [lia| | |eauto|cbn; lia].
    + intros p (acc & ->). rewrite any_seq_eq. eexists. split; [reflexivity|]. repeat split; eauto.
    + intros. apply IH. lia.
  - eapply (map_bound (fun p => exists acc, p = any_map acc) 6 n'); [lia| |eauto|cbn; lia].
    intros p (acc & ->). rewrite any_map_eq. exists any. eexists. split; [reflexivity|].
    split; [intros; apply IH; lia|]. split; [eauto|]. split; [eauto|]. intros u. right. exists any. eexists. split; [reflexivity|].
    split; [intros; apply IH; lia|]. split; eauto.
Qed.

(** ** Types *)
Definition v_all (B : nat) (v : visitor val js_de_error) : Prop := forall n,
  sB n (B + 3) (visit_seq v) /\ mB n (B + 3) (visit_map v) /\
  dB n B (visit_some v) /\ dB n B (visit_newtype v) /\ eB n B (visit_enum v).
Lemma all_within n B m v : v_all B v -> v_within n B m v.
Proof. intros H. split; [intros n' _; destruct (H n') as (? & ? & _); auto|]. destruct (H n) as (_ & _ & H3 & H4 & H5). auto. Qed.

Definition t_within (t : ty) : Prop := exists m v post, prog t = DReq m v post /\ v_all (10 * type_size t - 1) v.
Lemma size_pos t : (1 <= type_size t)%nat.
Proof. destruct t; cbn; lia. Qed.
Lemma t_bound t n B : t_within t -> (10 * type_size t <= B)%nat -> dB n B (prog t).
Proof.
  intros (m & v & post & -> & H) HB. pose proof (size_pos t). apply (dB_less n n B (S (10 * type_size t - 1))); [lia|lia|].
  apply req_bound, all_within. exact H.
Qed.

Lemma dret_b n B r : (1 <= B)%nat -> dB n B (DRet r).
Proof. intros H f key Hf. destruct f; [lia|]. apply ends_lift. Qed.
Lemma sret_b n B r : (1 <= B)%nat -> sB n B (SRet r).
Proof. intros H f Hf. apply sret_ends. lia. Qed.
Lemma mret_b n B r : (1 <= B)%nat -> mB n B (MRet r).
Proof. intros H f Hf. apply mret_ends. lia. Qed.
Lemma eret_b n B r : (1 <= B)%nat -> eB n B (ERet r).
Proof. intros H f u Hf. destruct f; [lia|]. apply ends_lift. Qed.

Lemma seq_loop_b n B t acc : (3 <= B)%nat -> (forall n, dB n B t) -> sB n (B + 2) (SHint (fun _ => seq_loop t acc)).
Proof.
  intros HB H f Hf. destruct f as [|f]; [lia|]. change (ends n any_st (jr_seq (run f) (seq_loop t acc) true)).
  eapply (seq_bound (fun p => exists acc, p = seq_loop t acc) t B n); [auto| |auto|eauto|cbn; lia].
  intros p (acc' & ->). eexists. split; [rewrite (sfrob_eq (seq_loop _ _)); reflexivity|]. repeat split; eauto.
Qed.
Lemma map_loop_b n B k v acc : (3 <= B)%nat -> (forall n, dB n B k) -> (forall n, dB n B v) -> mB n (B + 3) (MHint (fun _ => map_loop k v acc)).
Proof.
  intros HB Hk Hv f Hf. destruct f as [|f]; [lia|]. change (ends n any_st (jr_map (run f) (map_loop k v acc) true)).
  eapply (map_bound (fun p => exists acc, p = map_loop k v acc) B n); [auto| |eauto|cbn; lia].
  intros p (acc' & ->). exists k. eexists. split; [rewrite (mfrob_eq (map_loop _ _ _)); reflexivity|].
  split; [auto|]. split; [eauto|]. split; [eauto|]. intros u. right. exists v. eexists. split; [reflexivity|]. split; [auto|]. split; eauto.
Qed.
Lemma tuple_b seeds : forall bs n f first acc, Forall2 (fun b sd => (1 <= b)%nat /\ forall n, dB n b (fst sd)) bs seeds ->
  (2 + list_sum bs + 3 * n <= f)%nat -> ends n any_st (jr_seq (run f) (tuple_prog JDeserializeError seeds acc) first).
Proof.
  induction seeds as [|[seed d] seeds IH]; intros bs n f first acc HF Hf.
  - apply sret_ends. lia.
  - inversion HF as [|b sd bs' ? [Hb Hd] HF' ]; subst. cbn [fst] in Hd. cbn [list_sum fold_right] in Hf. change (fold_right Nat.add 0%nat bs') with (list_sum bs') in Hf.
    cbn [tuple_prog]. destruct f as [|f]; [lia|].
    match goal with |- ends _ _ (jr_seq _ (SNext ?sd ?k) _) => change (ends n any_st (j_step_seq (run f) (SNext sd k) first)) end.
    apply e_step_seq.
    + destruct d; [eapply IH; eauto; lia|apply sret_ends; lia].
    + intros. apply sret_ends. lia.
    + intros m Hm. assert (m <= n)%nat by (unfold after in Hm; destruct first; lia). split; [apply (Hd m f false); lia|].
      intros u. eapply IH; eauto. lia.
Qed.
Lemma ident_b n B strict ns : (2 <= B)%nat -> dB n B (ident JDeserializeError strict ns).
Proof.
  intros HB. apply (dB_less n n B 2); [lia|lia|]. unfold ident, request. apply req_bound.
  split; [|split; [|split]; discriminate]. intros n' _. split; [apply sret_b; lia|apply mret_b; lia].
Qed.
Lemma struct_loop_b n B names seeds absent got : (6 <= B)%nat -> (forall n seed, In seed seeds -> dB n B seed) ->
  mB n (B + 2) (struct_loop JDeserializeError names seeds absent got).
Proof.
  intros HB Hs f Hf.
  eapply (map_bound (fun p => exists got, p = struct_loop JDeserializeError names seeds absent got) B n); [lia| |eauto|cbn; lia].
  intros p (got' & ->). exists (ident JDeserializeError false names). eexists.
  split; [rewrite (mfrob_eq (struct_loop _ _ _ _ _)); reflexivity|].
  split; [intros; apply ident_b; lia|]. split; [eauto|]. split; [eauto|]. intros u.
  assert (Hi : exists vseed k2, MVal ignored (fun r : result val js_de_error =>
        match r with Ok _ => struct_loop JDeserializeError names seeds absent got' | Err e => MRet (Err e) end) = MVal vseed k2 /\
      (forall m, (m <= n)%nat -> dB m B vseed) /\ (forall e, exists r, k2 (Err e) = MRet r) /\
      (forall u, exists got, k2 (Ok u) = struct_loop JDeserializeError names seeds absent got)).
  { exists ignored. eexists. split; [reflexivity|]. split; [|split; eauto].
    intros m _. apply (dB_less m m B 6); [lia|lia|apply ignored_bound]. }
  destruct u; try (right; exact Hi). destruct o as [i|]; [|right; exact Hi].
  destruct (nth_error seeds i) as [seed|] eqn:Es; [|left; eauto]. destruct (nth_error got' i) as [[w|]|]; [left; eauto| |left; eauto].
  right. exists seed. eexists. split; [reflexivity|]. split; [intros; apply Hs; eapply nth_error_In; eauto|]. split; eauto.
Qed.
Lemma enum_b n B names cs : (6 <= B)%nat ->
  (forall k c, In (k, c) cs -> (forall n, dB n B c) /\ forall m v post, c = DReq m v post -> v_all B v) ->
  eB n (B + 1) (enum_prog JDeserializeError names cs).
Proof.
  intros HB Hc f u Hf. destruct f as [|f]; [lia|].
  match goal with |- ends _ _ (jr_enum _ _ (EVariant ?sd ?a ?b)) => change (ends n any_st (j_step_enum (run f) u (EVariant sd a b))) | _ => idtac end.
  unfold enum_prog. change (ends n any_st (j_step_enum (run f) u (enum_prog JDeserializeError names cs))). unfold enum_prog. cbn [j_step_enum].
  apply ends_try'.
  - apply ends_bind'; [apply (ident_b n B true names ltac:(lia) f false); lia|]. intros a. apply ends_bind'.
    + apply ends_if; intros _; [apply (ends_lift _ _ (Ok tt))|eapply ends_tri, tri_colon].
    + intros _. apply (ends_lift _ _ (Ok a)).
  - intros [a|e]; [|apply ends_lift]. destruct a; try (apply ends_lift). destruct o as [i|]; [|apply ends_lift].
    destruct (nth_error cs i) as [[k c]|] eqn:E; [|apply ends_lift]. apply nth_error_In in E. destruct (Hc k c E) as [Hd Hv].
    destruct k.
    + apply ends_lift.
    + apply e_variant; try discriminate; [|intros ? ? [?|?]; discriminate].
      intros seed post [= <- _]. apply (Hd n f false). lia.
    + destruct c as [r|k|m v post]; try apply ends_lift. specialize (Hv m v post eq_refl).
      apply e_variant; try discriminate. intros v' post' [[= <- _]|?]; [|discriminate]. intros m' ->.
      destruct (Hv m') as (H1 & _). apply H1. lia.
    + destruct c as [r|k|m v post]; try apply ends_lift. specialize (Hv m v post eq_refl).
      apply e_variant; try discriminate.
      * intros v' post' [?|[= <- _]]; [discriminate|]. intros m' ->. destruct (Hv m') as (H1 & _). apply H1. lia.
      * intros v' post' [= <- _] m' ->. destruct (Hv m') as (_ & H1 & _). apply H1. lia.
Qed.

Lemma sB_less n B B' p : (B' <= B)%nat -> sB n B' p -> sB n B p.
Proof. intros H1 H f Hf. apply H. lia. Qed.
Lemma mB_less n B B' p : (B' <= B)%nat -> mB n B' p -> mB n B p.
Proof. intros H1 H f Hf. apply H. lia. Qed.
Lemma eB_less n B B' p : (B' <= B)%nat -> eB n B' p -> eB n B p.
Proof. intros H1 H f u Hf. apply H. lia. Qed.
Lemma v_all_less B B' v : (B' <= B)%nat -> v_all B' v -> v_all B v.
Proof.
  intros HB H n. destruct (H n) as (H1 & H2 & H3 & H4 & H5). split; [|split; [|split; [|split]]].
  - eapply sB_less; [|exact H1]. lia.
  - eapply mB_less; [|exact H2]. lia.
  - eapply dB_less; [| |exact H3]; lia.
  - eapply dB_less; [| |exact H4]; lia.
  - eapply eB_less; [|exact H5]. lia.
Qed.
Lemma sum_in {A} (g : A -> nat) l x : In x l -> (g x <= list_sum (map g l))%nat.
Proof. induction l as [|y l IH]; cbn; [tauto|]. intros [->|H]; [lia|]. specialize (IH H). unfold list_sum in IH. lia. Qed.
Lemma sum_scale {A} (g : A -> nat) l : list_sum (map (fun x => 10 * g x)%nat l) = (10 * list_sum (map g l))%nat.
Proof. induction l as [|x l IH]; auto. cbn in *. unfold list_sum in *. lia. Qed.

Ltac rets := first [apply sret_b; lia|apply mret_b; lia|apply dret_b; lia|apply eret_b; lia].
Lemma then_bound t f n B : t_within t -> (10 * type_size t <= B)%nat -> dB n B (then_ (prog t) f).
Proof.
  intros (m & v & post & E & H) HB. rewrite E. cbn [then_]. pose proof (size_pos t).
  apply (dB_less n n B (S (10 * type_size t - 1))); [lia|lia|]. apply req_bound, all_within. exact H.
Qed.
Lemma tuple_within l B n acc : Forall t_within l -> (10 * list_sum (map type_size l) + 2 <= B)%nat ->
  sB n B (tuple_prog JDeserializeError (map (fun t => (prog t, None)) l) acc).
Proof.
  intros HF HB f Hf. eapply (tuple_b _ (map (fun t => 10 * type_size t)%nat l)); [|rewrite sum_scale; lia].
  clear -HF room. induction HF as [|t l Ht HF IH]; cbn [map]; constructor; auto. pose proof (size_pos t).
  split; [lia|]. intros n. apply t_bound; auto.
Qed.
Lemma fields_within (fs : list (bytes * fattr * ty)) B n acc : Forall (fun f => t_within (snd f)) fs ->
  (10 * list_sum (map (fun f => type_size (snd f)) fs) + 2 <= B)%nat ->
  sB n B (tuple_prog JDeserializeError (map (fun f => (prog (snd f), default_of (attr_of f))) fs) acc).
Proof.
  intros HF HB f Hf. eapply (tuple_b _ (map (fun f => 10 * type_size (snd f))%nat fs)); [|rewrite (sum_scale (fun f => type_size (snd f))); lia].
  clear -HF room. induction HF as [|t l Ht HF IH]; cbn [map]; constructor; auto. pose proof (size_pos (snd t)).
  split; [lia|]. intros n. apply t_bound; auto.
Qed.

Theorem types_within t : t_within t.
Proof.
  induction t using ty_ind'; unfold t_within; cbn [denote type_size]; unfold request;
    (eexists; eexists; eexists; split; [reflexivity|]); intros n; cbn [visit_seq visit_map visit_some visit_newtype visit_enum mk_visitor
      on_seq on_map on_some on_newtype on_enum v_bool v_int v_f32 v_f64 v_char v_str v_bytes v_unit v_option v_newtype v_seq v_map v_struct v_enum];
    (split; [|split; [|split; [|split]]]); try rets.
  - apply then_bound; auto. lia.
  - apply t_bound; auto. lia.
  - eapply sB_less; [|apply (seq_loop_b n (10 * type_size t)); [pose proof (size_pos t); lia|intros; apply t_bound; auto]]. lia.
  - apply tuple_within; auto. lia.
  - apply tuple_within; auto. lia.
  - pose proof (size_pos t1). eapply mB_less; [|apply (map_loop_b n (10 * (type_size t1 + type_size t2))); [lia|intros; apply t_bound; auto; lia..]]. lia.
  - apply fields_within; auto. lia.
  - eapply mB_less; [|apply (struct_loop_b n (10 * list_sum (map (fun f => type_size (snd f)) fs) + 6)); [lia|]]; [lia|].
    intros n0 seed Hin. apply in_map_iff in Hin. destruct Hin as (f & <- & Hin). rewrite Forall_forall in H. apply t_bound; auto.
    pose proof (sum_in (fun f : bytes * fattr * ty => type_size (snd f)) fs f Hin). lia.
  - eapply eB_less; [|apply (enum_b n (10 * list_sum (map (fun f => type_size (snd f)) vs) + 6)); [lia|]]; [lia|].
    intros k c Hin. apply in_map_iff in Hin. destruct Hin as (f & [= <- <-] & Hin). rewrite Forall_forall in H.
    pose proof (sum_in (fun f : bytes * vkind * ty => type_size (snd f)) vs f Hin) as Hs. cbn beta in Hs. split.
    + intros. apply t_bound; auto. lia.
    + intros m v post E. destruct (H f Hin) as (m' & v' & post' & E' & Hv). rewrite E in E'. injection E' as <- <- <-.
      eapply v_all_less; [|exact Hv]. lia.
Qed.
End Ends.

(** ** Whole documents *)
Section Top.
Context (ar : arch) (fl : float_parser) (any_f32 : bool) (dec : byte_decoder).

Lemma ends_top p B input fuel : (dec = Base64Decoder -> 3 * zlen input <= usize_max ar) ->
  dB ar fl any_f32 dec (length input) (length input) B p -> (B + 3 * length input <= fuel)%nat ->
  exists s r, js_from_mut_slice ar fl any_f32 dec fuel p input = Done s r.
Proof.
  intros room H Hf. specialize (H fuel false Hf (j_from_mut_slice input)).
  assert (I0 : jinv (length input) (j_from_mut_slice input)).
  { split; [cbn; lia|]. split; [reflexivity|]. split; [constructor|exact I]. }
  assert (L0 : left (length input) (length input) (j_from_mut_slice input)) by (unfold left, jpos; cbn; lia).
  specialize (H I0 (conj I L0)). unfold js_from_mut_slice, dbind.
  destruct (jr_de _ _ _ _) as [s [u|e]| |]; [|eauto|contradiction..]. destruct H as (I1 & _). unfold j_end.
  pose proof (tri_whitespace (length input) False s I1 I) as Hw.
  destruct (eat_whitespace s) as [s1 [c|e]| |]; cbn; try contradiction; unfold dret; eauto.
Qed.
Theorem typed_ends t input fuel : (dec = Base64Decoder -> 3 * zlen input <= usize_max ar) ->
  (10 * type_size t + 3 * length input <= fuel)%nat ->
  exists s r, js_from_mut_slice ar fl any_f32 dec fuel (prog t) input = Done s r.
Proof. intros room Hf. eapply ends_top; [auto| |exact Hf]. apply t_bound; auto. apply types_within. exact room. Qed.
Theorem ignored_ends input fuel : (dec = Base64Decoder -> 3 * zlen input <= usize_max ar) -> (6 + 3 * length input <= fuel)%nat ->
  exists s r, js_from_mut_slice ar fl any_f32 dec fuel ignored input = Done s r.
Proof. intros room Hf. eapply ends_top; [auto| |exact Hf]. apply ignored_bound. exact room. Qed.
Theorem any_ends input fuel : (dec = Base64Decoder -> 3 * zlen input <= usize_max ar) -> (6 + 3 * length input <= fuel)%nat ->
  exists s r, js_from_mut_slice ar fl any_f32 dec fuel any input = Done s r.
Proof. intros room Hf. eapply ends_top; [auto| |exact Hf]. apply any_bound. exact room. Qed.
Theorem budget_irrelevant {U} (p : deser U js_de_error) input f g s s' r r' :
  js_from_mut_slice ar fl any_f32 dec f p input = Done s r -> js_from_mut_slice ar fl any_f32 dec g p input = Done s' r' -> s = s' /\ r = r'.
Proof.
  intros E1 E2. destruct (Nat.le_ge_cases f g) as [L|L].
  - pose proof (from_slice_mono ar fl any_f32 dec f g p input L) as H. rewrite E1, E2 in H. specialize (H ltac:(discriminate)). injection H as <- <-. auto.
  - pose proof (from_slice_mono ar fl any_f32 dec g f p input L) as H. rewrite E1, E2 in H. specialize (H ltac:(discriminate)). injection H as <- <-. auto.
Qed.
(** With the budgets above, decoding decides whether the input is in the grammar. *)
Local Notation readings := (match dec with NopeDecoder => bytes_as_string | HexDecoder => hex_bytes | Base64Decoder => bytes_as_base64 end).
Theorem typed_decides t input fuel : f32_from_str fl [] = None -> f64_from_str fl [] = None ->
  wf t -> all_bytes input -> (dec = Base64Decoder -> 3 * zlen input <= usize_max ar) -> (10 * type_size t + 3 * length input <= fuel)%nat ->
  (exists s v d w1 text w2, js_from_mut_slice ar fl any_f32 dec fuel (prog t) input = Done s (Ok v) /\ input = w1 ++ text ++ w2 /\ any_ws w1 /\ any_ws w2 /\ loose_text d text /\ reads_as any_ws (f32_from_str fl) (f64_from_str fl) readings t v d) \/
  (exists s e, js_from_mut_slice ar fl any_f32 dec fuel (prog t) input = Done s (Err e) /\
     forall v d w1 text w2, input = w1 ++ text ++ w2 -> any_ws w1 -> any_ws w2 -> loose_text d text ->
       ~ reads_as any_ws (f32_from_str fl) (f64_from_str fl) readings t v d).
Proof.
  intros F32 F64 W Hb room Hf. destruct (typed_ends t input fuel room Hf) as (s & [v|e] & E).
  - left. destruct (proj1 (decoding_exact ar fl any_f32 dec t v input F32 F64 W Hb room)) as (d & w1 & text & w2 & H); [eauto|].
    exists s, v, d, w1, text, w2. auto.
  - right. exists s, e. split; auto. intros v d w1 text w2 H1 H2 H3 H4 H5.
    destruct (proj2 (decoding_exact ar fl any_f32 dec t v input F32 F64 W Hb room)) as (f & s' & E'); [exists d, w1, text, w2; auto|].
    destruct (budget_irrelevant _ _ _ _ _ _ _ _ E E') as [_ D]. discriminate D.
Qed.
End Top.

(** The texts of errors. *)
From Coq Require Import String Ascii.
From Verif Require Import Prelude Utf8Spec Utf8 Utf8Facts Writer MpSer MpDe JsonSer JsonDe ErrorText.

Lemma last_app (s t : bytes) : t <> [] -> last (s ++ t) 0 = last t 0.
Proof. intros N. induction s as [|a s IH]; [reflexivity|]. cbn [app]. rewrite <- IH. cbn [last]. destruct (s ++ t) eqn:E; [|reflexivity]. apply app_eq_nil in E. destruct E. contradiction. Qed.
(** A text that ends otherwise is not a message with the suffix. *)
Lemma not_suffix s t u : t <> [] -> (last t 0 =? last u 0) = false -> s ++ t <> u.
Proof. intros N H E. subst u. rewrite last_app in H by auto. rewrite Z.eqb_refl in H. discriminate. Qed.
Ltac no_suffix := match goal with
  | H : ?s ++ ?t = ?u |- _ => exfalso; revert H; apply not_suffix; [discriminate|reflexivity]
  | H : ?u = ?s ++ ?t |- _ => exfalso; symmetry in H; revert H; apply not_suffix; [discriminate|reflexivity]
  end.

Lemma mp_de_named m m' e e' : (m = None <-> m' = None) -> mp_de_text m e = mp_de_text m' e' -> e = e' /\ (e = DeserializeError -> m = m').
Proof.
  intros A H. destruct e, e'; try (split; [reflexivity|discriminate]); try discriminate; cbn [mp_de_text] in H;
    destruct m as [m|], m' as [m'|]; try discriminate; try no_suffix; try (destruct A; intuition discriminate).
  split; auto. intros _. f_equal. exact (app_inv_tail _ _ _ H).
Qed.
Lemma js_de_named m m' e e' : (m = None <-> m' = None) -> js_de_text m e = js_de_text m' e' -> e = e' /\ (e = JDeserializeError -> m = m').
Proof.
  intros A H. destruct e, e'; try (split; [reflexivity|discriminate]); try discriminate; cbn [js_de_text] in H;
    destruct m as [m|], m' as [m'|]; try discriminate; try no_suffix; try (destruct A; intuition discriminate).
  split; auto. intros _. f_equal. exact (app_inv_tail _ _ _ H).
Qed.
Lemma some_inj {A} (a b : A) : Some a = Some b -> a = b.
Proof. congruence. Qed.
Lemma mp_ser_named m m' (e e' : mp_ser_error ser_error) t : (m = None <-> m' = None) ->
  mp_ser_text ser_error_text m e = Some t -> mp_ser_text ser_error_text m' e' = Some t -> e = e' /\ (e = MSerializeError -> m = m').
Proof.
  intros A H H'. rewrite <- H' in H. clear H'. destruct e as [[]| | | | | | | |], e' as [[]| | | | | | | |]; try (split; [reflexivity|discriminate]); try discriminate; cbn [mp_ser_text ser_error_text] in H;
    destruct m as [m|], m' as [m'|]; try discriminate; try (apply some_inj in H; no_suffix); try (destruct A; intuition discriminate).
  split; auto. intros _. f_equal. apply some_inj in H. exact (app_inv_tail _ _ _ H).
Qed.
Lemma js_ser_named m m' (e e' : js_ser_error ser_error) t : (m = None <-> m' = None) ->
  js_ser_text ser_error_text m e = Some t -> js_ser_text ser_error_text m' e' = Some t -> e = e' /\ (e = JSerializeError -> m = m').
Proof.
  intros A H H'. rewrite <- H' in H. clear H'. destruct e as [[]| | | | |], e' as [[]| | | | |]; try (split; [reflexivity|discriminate]); try discriminate; cbn [js_ser_text ser_error_text] in H;
    destruct m as [m|], m' as [m'|]; try discriminate; try (apply some_inj in H; no_suffix); try (destruct A; intuition discriminate).
  split; auto. intros _. f_equal. apply some_inj in H. exact (app_inv_tail _ _ _ H).
Qed.

Definition kept (custom : option bytes) : Prop := match custom with Some s => valid_utf8 s | None => True end.
Ltac utf8_text := match goal with
  | |- valid_utf8 (_ ++ _) => apply valid_utf8_app; [assumption|apply from_utf8_ok_spec; reflexivity]
  | |- valid_utf8 _ => apply from_utf8_ok_spec; reflexivity
  end.
Lemma mp_de_valid m e : kept m -> valid_utf8 (mp_de_text m e) /\ mp_de_text m e <> [].
Proof. intros H. destruct e; try (split; [cbn [mp_de_text]; utf8_text|discriminate]). destruct m as [m|]; cbn [mp_de_text kept] in *; (split; [utf8_text|]). - destruct m; discriminate. - discriminate. Qed.
Lemma js_de_valid m e : kept m -> valid_utf8 (js_de_text m e) /\ js_de_text m e <> [].
Proof. intros H. destruct e; try (split; [cbn [js_de_text]; utf8_text|discriminate]). destruct m as [m|]; cbn [js_de_text kept] in *; (split; [utf8_text|]). - destruct m; discriminate. - discriminate. Qed.
Lemma mp_ser_valid {E} (w : E -> bytes) m e t : kept m -> (forall e, valid_utf8 (w e)) -> mp_ser_text w m e = Some t -> valid_utf8 t.
Proof. intros H Hw. destruct e; cbn [mp_ser_text]; [|..|discriminate]; try (intros X; apply some_inj in X; subst t; first [apply Hw|utf8_text]). destruct m as [m|]; intros X; apply some_inj in X; subst t; cbn [kept] in *; utf8_text. Qed.
Lemma js_ser_valid {E} (w : E -> bytes) m e t : kept m -> (forall e, valid_utf8 (w e)) -> js_ser_text w m e = Some t -> valid_utf8 t.
Proof. intros H Hw. destruct e; cbn [js_ser_text]; [|..|discriminate]; try (intros X; apply some_inj in X; subst t; first [apply Hw|utf8_text]). destruct m as [m|]; intros X; apply some_inj in X; subst t; cbn [kept] in *; utf8_text. Qed.

(** The leaf methods of the JSON deserializer as functions of the unparsed text, and
    the framework used to follow a program along a text: [eats] and [leaves]. *)
From Verif Require Import Prelude PreludeFacts Utf8 Utf8Spec Utf8Facts SerdeDe SerdeSer MpSpec Base64Spec Base64 Base64Facts
  JsonSpec JsonFacts JsonDe JsonDeSafe JsonStr JsonView JsonTok.
Ltac Zify.zify_post_hook ::= Z.div_mod_to_equations.

Section Meth.
Context (ar : arch) (fl : float_parser) (any_f32 : bool) (dec : byte_decoder).
Local Notation M := (DM jde js_de_error).
Local Notation inside := (inside ar dec).
Local Notation views := (views ar dec).
Local Notation follows := (follows ar dec).

(** ** Leaf methods *)
Section Leaf.
Context {U : Type}.
Local Notation visitor := (visitor U js_de_error).
Definition plift (r : result U js_de_error) (k : bytes) : pres U := match r with Ok u => Ok (u, k) | Err e => Err e end.

Definition p_m_bool (v : visitor) : bytes -> pres U := p_ws (fun c r =>
  if c =? 116 then pbind (p_tok tok_rue r) (fun _ k => plift (visit_bool v true) k)
  else if c =? 102 then pbind (p_tok tok_alse r) (fun _ k => plift (visit_bool v false) k)
  else Err JUnexpectedChar).
Definition p_m_int (k : ikind) (v : visitor) (l : bytes) : pres U :=
  pbind (p_int k l) (fun z r => plift (visit_int v k z) r).
Definition p_m_f32 (v : visitor) (l : bytes) : pres U :=
  pbind (p_float (f32_from_str fl) l) (fun o r => plift (visit_f32 v (match o with Some b => b | None => jf32_NAN end)) r).
Definition p_m_f64 (v : visitor) (l : bytes) : pres U :=
  pbind (p_float (f64_from_str fl) l) (fun o r => plift (visit_f64 v (match o with Some b => b | None => jf64_NAN end)) r).
Definition p_m_char (v : visitor) : bytes -> pres U := p_ws (fun c r =>
  if c =? 34 then pbind (p_str r) (fun s k =>
    match char_from_str s with Some c => plift (visit_char v c) k | None => Err JInvalidLength end)
  else Err JExpectedString).
Definition p_m_str (v : visitor) : bytes -> pres U := p_ws (fun c r =>
  if c =? 34 then pbind (p_str r) (fun s k => plift (visit_str v s) k) else Err JExpectedString).
Definition p_m_bytes (v : visitor) (l : bytes) : pres U :=
  pbind (p_bytes ar dec l) (fun s k => plift (visit_bytes v s) k).
Definition p_m_unit (v : visitor) : bytes -> pres U := p_ws (fun c r =>
  if c =? 110 then pbind (p_tok tok_ull r) (fun _ k => plift (visit_unit v) k) else Err JExpectedNull).
Definition p_peek {A} (F : Z -> bytes -> pres A) (l : bytes) : pres A :=
  match l with [] => Err JUnexpectedEof | c :: r => F c r end.
(** After the opening quote. *)
Definition p_numkey (k : ikind) (l : bytes) : pres Z :=
  pbind (p_int k l) (fun n => p_peek (fun c r => if c =? 34 then Ok (n, r) else Err JInvalidNumber)).
Definition p_key_bool (v : visitor) (l : bytes) : pres U :=
  pbind (p_m_bool v l) (fun b => p_peek (fun c r => if c =? 34 then Ok (b, r) else Err JInvalidType)).

Lemma follows_lift r s k : inside s -> unparsed s = k -> follows same (dlift r s) (plift r k).
Proof.
  intros I U0. unfold dlift, plift. destruct r as [u|e]; cbn [JsonView.follows]; [exists s, u; auto|exists s; auto].
Qed.
Lemma view_handed b x {A} (m : M A) {B} (p : A -> B) f : views p m f -> views p (_ <-- j_handed b x ;; m) f.
Proof. intros H s I. unfold dbind, j_handed. apply (H {| j_front := j_front s; j_input := j_input s; j_index := j_index s; j_log := (b, x) :: j_log s |}). exact I. Qed.
Lemma follows_handed b x {A} (m : M A) {B} (p : A -> B) f s :
  (forall s', inside s' -> unparsed s' = unparsed s -> follows p (m s') f) -> inside s -> follows p ((_ <-- j_handed b x ;; m) s) f.
Proof. intros H I. unfold dbind, j_handed. apply H; [exact I|reflexivity]. Qed.

Lemma view_m_bool v : views same (j_deserialize_bool v) (p_m_bool v).
Proof.
  apply views_ws. intros s c r I H _. destruct (c =? 116); [|destruct (c =? 102); [|apply follows_fail]].
  - apply (follows_eat1 ar dec same _ (fun l => pbind (p_tok tok_rue l) (fun _ k => plift (visit_bool v true) k)) s c r); auto.
    apply (views_bind ar dec same same _ _ (p_tok tok_rue) (fun _ k => plift (visit_bool v true) k)); [apply view_tok|].
    intros a s' I'. apply follows_lift; auto.
  - apply (follows_eat1 ar dec same _ (fun l => pbind (p_tok tok_alse l) (fun _ k => plift (visit_bool v false) k)) s c r); auto.
    apply (views_bind ar dec same same _ _ (p_tok tok_alse) (fun _ k => plift (visit_bool v false) k)); [apply view_tok|].
    intros a s' I'. apply follows_lift; auto.
Qed.
Lemma view_m_int k v : views same (j_deserialize_int k v) (p_m_int k v).
Proof.
  apply (views_bind ar dec same same _ _ (p_int k) (fun z r => plift (visit_int v k z) r)); [apply view_int|].
  intros a s I. apply follows_lift; auto.
Qed.
Lemma view_m_f32 v : views same (j_deserialize_f32 fl v) (p_m_f32 v).
Proof.
  apply (views_bind ar dec same same _ _ (p_float (f32_from_str fl)) (fun o r => plift (visit_f32 v (match o with Some b => b | None => jf32_NAN end)) r)); [apply view_float|].
  intros a s I. apply follows_lift; auto.
Qed.
Lemma view_m_f64 v : views same (j_deserialize_f64 fl v) (p_m_f64 v).
Proof.
  apply (views_bind ar dec same same _ _ (p_float (f64_from_str fl)) (fun o r => plift (visit_f64 v (match o with Some b => b | None => jf64_NAN end)) r)); [apply view_float|].
  intros a s I. apply follows_lift; auto.
Qed.
Lemma view_m_char v : views same (j_deserialize_char v) (p_m_char v).
Proof.
  apply views_ws. intros s c r I H _. destruct (c =? 34); [|apply follows_fail].
  apply (follows_eat1 ar dec same _ (fun r => pbind (p_str r) (fun s k =>
    match char_from_str s with Some c => plift (visit_char v c) k | None => Err JInvalidLength end)) s c r); auto.
  apply (views_bind ar dec js_data same _ _ p_str (fun s k =>
    match char_from_str s with Some c => plift (visit_char v c) k | None => Err JInvalidLength end)); [apply view_str|].
  intros a s' I'. destruct (char_from_str (js_data a)); [apply follows_lift; auto|apply follows_fail].
Qed.
Lemma view_m_str v : views same (j_deserialize_str v) (p_m_str v).
Proof.
  apply views_ws. intros s c r I H _. destruct (c =? 34); [|apply follows_fail].
  apply (follows_eat1 ar dec same _ (fun r => pbind (p_str r) (fun s k => plift (visit_str v s) k)) s c r); auto.
  apply (views_bind ar dec js_data same _ _ p_str (fun s k => plift (visit_str v s) k)); [apply view_str|].
  intros a. apply view_handed. intros s' I'. apply follows_lift; auto.
Qed.
Lemma view_m_bytes v : views same (j_deserialize_bytes ar dec v) (p_m_bytes v).
Proof.
  intros s I. unfold p_m_bytes, p_bytes.
  pose proof (ws_state ar dec s I) as W. unfold j_deserialize_bytes, p_ws, dbind at 1.
  destruct (drop_ws (unparsed s)) as [|c r]; [rewrite W; exists s; reflexivity|].
  destruct W as (s1 & -> & I1 & U1 & _).
  set (m := if c =? 34 then _ else _). set (q := if c =? 34 then _ else _).
  assert (V : follows js_data (m s1) q).
  { subst m q. destruct (c =? 34).
    - apply (follows_eat1 ar dec js_data _ (p_bytes_str ar dec) s1 c r); auto. apply view_bytes_str.
    - destruct (c =? 91); [|apply follows_fail].
      apply (follows_eat1 ar dec js_data _ p_array s1 c r); auto. apply view_array. }
  apply (follows_bind ar dec js_data same m _ q (fun s k => plift (visit_bytes v s) k)); auto.
  intros s' a k I' U' _. apply follows_handed; auto. intros s2 I2 U2. apply follows_lift; congruence.
Qed.
Lemma view_m_unit v : views same (j_deserialize_unit v) (p_m_unit v).
Proof.
  apply views_ws. intros s c r I H _. destruct (c =? 110); [|apply follows_fail].
  apply (follows_eat1 ar dec same _ (fun l => pbind (p_tok tok_ull l) (fun _ k => plift (visit_unit v) k)) s c r); auto.
  apply (views_bind ar dec same same _ _ (p_tok tok_ull) (fun _ k => plift (visit_unit v) k)); [apply view_tok|].
  intros a s' I'. apply follows_lift; auto.
Qed.
Lemma view_peek {A} (K : Z -> M A) F : (forall c s r, inside s -> unparsed s = c :: r -> follows same (K c s) (F c r)) ->
  views same (c <-- j_peek ;; K c) (p_peek F).
Proof.
  intros H s I. unfold dbind, j_peek, p_peek.
  assert (En : nth_error (j_input s) (j_index s) = nth_error (unparsed s) 0).
  { unfold unparsed. rewrite nth_error_skipn, Nat.add_0_r. reflexivity. }
  rewrite En. destruct (unparsed s) as [|c r] eqn:E; [exists s; reflexivity|]. cbn [nth_error]. apply H; auto.
Qed.
Lemma view_quote {A} (a : A) e : views same (c <-- j_peek ;; if c =? 34 then _ <-- j_eat_some 1 ;; dret a else dfail e)
  (p_peek (fun c r => if c =? 34 then Ok (a, r) else Err e)).
Proof.
  apply view_peek. intros c s r I H. destruct (c =? 34); [|apply follows_fail].
  apply (follows_eat ar dec same _ _ s 1 [c] r); auto. intros. apply follows_ret; auto.
Qed.
End Leaf.
Arguments plift {U}.
End Meth.

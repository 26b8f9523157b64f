(** JSON serialization fails with the first fault of the value (C63). *)
From Verif Require Import Prelude PreludeFacts Utf8Spec Utf8 Utf8Facts Writer SerMonad SerdeSer MpSpec MpSerSim Base64Spec JsonSpec JsonSer JsonErrMap JsonSerProofs JsonSerRel JsonSerFacts WriterContract SerFaultSpec.

(** The error that stands for a fault. *)
Definition js_named {E} (f : ser_fault) : js_ser_error E :=
  match f with
  | DisplayFailed => JFormatError
  | KeyNotString => JInvalidKeyType
  | _ => JSerializeError
  end.

Section P.
Context {E : Type} (fp : float_printer) (enc : byte_encoder).
Local Notation X := (js_ser_error E).
Local Notation VW := (@VecWriter E).

Definition ends {A} (m : SM bytes X A) (r : result A X) : Prop := forall w, snd (m w) = r.
Definition verdict {A} (o : option ser_fault) (a : A) : result A X :=
  match o with None => Ok a | Some f => Err (js_named f) end.
Lemma ends_ret {A} (a : A) : ends (sret a) (Ok a). Proof. intros w. reflexivity. Qed.
Lemma ends_bind {A B} (m : SM bytes X A) (f : A -> SM bytes X B) a r : ends m (Ok a) -> ends (f a) r -> ends (sbind m f) r.
Proof. intros H1 H2 w. unfold sbind. specialize (H1 w). destruct (m w) as [w' r']. cbn in H1. subst r'. apply H2. Qed.
Lemma ends_or {A B} (m : SM bytes X A) (f : A -> SM bytes X B) o1 a o2 b :
  ends m (verdict o1 a) -> ends (f a) (verdict o2 b) -> ends (sbind m f) (verdict (orelse o1 o2) b).
Proof.
  intros H1 H2. destruct o1; [|eapply ends_bind; eauto]. intros w. unfold sbind. specialize (H1 w). destruct (m w) as [w' r']. cbn in H1. subst r'. reflexivity.
Qed.
(** Followed by something that succeeds. *)
Lemma ends_then {A B} (m : SM bytes X A) (f : A -> SM bytes X B) o a b :
  ends m (verdict o a) -> ends (f a) (Ok b) -> ends (sbind m f) (verdict o b).
Proof. intros H1 H2. replace o with (orelse o None) by (destruct o; reflexivity). eapply ends_or; eauto. Qed.
Lemma ends_gives {A} (m : SM bytes X A) out r : gives m out r -> ends m r.
Proof. intros H w. rewrite H. reflexivity. Qed.
Lemma ends_wb b : ends (js_write_byte VW b) (Ok tt). Proof. intros w. reflexivity. Qed.
Lemma ends_w b : ends (js_write VW b) (Ok tt). Proof. intros w. reflexivity. Qed.
Lemma ends_str s : valid_utf8 s -> ends (js_str VW s) (Ok tt).
Proof. intros H. eapply ends_gives, gives_str, H. Qed.
Lemma ends_char c : is_scalar c -> ends (js_char VW c) (Ok tt).
Proof. intros H. unfold js_char. rewrite encode_utf8_spec by auto. apply ends_str, valid_utf8_char, H. Qed.
Lemma ends_int k z : in_ikind k z -> ends (js_int VW k z) (Ok tt).
Proof. intros H. eapply ends_gives, gives_int, H. Qed.
Lemma ends_sep (first : bool) : ends (if first then sret tt else js_write_byte VW 44) (Ok tt).
Proof. destruct first; intros w; reflexivity. Qed.
Lemma ends_collect p : fmt_all valid_utf8 p -> ends (js_collect_str VW p) (verdict (print_fault p) tt).
Proof.
  intros F. pose proof (@gives_collect E p F) as G. unfold print_fault. destruct (fmt_text p).
  - eapply ends_gives, G.
  - destruct G as [out G]. eapply ends_gives, G.
Qed.
Lemma ends_bytes bs : all_bytes bs -> ends (js_bytes VW enc bs) (Ok tt).
Proof.
  intros H. assert (D : enc = PassThroughByteEncoder \/ enc <> PassThroughByteEncoder) by (destruct enc; auto; right; discriminate).
  destruct D as [->|D]; [intros w; reflexivity|].
  pose proof (@bytes_good E no_ws enc bs eq_refl D H) as G. destruct (bytes_doc_of enc bs); [|contradiction].
  destruct G as (out & G & _). eapply ends_gives, G.
Qed.
Lemma ends_key v : strings_ok v -> ends (js_key VW v) (verdict (key_fault v) tt).
Proof.
  induction v using sval_ind'; intros Hs; cbn [js_key key_fault strings_ok] in *; try (intros w; reflexivity); auto.
  - unfold js_quote. eapply ends_bind; [apply ends_wb|]. eapply ends_bind; [apply ends_int; auto|apply ends_wb].
  - apply ends_char; auto.
  - apply ends_str; auto.
  - apply ends_str; auto.
  - apply ends_collect; auto.
Qed.

(** ** Parts *)
Lemma items_end f g l : Forall (fun x => ends (f x) (verdict (g x) tt)) l -> forall first, exists b,
  ends (js_items VW f l first) (verdict (first_of g l) b).
Proof.
  induction 1 as [|x l Hx _ IH]; intros first; cbn [js_items first_of fold_right].
  - exists first. apply ends_ret.
  - destruct (IH false) as [b Hb]. exists b. eapply ends_or; [|exact Hb]. unfold js_element. eapply ends_bind; [apply ends_sep|].
    eapply ends_then; [exact Hx|apply ends_ret].
Qed.
Lemma entries_end f g l : Forall (fun o => strings_ok (snd o) /\ ends (f (snd o)) (verdict (g (snd o)) tt)) l -> forall first, exists b,
  ends (js_entries VW f l first) (verdict (first_of (fun o : bool * sval => if fst o then key_fault (snd o) else g (snd o)) l) b).
Proof.
  induction 1 as [|[isk x] l [Hs Hx] _ IH]; intros first; cbn [js_entries first_of fold_right fst snd] in *.
  - exists first. apply ends_ret.
  - destruct isk.
    + destruct (IH false) as [b Hb]. exists b. eapply ends_or; [|exact Hb]. unfold js_map_key. eapply ends_bind; [apply ends_sep|].
      eapply ends_then; [apply ends_key, Hs|apply ends_ret].
    + destruct (IH first) as [b Hb]. exists b. eapply ends_or; [|exact Hb]. unfold js_map_value. eapply ends_bind; [apply ends_w|].
      eapply ends_then; [exact Hx|apply ends_ret].
Qed.
Lemma fields_end f g l : Forall (fun fd => valid_utf8 (fst fd) /\ forall x, snd fd = Some x -> ends (f x) (verdict (g x) tt)) l -> forall first, exists b,
  ends (js_fields VW f l first) (verdict (first_of (fun fd : bytes * option sval => match snd fd with Some v => g v | None => None end) l) b).
Proof.
  induction 1 as [|[k [x|]] l [Hk Hx] _ IH]; intros first; cbn [js_fields first_of fold_right fst snd] in *.
  - exists first. apply ends_ret.
  - destruct (IH false) as [b Hb]. exists b. eapply ends_or; [|exact Hb]. unfold js_field. eapply ends_bind; [apply ends_sep|].
    eapply ends_bind; [apply ends_str, Hk|]. eapply ends_bind; [apply ends_w|]. eapply ends_then; [apply Hx; reflexivity|apply ends_ret].
  - destruct (IH first) as [b Hb]. exists b. eapply (ends_or _ _ None); [apply ends_ret|exact Hb].
Qed.
Lemma open_end c : ends (js_open VW c) (Ok true). Proof. intros w. reflexivity. Qed.
Lemma variant_end n sep : valid_utf8 n -> ends (js_open_variant VW n sep) (Ok true).
Proof.
  intros H. unfold js_open_variant. eapply ends_bind; [apply ends_wb|]. eapply ends_bind; [apply ends_str, H|]. eapply ends_bind; [apply ends_w|apply ends_ret].
Qed.

Theorem js_ser_ends v : strings_ok v -> ends (js_ser VW fp enc v) (verdict (js_first_fault v) tt).
Proof.
  induction v using sval_ind'; intros Hs; cbn [js_ser js_first_fault strings_ok] in *; try (intros w; reflexivity); auto.
  - apply ends_int; auto.
  - intros w. unfold js_f32. destruct (is_finite_f32 b); reflexivity.
  - intros w. unfold js_f64. destruct (is_finite_f64 b); reflexivity.
  - apply ends_char; auto.
  - apply ends_str; auto.
  - apply ends_bytes; auto.
  - apply ends_str; auto.
  - destruct Hs as [Vn Hs]. eapply ends_bind; [apply ends_wb|]. eapply ends_bind; [apply ends_str, Vn|]. eapply ends_bind; [apply ends_wb|].
    eapply ends_then; [apply IHv, Hs|apply ends_wb].
  - rewrite all_list_Forall in Hs. eapply ends_bind; [apply open_end|]. destruct (items_end (js_ser VW fp enc) js_first_fault items) with (first := true) as [b Hb];
      [eapply Forall_impl2; [|exact H|exact Hs]; auto|]. eapply ends_then; [exact Hb|apply ends_wb].
  - rewrite all_list_Forall in Hs. eapply ends_bind; [apply open_end|]. destruct (items_end (js_ser VW fp enc) js_first_fault items) with (first := true) as [b Hb];
      [eapply Forall_impl2; [|exact H|exact Hs]; auto|]. eapply ends_then; [exact Hb|apply ends_wb].
  - rewrite all_list_Forall in Hs. eapply ends_bind; [apply open_end|]. destruct (items_end (js_ser VW fp enc) js_first_fault items) with (first := true) as [b Hb];
      [eapply Forall_impl2; [|exact H|exact Hs]; auto|]. eapply ends_then; [exact Hb|apply ends_wb].
  - destruct Hs as [Vn Hs]. rewrite all_list_Forall in Hs. eapply ends_bind; [apply variant_end, Vn|]. destruct (items_end (js_ser VW fp enc) js_first_fault items) with (first := true) as [b Hb];
      [eapply Forall_impl2; [|exact H|exact Hs]; auto|]. eapply ends_then; [exact Hb|apply ends_w].
  - rewrite all_list_Forall in Hs. eapply ends_bind; [apply open_end|]. destruct (entries_end (js_ser VW fp enc) js_first_fault ops) with (first := true) as [b Hb];
      [eapply Forall_impl2; [|exact H|exact Hs]; auto|]. eapply ends_then; [exact Hb|apply ends_wb].
  - rewrite all_list_Forall in Hs. eapply ends_bind; [apply open_end|]. destruct (fields_end (js_ser VW fp enc) js_first_fault fs) with (first := true) as [b Hb].
    { rewrite Forall_forall in *. intros f Hf. specialize (H f Hf). specialize (Hs f Hf). cbn beta in *. split; [tauto|]. intros x Ex. rewrite Ex in *. apply H; tauto. }
    eapply ends_then; [exact Hb|apply ends_wb].
  - destruct Hs as [Vn Hs]. rewrite all_list_Forall in Hs. eapply ends_bind; [apply variant_end, Vn|]. destruct (fields_end (js_ser VW fp enc) js_first_fault fs) with (first := true) as [b Hb].
    { rewrite Forall_forall in *. intros f Hf. specialize (H f Hf). specialize (Hs f Hf). cbn beta in *. split; [tauto|]. intros x Ex. rewrite Ex in *. apply H; tauto. }
    eapply ends_then; [exact Hb|apply ends_w].
  - apply ends_collect; auto.
Qed.
End P.

Theorem js_first_fault_full fp enc v : strings_ok v ->
  match js_first_fault v with
  | Some f => js_full fp enc v = Err (js_named f)
  | None => exists out, js_full fp enc v = Ok out
  end.
Proof.
  intros S. pose proof (@js_ser_ends ser_error fp enc v S []) as H. unfold js_full, js_to_writer.
  match type of H with snd ?x = _ => destruct x as [w r] end. cbn in H. subst r. destruct (js_first_fault v); cbn; eauto.
Qed.
Lemma named_map {E} f (e : js_ser_error E) : (forall x, e <> JWriter x) -> js_err_map (fun _ => BufferFull) e = js_named f -> e = js_named f.
Proof. destruct e, f; cbn; intros H; try discriminate; auto; destruct (H e eq_refl). Qed.
Theorem js_first_fault_writer {W E} (SW : SerWrite W E) inv content : lawful SW inv content ->
  forall fp enc v w, strings_ok v -> displays_propagate v -> inv w ->
  match snd (js_to_writer SW fp enc w v), js_first_fault v with
  | Ok _, o => o = None
  | Err e, o => (exists x, e = JWriter x) \/ e = JFormatError \/ exists f, o = Some f /\ e = js_named f
  end.
Proof.
  intros L fp enc v w S D I. pose proof (js_first_fault_full fp enc v S) as H.
  destruct (js_to_writer SW fp enc w v) as [w' [[]|e]] eqn:Ew; cbn [snd].
  - destruct (js_to_writer_ok_bytes SW inv content L fp enc v w w' D I Ew) as (out & Eo & _).
    destruct (js_first_fault v); [congruence|reflexivity].
  - assert (Dw : (exists x, e = JWriter x) \/ forall x, e <> JWriter x) by (destruct e; eauto; right; discriminate).
    assert (Df : e = JFormatError \/ e <> JFormatError) by (destruct e; auto; right; discriminate).
    destruct Dw as [Dw|Dw]; [auto|]. destruct Df as [Df|Df]; [auto|]. right. right.
    pose proof (js_to_writer_own_error SW inv content L fp enc v w w' e D I Ew Dw Df) as Eo.
    destruct (js_first_fault v) as [f|]; [|destruct H as [out H]; congruence].
    exists f. split; [reflexivity|]. apply named_map; [exact Dw|]. rewrite H in Eo. injection Eo as Eo. symmetry. exact Eo.
Qed.

(** Consequences of [js_ser_good] for each byte encoder; UTF-8 validity; absence of panics. *)
From Verif Require Import Prelude PreludeFacts Utf8Spec Utf8 Utf8Facts Writer SerMonad SerdeSer MpSerSim
  Base64Spec Base64 Base64Facts JsonSpec JsonFacts JsonSer JsonErrMap JsonSerProofs JsonSerRel.
Ltac Zify.zify_post_hook ::= Z.div_mod_to_equations.

Section E.
Context {E : Type}.
Local Notation VW := (@VecWriter E).

Lemma byte_items_good (ws : bytes -> Prop) bs : ws [] -> all_bytes bs -> forall first, exists out b,
  gives (js_byte_items VW first bs) out (Ok b) /\
  match bs with [] => out = [] | _ => exists r, out = seps first ++ r /\ elements ws canon canon json_number (map (fun b => JNum (dec_text b)) bs) r end.
Proof.
  intros Wn. induction 1 as [|x l Hx Hl IH]; intros first; cbn [js_byte_items map].
  - exists [], first. split; [apply gives_ret|auto].
  - assert (Gx : gives (js_u32 VW x) (dec_text x) (Ok tt)).
    { apply (gives_int U32). unfold in_ikind, is_byte in *. cbn. lia. }
    destruct (IH false) as (ol & b & Gl & Hl'). do 2 eexists. split.
    + eapply gives_bind; [|exact Gl]. unfold js_element. eapply gives_bind; [apply gives_sep|].
      eapply gives_bind; [exact Gx|apply gives_ret].
    + exists (dec_text x ++ ol). rewrite app_nil_r, <- app_assoc. split; [auto|]. destruct l as [|y l].
      * subst ol. apply (L_one ws canon canon json_number _ (dec_text x) [] []); auto. constructor. apply dec_text_number.
      * destruct Hl' as (r & -> & El). apply (L_more ws canon canon json_number _ (dec_text x) _ r [] []); auto. constructor. apply dec_text_number.
Qed.

Lemma bytes_good (ws : bytes -> Prop) enc bs : ws [] -> enc <> PassThroughByteEncoder -> all_bytes bs ->
  match bytes_doc_of enc bs with
  | Some j => exists out, gives (js_bytes VW enc bs) out (Ok tt) /\ jtext ws canon canon json_number j out
  | None => False
  end.
Proof.
  intros Wn Ne Hb. destruct enc; cbn [bytes_doc_of bytes_array bytes_hex bytes_base64 js_bytes]; [| | |congruence].
  - destruct (byte_items_good ws bs Wn Hb true) as (out & b & G & Hj). exists (91 :: out ++ [93]). split.
    + eapply gives_then; [apply gives_wb|eapply gives_bind; [exact G|apply gives_wb]|reflexivity].
    + destruct bs as [|x l]; [subst out; apply (T_arr0 ws canon canon json_number []); auto|]. destruct Hj as (r & -> & El). apply T_arr. exact El.
  - exists (34 :: hex_text bs ++ [34]). split.
    + eapply gives_then; [apply gives_wb|eapply gives_bind; [apply gives_hex; auto|apply gives_wb]|reflexivity].
    + apply T_str, plain_ascii_canon. apply hex_text_plain; auto.
  - exists (34 :: b64_text bs ++ [34]). split.
    + eapply gives_then; [apply gives_wb|eapply gives_bind; [apply gives_base64; auto|apply gives_wb]|reflexivity].
    + apply T_str, plain_ascii_canon. apply b64_text_plain; auto.
Qed.

Lemma finite32_b b : 0 <= b < 2 ^ 32 -> is_finite_f32 b = negb (b / 2 ^ 23 mod 256 =? 255).
Proof. intros H. unfold is_finite_f32. change (2 ^ 31) with 2147483648. change (2 ^ 23) with 8388608. change (2 ^ 32) with 4294967296 in H. lia. Qed.
Lemma finite64_b b : 0 <= b < 2 ^ 64 -> is_finite_f64 b = negb (b / 2 ^ 52 mod 2048 =? 2047).
Proof.
  intros H. unfold is_finite_f64. change (2 ^ 63) with 9223372036854775808. change (2 ^ 52) with 4503599627370496.
  change (2 ^ 64) with 18446744073709551616 in H. lia.
Qed.

Theorem js_ser_value (ws : bytes -> Prop) fp enc v : ws [] -> enc <> PassThroughByteEncoder -> printer_ok fp ->
  strings_ok v -> maps_ok v ->
  match js_value fp enc v with
  | Some j => exists out, gives (js_ser VW fp enc v) out (Ok tt) /\ jtext ws canon canon json_number j out
  | None => exists out e, gives (js_ser VW fp enc v) out (Err e) /\ key_err e
  end.
Proof.
  intros Wn Ne [P32 P64] Hs Hm.
  apply (js_ser_good fp enc ws (bytes_doc_of enc) (f32_num (format_f32 fp)) (f64_num (format_f64 fp))); auto.
  - intros s Hb. apply bytes_good; auto.
  - intros b Hb. unfold f32_num. rewrite finite32_b by auto. specialize (P32 b Hb). unfold finite32 in P32.
    destruct (_ =? 255) eqn:F; cbn; [auto|]. repeat split. apply P32. lia.
  - intros b Hb. unfold f64_num. rewrite finite64_b by auto. specialize (P64 b Hb). unfold finite64 in P64.
    destruct (_ =? 2047) eqn:F; cbn; [auto|]. repeat split. apply P64. lia.
Qed.
End E.

Lemma gives_to_string fp enc v out r : enc <> PassThroughByteEncoder -> gives (js_ser VecWriter fp enc v) out r ->
  js_to_string fp enc v = match r with Ok _ => Ok out | Err e => Err e end.
Proof. intros Ne G. unfold js_to_string, js_to_writer. rewrite G. cbn. destruct r; [|auto]. destruct enc; auto. congruence. Qed.

(** What [to_string] writes, with the literals it writes. *)
Theorem to_string_canon fp enc v : enc <> PassThroughByteEncoder -> printer_ok fp -> strings_ok v -> maps_ok v ->
  match js_value fp enc v with
  | Some j => exists out, js_to_string fp enc v = Ok out /\ jtext no_ws canon canon json_number j out
  | None => exists e, js_to_string fp enc v = Err e /\ (e = JInvalidKeyType \/ e = JFormatError \/ e = JSerializeError)
  end.
Proof.
  intros Ne P Hs Hm. pose proof (@js_ser_value ser_error no_ws fp enc v eq_refl Ne P Hs Hm) as G.
  destruct (js_value fp enc v) as [j|].
  - destruct G as (out & G & J). exists out. split; [|exact J]. rewrite (gives_to_string _ _ _ _ _ Ne G). auto.
  - destruct G as (out & e & G & K). exists e. split; [|exact K]. rewrite (gives_to_string _ _ _ _ _ Ne G). auto.
Qed.

Theorem to_string_documented fp enc v : enc <> PassThroughByteEncoder -> printer_ok fp -> strings_ok v -> maps_ok v ->
  match js_value fp enc v with
  | Some j => exists out, js_to_string fp enc v = Ok out /\ json_compact j out
  | None => exists e, js_to_string fp enc v = Err e /\ (e = JInvalidKeyType \/ e = JFormatError \/ e = JSerializeError)
  end.
Proof.
  intros Ne P Hs Hm. pose proof (to_string_canon fp enc v Ne P Hs Hm) as G.
  destruct (js_value fp enc v) as [j|]; [|exact G].
  destruct G as (out & G & J). exists out. split; [exact G|]. revert J. apply jtext_mono; auto using canon_string.
Qed.

Theorem to_string_ok_documented fp enc v out : enc <> PassThroughByteEncoder -> printer_ok fp -> strings_ok v -> maps_ok v ->
  js_to_string fp enc v = Ok out -> exists j, js_value fp enc v = Some j /\ json_compact j out.
Proof.
  intros Ne P Hs Hm H. pose proof (to_string_documented fp enc v Ne P Hs Hm) as D.
  destruct (js_value fp enc v) as [j|]; [|destruct D as (e & D & _); congruence].
  destruct D as (o & D & J). exists j. split; [auto|]. congruence.
Qed.

(** ** Strings *)
Theorem to_string_str fp enc s : valid_utf8 s ->
  exists body, js_to_string fp enc (SStr s) = Ok (34 :: body ++ [34]) /\
    str_body false body s /\ valid_utf8 body /\ Forall (fun b => 32 <= b) body.
Proof.
  intros V. exists (esc_text s).
  assert (U : valid_utf8 (34 :: esc_text s ++ [34])).
  { apply (valid_utf8_app [34]); [apply valid_utf8_ascii; repeat constructor; lia|].
    apply valid_utf8_app; [apply esc_text_utf8; auto|apply valid_utf8_ascii; repeat constructor; lia]. }
  split; [|split; [|split]].
  - unfold js_to_string, js_to_writer. cbn [js_ser]. rewrite (gives_str s V). cbn [app].
    destruct enc; auto. rewrite (proj2 (from_utf8_ok_spec _)) by auto. auto.
  - apply esc_text_body. apply valid_utf8_bytes; auto.
  - apply esc_text_utf8; auto.
  - pose proof (valid_utf8_bytes _ V) as A. clear - A. induction A as [|b l Hb Hl IH]; [constructor|].
    unfold esc_text. cbn [flat_map]. apply Forall_app. split; [|exact IH]. unfold is_byte in Hb.
    pose (chk := fun b => forallb (Z.leb 32) (esc_byte b)).
    assert (C : chk b = true) by (apply (zrange_forall chk 256); [vm_compute; reflexivity|lia]).
    unfold chk in C. rewrite forallb_forall in C. apply Forall_forall. intros x Hx. specialize (C x Hx). lia.
Qed.

(** ** Integers *)
Theorem to_string_int fp enc k z : in_ikind k z ->
  exists ds, int_part ds /\
    ((0 <= z /\ js_to_string fp enc (SInt k z) = Ok ds /\ dec_val ds = z) \/
     (z < 0 /\ js_to_string fp enc (SInt k z) = Ok (45 :: ds) /\ dec_val ds = - z)).
Proof.
  intros H. exists (dec_nat (Z.abs z)). destruct (dec_nat_spec (Z.abs z) ltac:(lia)) as [I V]. split; [auto|].
  assert (S : js_to_string fp enc (SInt k z) = Ok (dec_text z)).
  { unfold js_to_string, js_to_writer. cbn [js_ser]. rewrite (gives_int k z H). cbn [app].
    destruct enc; auto. rewrite (proj2 (from_utf8_ok_spec _)); [auto|]. apply valid_utf8_ascii, json_number_ascii, dec_text_number. }
  unfold dec_text in S. destruct (z <? 0) eqn:N.
  - right. rewrite Z.abs_neq in * by lia. repeat split; auto. lia.
  - left. rewrite Z.abs_eq in * by lia. repeat split; auto. lia.
Qed.

Theorem to_string_hex fp bs : all_bytes bs ->
  js_to_string fp HexStrByteEncoder (SBytes bs) = Ok (34 :: hex_text bs ++ [34]).
Proof.
  intros H. apply (gives_to_string fp HexStrByteEncoder (SBytes bs) _ (Ok tt)); [discriminate|]. cbn [js_ser js_bytes].
  eapply gives_then; [apply gives_wb|eapply gives_bind; [apply gives_hex; auto|apply gives_wb]|reflexivity].
Qed.

(** ** Keys *)
Theorem key_literal {E} v w w' : strings_ok v -> js_key (@VecWriter E) v w = (w', Ok tt) ->
  exists s lit, key_doc v = Some s /\ w' = w ++ lit /\ json_string false s lit.
Proof.
  intros Hs H. pose proof (@key_good E v Hs) as G. destruct (key_doc v) as [s|].
  - destruct G as [V G]. rewrite G in H. injection H as <-. do 2 eexists. split; [auto|]. split; [auto|].
    apply canon_string, esc_canon; auto.
  - destruct G as (out & e & G & _). rewrite G in H. discriminate.
Qed.
Theorem key_invalid {W E} (SW : SerWrite W E) v w : invalid_key v -> js_key SW v w = (w, Err JInvalidKeyType).
Proof. induction v using sval_ind'; cbn; try contradiction; auto. Qed.

(** ** UTF-8 *)
Section U.
Context {E : Type}.
Local Notation VW := (@VecWriter E).

(** On the list writer [m] appends valid UTF-8. *)
Definition uni {A} (m : SM bytes (js_ser_error E) A) : Prop :=
  forall w, exists out, fst (m w) = w ++ out /\ valid_utf8 out.
Lemma uni_gives {A} (m : SM bytes (js_ser_error E) A) out r : gives m out r -> valid_utf8 out -> uni m.
Proof. intros G V w. exists out. rewrite G. auto. Qed.
Lemma uni_ret {A} (a : A) : uni (sret a). Proof. eapply uni_gives; [apply gives_ret|apply valid_utf8_nil]. Qed.
Lemma uni_fail {A} e : uni (@sfail _ _ A e). Proof. eapply uni_gives; [apply gives_fail|apply valid_utf8_nil]. Qed.
Lemma uni_bind {A B} (m : SM bytes (js_ser_error E) A) (f : A -> SM bytes (js_ser_error E) B) :
  uni m -> (forall a, uni (f a)) -> uni (sbind m f).
Proof.
  intros Hm Hf w. destruct (Hm w) as (o1 & E1 & V1). unfold sbind. destruct (m w) as [w1 [a|e]]; cbn [fst] in *; subst w1.
  - destruct (Hf a (w ++ o1)) as (o2 & E2 & V2). exists (o1 ++ o2). rewrite app_assoc. split; [auto|apply valid_utf8_app; auto].
  - eauto.
Qed.
Lemma uni_w bs : valid_utf8 bs -> uni (js_write VW bs). Proof. intros. eapply uni_gives; [apply gives_w|auto]. Qed.
Lemma uni_wa bs : Forall (fun b => 0 <= b <= 127) bs -> uni (js_write VW bs).
Proof. intros. apply uni_w, valid_utf8_ascii; auto. Qed.
Lemma uni_wb b : 0 <= b <= 127 -> uni (js_write_byte VW b).
Proof. intros. eapply uni_gives; [apply gives_wb|apply valid_utf8_ascii; repeat constructor; lia]. Qed.
Lemma uni_int k z : in_ikind k z -> uni (js_int VW k z).
Proof. intros. eapply uni_gives; [apply gives_int; auto|]. apply valid_utf8_ascii, json_number_ascii, dec_text_number. Qed.
Lemma uni_quoted s : valid_utf8 s -> valid_utf8 (34 :: esc_text s ++ [34]).
Proof.
  intros V. apply (valid_utf8_app [34]); [apply valid_utf8_ascii; repeat constructor; lia|].
  apply valid_utf8_app; [apply esc_text_utf8; auto|apply valid_utf8_ascii; repeat constructor; lia].
Qed.
Lemma uni_str s : valid_utf8 s -> uni (js_str VW s).
Proof. intros V. eapply uni_gives; [apply gives_str; auto|apply uni_quoted; auto]. Qed.
Lemma uni_collect p : fmt_all valid_utf8 p -> uni (js_collect_str VW p).
Proof.
  intros F. unfold js_collect_str. apply uni_bind; [apply uni_wb; lia|intros]. apply uni_bind; [|intros; apply uni_wb; lia].
  intros w. unfold js_fmt. destruct (@run_collector E p F w) as (out & -> & _ & V). exists out. auto.
Qed.
Lemma uni_if {A} (b : bool) (m n : SM bytes (js_ser_error E) A) : uni m -> uni n -> uni (if b then m else n).
Proof. destruct b; auto. Qed.

Ltac go := repeat first
  [ apply uni_ret | apply uni_fail | apply uni_wb; lia | apply uni_str; solve [auto] | apply uni_int; solve [auto]
  | apply uni_wa; repeat constructor; lia | apply uni_bind; [|intros] | apply uni_if | assumption ].

Lemma uni_bytes enc bs : enc <> PassThroughByteEncoder -> all_bytes bs -> uni (js_bytes VW enc bs).
Proof.
  intros Ne Hb. pose proof (@bytes_good E no_ws enc bs eq_refl Ne Hb) as G.
  destruct (bytes_doc_of enc bs) as [j|] eqn:D; [|contradiction]. destruct enc; [| | |congruence]; cbn [js_bytes].
  - apply uni_bind; [apply uni_wb; lia|intros]. apply uni_bind; [|intros; apply uni_wb; lia].
    clear - Hb. generalize true. induction Hb as [|x l Hx Hl IH]; intros first; cbn [js_byte_items]; [go|].
    apply uni_bind; [|auto]. unfold js_element. apply uni_bind; [go|intros]. apply uni_bind; [|intros; go].
    apply (uni_int U32). unfold in_ikind, is_byte in *. cbn. lia.
  - apply uni_bind; [apply uni_wb; lia|intros]. apply uni_bind; [|intros; apply uni_wb; lia].
    eapply uni_gives; [apply gives_hex; auto|]. apply valid_utf8_ascii. clear - Hb.
    eapply Forall_impl; [|apply hex_text_plain; exact Hb]. cbn. unfold plain_byte. lia.
  - apply uni_bind; [apply uni_wb; lia|intros]. apply uni_bind; [|intros; apply uni_wb; lia].
    eapply uni_gives; [apply gives_base64; auto|]. apply valid_utf8_ascii.
    eapply Forall_impl; [|apply b64_text_plain; exact Hb]. cbn. unfold plain_byte. lia.
Qed.

Lemma uni_key v : strings_ok v -> uni (js_key VW v).
Proof.
  induction v using sval_ind'; intros Hs; cbn [js_key strings_ok] in *; try apply uni_fail; auto.
  - unfold js_quote, js_bool. destruct b; go.
  - unfold js_quote. go.
  - unfold js_char. rewrite encode_utf8_spec by auto. apply uni_str, valid_utf8_char; auto.
  - apply uni_str; auto.
  - apply uni_str; auto.
  - apply uni_collect; auto.
Qed.

Section V.
Variables (fp : float_printer) (enc : byte_encoder).
Hypothesis Hfp : (forall b, valid_utf8 (format_f32 fp b)) /\ (forall b, valid_utf8 (format_f64 fp b)).
Hypothesis Henc : enc <> PassThroughByteEncoder.
Local Notation ser := (js_ser VW fp enc).

Lemma uni_items l : Forall (fun x => uni (ser x)) l -> forall first, uni (js_items VW ser l first).
Proof. induction 1; intros first; cbn; [go|]. apply uni_bind; [|auto]. unfold js_element. go. Qed.
Lemma uni_entries l : Forall (fun o => strings_ok (snd o) /\ uni (ser (snd o))) l -> forall first, uni (js_entries VW ser l first).
Proof.
  induction 1 as [|[isk x] l [Hs Hx] Hl IH]; intros first; cbn [js_entries]; [go|]. apply uni_bind; [|auto].
  cbn in *. destruct isk; unfold js_map_key, js_map_value; go. apply uni_key; auto.
Qed.
Lemma uni_fields l : Forall (fun f => valid_utf8 (fst f) /\ forall x, snd f = Some x -> uni (ser x)) l ->
  forall first, uni (js_fields VW ser l first).
Proof.
  induction 1 as [|[k [x|]] l [Hk Hx] Hl IH]; intros first; cbn [js_fields]; [go| |]; (apply uni_bind; [|auto]); cbn in *; [|go].
  specialize (Hx x eq_refl). unfold js_field. go.
Qed.
Lemma uni_f32 b : uni (js_f32 VW fp b).
Proof. unfold js_f32, js_none. destruct (is_finite_f32 b); [|go]. eapply uni_gives; [apply gives_ws|apply Hfp]. Qed.
Lemma uni_f64 b : uni (js_f64 VW fp b).
Proof. unfold js_f64, js_none. destruct (is_finite_f64 b); [|go]. eapply uni_gives; [apply gives_ws|apply Hfp]. Qed.

Theorem js_ser_uni v : strings_ok v -> uni (ser v).
Proof.
  induction v using sval_ind'; intros Hs; cbn [js_ser strings_ok] in *; unfold js_open, js_open_variant.
  - unfold js_bool. destruct b; go.
  - go.
  - go.
  - apply uni_f32.
  - apply uni_f64.
  - unfold js_char. rewrite encode_utf8_spec by auto. apply uni_str, valid_utf8_char; auto.
  - go.
  - apply uni_bytes; auto.
  - unfold js_none. go.
  - auto.
  - unfold js_none. go.
  - unfold js_none. go.
  - go.
  - auto.
  - destruct Hs. go. auto.
  - rewrite all_list_Forall in Hs. go. apply uni_items. eapply Forall_impl2; [|exact H|exact Hs]; auto.
  - rewrite all_list_Forall in Hs. go. apply uni_items. eapply Forall_impl2; [|exact H|exact Hs]; auto.
  - rewrite all_list_Forall in Hs. go. apply uni_items. eapply Forall_impl2; [|exact H|exact Hs]; auto.
  - destruct Hs as [Vn Hs]. rewrite all_list_Forall in Hs. go. apply uni_items. eapply Forall_impl2; [|exact H|exact Hs]; auto.
  - rewrite all_list_Forall in Hs. go. apply uni_entries. eapply Forall_impl2; [|exact H|exact Hs]; auto.
  - rewrite all_list_Forall in Hs. go. apply uni_fields. rewrite Forall_forall in *. intros f Hf.
    specialize (H f Hf). specialize (Hs f Hf). cbn beta in *. split; [tauto|]. intros x Ex. rewrite Ex in *. apply H; tauto.
  - destruct Hs as [Vn Hs]. rewrite all_list_Forall in Hs. go. apply uni_fields. rewrite Forall_forall in *. intros f Hf.
    specialize (H f Hf). specialize (Hs f Hf). cbn beta in *. split; [tauto|]. intros x Ex. rewrite Ex in *. apply H; tauto.
  - apply uni_collect; auto.
  - go.
Qed.
End V.
End U.

Theorem to_string_utf8 fp enc v out :
  (forall b, valid_utf8 (format_f32 fp b)) -> (forall b, valid_utf8 (format_f64 fp b)) ->
  strings_ok v -> js_to_string fp enc v = Ok out -> valid_utf8 out.
Proof.
  intros H32 H64 Hs H.
  assert (D : enc = PassThroughByteEncoder \/ enc <> PassThroughByteEncoder) by (destruct enc; auto; right; discriminate).
  unfold js_to_string in H. destruct D as [-> | Ne].
  - destruct (js_to_writer _ _ _ _ _) as [o [[]|e]]; [|discriminate]. destruct (from_utf8_ok o) eqn:U; [|discriminate].
    injection H as <-. apply from_utf8_ok_spec; auto.
  - destruct (@js_ser_uni ser_error fp enc (conj H32 H64) Ne v Hs []) as (o & E1 & V).
    unfold js_to_writer in H. destruct (js_ser _ _ _ _ _) as [o' [[]|e]]; [|discriminate]. cbn [fst app] in E1. subst o'.
    destruct enc; try (injection H as <-; auto). congruence.
Qed.

(** ** No panics, on any writer *)
Section N.
Context {W E : Type} (SW : SerWrite W E) (fp : float_printer) (enc : byte_encoder).
Definition calm {A} (m : SM W (js_ser_error E) A) : Prop := forall w, snd (m w) <> Err JPanic.
Lemma calm_ret {A} (a : A) : calm (sret a). Proof. intros w. discriminate. Qed.
Lemma calm_fail {A} e : e <> JPanic -> calm (@sfail _ _ A e). Proof. intros H w. cbn. congruence. Qed.
Lemma calm_bind {A B} (m : SM W (js_ser_error E) A) (f : A -> SM W (js_ser_error E) B) : calm m -> (forall a, calm (f a)) -> calm (sbind m f).
Proof. intros Hm Hf w. unfold sbind. specialize (Hm w). destruct (m w) as [w1 [a|e]]; cbn in *; [apply Hf|congruence]. Qed.
Lemma calm_w bs : calm (js_write SW bs).
Proof. intros w. unfold js_write, slift. destruct (sw_write SW w bs) as [w1 []]; discriminate. Qed.
Lemma calm_wb bs : calm (js_write_byte SW bs).
Proof. intros w. unfold js_write_byte, slift. destruct (sw_write_byte SW w bs) as [w1 []]; discriminate. Qed.
Lemma calm_ws bs : calm (js_write_str SW bs).
Proof. intros w. unfold js_write_str, slift. destruct (sw_write_str SW w bs) as [w1 []]; discriminate. Qed.
Lemma calm_if {A} (b : bool) (m n : SM W (js_ser_error E) A) : calm m -> calm n -> calm (if b then m else n).
Proof. destruct b; auto. Qed.

Ltac go := repeat first
  [ apply calm_ret | apply calm_w | apply calm_wb | apply calm_ws | apply calm_fail; discriminate
  | apply calm_bind; [|intros] | apply calm_if | assumption ].

Lemma calm_int k z : in_ikind k z -> calm (js_int SW k z).
Proof.
  intros H. destruct (int_digits k z H) as (A & B & C & D).
  destruct k; cbn [js_int]; unfold js_i32, js_i64, js_u32, js_u64; first [rewrite A | rewrite B | rewrite C | rewrite D];
    cbn [js_unwrap]; go.
Qed.

Lemma calm_escape_loop rest : forall done pend, valid_utf8 (pend ++ rest) ->
  calm (escape_loop SW (done ++ pend ++ rest) rest (length done + length pend) (length done)).
Proof.
  induction rest as [|b rest IH]; intros done pend V; cbn [escape_loop].
  - rewrite app_nil_r in *. rewrite app_length. apply calm_if; [go|].
    pose proof (str_slice_ok done pend []) as H. rewrite !app_nil_r in H. rewrite H; [|auto|apply valid_utf8_nil].
    cbn [js_unwrap]. go.
  - assert (Hb : is_byte b).
    { pose proof (valid_utf8_bytes _ V) as A. unfold all_bytes in A. rewrite Forall_app in A. destruct A as [_ A]. inversion A; auto. }
    pose proof (escape_code b Hb) as EC.
    destruct (if b <=? 0x1F then _ else _) as [e|].
    + destruct EC as [Lt _]. destruct (utf8_ascii_split pend b rest V) as [V1 V2]; [unfold is_byte in Hb; lia|].
      apply calm_bind; [|intros; apply calm_bind; [go|intros]].
      * rewrite str_slice_ok; [|auto|].
        -- cbn [js_unwrap]. go.
        -- change (b :: rest) with ([b] ++ rest). apply valid_utf8_app; [|auto].
           apply valid_utf8_ascii. constructor; [unfold is_byte in Hb; lia|constructor].
      * specialize (IH (done ++ pend ++ [b]) [] V2). cbn [app] in IH.
        rewrite !app_length in IH. cbn [length] in IH. rewrite <- !app_assoc in IH. cbn [app] in IH.
        replace (length done + (length pend + 1) + 0)%nat with (S (length done + length pend)) in IH by lia.
        replace (length done + (length pend + 1))%nat with (S (length done + length pend)) in IH by lia. exact IH.
    + specialize (IH done (pend ++ [b])). rewrite <- !app_assoc in IH. cbn [app] in IH. rewrite app_length in IH. cbn [length] in IH.
      replace (length done + (length pend + 1))%nat with (S (length done + length pend)) in IH by lia. auto.
Qed.
Lemma calm_escaped s : valid_utf8 s -> calm (format_escaped_str_contents SW s).
Proof. intros V. apply (calm_escape_loop s [] []). auto. Qed.
Lemma calm_str s : valid_utf8 s -> calm (js_str SW s).
Proof. intros V. unfold js_str. go. apply calm_escaped; auto. Qed.
Lemma calm_collect p : fmt_all valid_utf8 p -> calm (js_collect_str SW p).
Proof.
  intros F. unfold js_collect_str. apply calm_bind; [go|intros]. apply calm_bind; [|intros; go].
  intros w. unfold js_fmt.
  assert (P : snd (fst (run_fmt (string_collector_write SW) p (w, false))) = false).
  { revert w F. induction p as [ok|c k1 IH1 k2 IH2]; intros w F; [auto|]. destruct F as (Vc & F1 & F2). cbn [run_fmt].
    unfold string_collector_write at 1. pose proof (calm_escaped c Vc w) as C.
    destruct (format_escaped_str_contents SW c w) as [w' [[]|e]]; [auto|]. cbn in C. destruct e; try congruence; auto. }
  destruct (run_fmt _ _ _) as [[w' pk] ok]. cbn in P |- *. rewrite P. destruct ok; discriminate.
Qed.
Lemma calm_bytes bs : all_bytes bs -> calm (js_bytes SW enc bs).
Proof.
  intros Hb. unfold js_bytes. destruct enc; go.
  - generalize true. induction Hb as [|x l Hx Hl IH]; intros first; cbn [js_byte_items]; [go|].
    apply calm_bind; [|auto]. unfold js_element. apply calm_bind; [go|intros]. apply calm_bind; [|intros; go].
    apply (calm_int U32). unfold in_ikind, is_byte in *. cbn. lia.
  - clear Hb. induction bs; cbn; go.
  - intros w. unfold js_base64. destruct (b64_encode SW bs w) as [w' []]; discriminate.
Qed.
Lemma calm_key v : strings_ok v -> calm (js_key SW v).
Proof.
  induction v using sval_ind'; intros Hs; cbn [js_key strings_ok] in *; try (apply calm_fail; discriminate); auto.
  - unfold js_quote, js_bool. go.
  - unfold js_quote. go. apply calm_int; auto.
  - unfold js_char. rewrite encode_utf8_spec by auto. apply calm_str, valid_utf8_char; auto.
  - apply calm_str; auto.
  - apply calm_str; auto.
  - apply calm_collect; auto.
Qed.
Local Notation ser := (js_ser SW fp enc).
Lemma calm_items l : Forall (fun x => calm (ser x)) l -> forall first, calm (js_items SW ser l first).
Proof. induction 1; intros first; cbn; [go|]. apply calm_bind; [|auto]. unfold js_element. go. Qed.
Lemma calm_entries l : Forall (fun o => strings_ok (snd o) /\ calm (ser (snd o))) l -> forall first, calm (js_entries SW ser l first).
Proof.
  induction 1 as [|[isk x] l [Hs Hx] Hl IH]; intros first; cbn [js_entries]; [go|]. apply calm_bind; [|auto].
  cbn in *. destruct isk; unfold js_map_key, js_map_value; go. apply calm_key; auto.
Qed.
Lemma calm_fields l : Forall (fun f => valid_utf8 (fst f) /\ forall x, snd f = Some x -> calm (ser x)) l ->
  forall first, calm (js_fields SW ser l first).
Proof.
  induction 1 as [|[k [x|]] l [Hk Hx] Hl IH]; intros first; cbn [js_fields]; [go| |]; (apply calm_bind; [|auto]); cbn in *; [|go].
  specialize (Hx x eq_refl). unfold js_field. apply calm_bind; [go|intros]. apply calm_bind; [apply calm_str; auto|intros]. go.
Qed.
Theorem js_ser_calm v : strings_ok v -> calm (ser v).
Proof.
  induction v using sval_ind'; intros Hs; cbn [js_ser strings_ok] in *; unfold js_open, js_open_variant.
  - unfold js_bool. go.
  - apply calm_int; auto.
  - go.
  - unfold js_f32, js_none. go.
  - unfold js_f64, js_none. go.
  - unfold js_char. rewrite encode_utf8_spec by auto. apply calm_str, valid_utf8_char; auto.
  - apply calm_str; auto.
  - apply calm_bytes; auto.
  - unfold js_none. go.
  - auto.
  - unfold js_none. go.
  - unfold js_none. go.
  - apply calm_str; auto.
  - auto.
  - destruct Hs. apply calm_bind; [go|intros]. apply calm_bind; [apply calm_str; auto|intros]. go. auto.
  - rewrite all_list_Forall in Hs. go. apply calm_items. eapply Forall_impl2; [|exact H|exact Hs]; auto.
  - rewrite all_list_Forall in Hs. go. apply calm_items. eapply Forall_impl2; [|exact H|exact Hs]; auto.
  - rewrite all_list_Forall in Hs. go. apply calm_items. eapply Forall_impl2; [|exact H|exact Hs]; auto.
  - destruct Hs as [Vn Hs]. rewrite all_list_Forall in Hs.
    apply calm_bind; [apply calm_bind; [go|intros]; apply calm_bind; [apply calm_str; auto|intros]; go|intros].
    go. apply calm_items. eapply Forall_impl2; [|exact H|exact Hs]; auto.
  - rewrite all_list_Forall in Hs. go. apply calm_entries. eapply Forall_impl2; [|exact H|exact Hs]; auto.
  - rewrite all_list_Forall in Hs. go. apply calm_fields. rewrite Forall_forall in *. intros f Hf.
    specialize (H f Hf). specialize (Hs f Hf). cbn beta in *. split; [tauto|]. intros x Ex. rewrite Ex in *. apply H; tauto.
  - destruct Hs as [Vn Hs]. rewrite all_list_Forall in Hs.
    apply calm_bind; [apply calm_bind; [go|intros]; apply calm_bind; [apply calm_str; auto|intros]; go|intros].
    go. apply calm_fields. rewrite Forall_forall in *. intros f Hf.
    specialize (H f Hf). specialize (Hs f Hf). cbn beta in *. split; [tauto|]. intros x Ex. rewrite Ex in *. apply H; tauto.
  - apply calm_collect; auto.
  - go.
Qed.
End N.

(** ** to_string and the other writers *)
Lemma js_full_to_string fp enc v : enc <> PassThroughByteEncoder -> js_to_string fp enc v = js_full fp enc v.
Proof.
  intros Ne. unfold js_to_string, js_full. destruct (js_to_writer _ _ _ _ _) as [o [[]|e]]; auto. destruct enc; auto. congruence.
Qed.
Lemma js_full_pass fp v : js_to_string fp PassThroughByteEncoder v =
  match js_full fp PassThroughByteEncoder v with Ok out => if from_utf8_ok out then Ok out else Err JUtf8Encode | Err e => Err e end.
Proof. unfold js_to_string, js_full. destruct (js_to_writer _ _ _ _ _) as [o [[]|e]]; auto. Qed.

(** Concrete facts used in the JSON properties: floats written as their bit pattern,
    a newtype as a map key, a surrogate pair in a skipped key. *)
From Verif Require Import Prelude PreludeFacts Utf8Spec Utf8Facts SerdeSer SerdeDe MpSpec Base64Spec JsonSpec JsonTypeSpec JsonFacts JsonSer JsonErrMap
  JsonDe JsonDeSafe Types MpTypeSpec JsonTypedTop JsonTypedSer.
Ltac Zify.zify_post_hook ::= Z.div_mod_to_equations.

Local Notation prog t := (denote JDeserializeError t).

(** The assumptions on floats as the properties state them. *)
Definition law32 (fl : float_parser) (fp : float_printer) : Prop :=
  forall b, 0 <= b < 2 ^ 32 -> finite32 b -> f32_from_str fl (format_f32 fp b) = Some (if b =? 0x80000000 then 0 else b).
Definition law64 (fl : float_parser) (fp : float_printer) : Prop :=
  forall b, 0 <= b < 2 ^ 64 -> finite64 b -> f64_from_str fl (format_f64 fp b) = Some (if b =? 0x8000000000000000 then 0 else b).
Lemma law_inverse32 fl fp : law32 fl fp -> inverse32 fp fl.
Proof.
  intros L b Hb F. rewrite (L b Hb F). unfold f32_image. unfold finite32 in F.
  destruct (Z.eqb_spec (b / 2 ^ 23 mod 256) 255); [contradiction|reflexivity].
Qed.
Lemma law_inverse64 fl fp : law64 fl fp -> inverse64 fp fl.
Proof.
  intros L b Hb F. rewrite (L b Hb F). unfold f64_image. unfold finite64 in F.
  destruct (Z.eqb_spec (b / 2 ^ 52 mod 2048) 2047); [contradiction|reflexivity].
Qed.
Definition flavours : list (byte_encoder * byte_decoder) :=
  [(ArrayByteEncoder, NopeDecoder); (ArrayByteEncoder, HexDecoder); (ArrayByteEncoder, Base64Decoder);
   (HexStrByteEncoder, HexDecoder); (Base64ByteEncoder, Base64Decoder)].
Lemma flavours_match enc dec : In (enc, dec) flavours -> matching enc dec.
Proof. cbn. intros H. repeat (destruct H as [[= <- <-]|H]; [cbn; auto|]). contradiction. Qed.

Section Laws.
Context (ar : arch) (fl : float_parser) (fp : float_printer) (any_f32 : bool) (enc : byte_encoder) (dec : byte_decoder).

Theorem round_trip_image t v out w1 w2 : law32 fl fp -> law64 fl fp -> printer_ok fp -> In (enc, dec) flavours ->
  wf t -> hastype t v -> no_newtype_keys t ->
  js_to_string fp enc (trace t v) = Ok out -> any_ws w1 -> any_ws w2 ->
  (dec = Base64Decoder -> 3 * zlen (w1 ++ out ++ w2) <= usize_max ar) ->
  exists N, forall fuel, (N <= fuel)%nat ->
    exists s, js_from_mut_slice ar fl any_f32 dec fuel (prog t) (w1 ++ out ++ w2) = Done s (Ok (json_image t v)).
Proof.
  intros L32 L64 P F W H K E W1 W2 R. eapply json_round_trip; eauto using law_inverse32, law_inverse64, flavours_match.
Qed.
Theorem round_trip_survives t v out w1 w2 : law32 fl fp -> law64 fl fp -> printer_ok fp -> In (enc, dec) flavours ->
  wf t -> hastype t v -> no_newtype_keys t -> survives t v ->
  js_to_string fp enc (trace t v) = Ok out -> any_ws w1 -> any_ws w2 ->
  (dec = Base64Decoder -> 3 * zlen (w1 ++ out ++ w2) <= usize_max ar) ->
  exists N, forall fuel, (N <= fuel)%nat ->
    exists s, js_from_mut_slice ar fl any_f32 dec fuel (prog t) (w1 ++ out ++ w2) = Done s (Ok v).
Proof.
  intros L32 L64 P F W H K S E W1 W2 R. rewrite <- (proj2 (image_survives t v H) S). apply round_trip_image; auto.
Qed.
Theorem option_image t v out w1 w2 : law32 fl fp -> law64 fl fp -> printer_ok fp -> In (enc, dec) flavours ->
  wf t -> hastype t v -> no_newtype_keys t ->
  js_to_string fp enc (trace t v) = Ok out -> any_ws w1 -> any_ws w2 ->
  (dec = Base64Decoder -> 3 * zlen (w1 ++ out ++ w2) <= usize_max ar) ->
  js_to_string fp enc (trace (TOption t) (USome v)) = Ok out /\
  exists w N, (w = UNone <-> out = [110; 117; 108; 108]) /\ (out <> [110; 117; 108; 108] -> w = USome (json_image t v)) /\
    forall fuel, (N <= fuel)%nat ->
      exists s, js_from_mut_slice ar fl any_f32 dec fuel (prog (TOption t)) (w1 ++ out ++ w2) = Done s (Ok w).
Proof.
  intros L32 L64 P F W H K E W1 W2 R. eapply json_option; eauto using law_inverse32, law_inverse64, flavours_match.
Qed.
End Laws.

(** ** A float is written as the number of its bit pattern *)
Definition bits_fp : float_printer := {| format_f32 := fun b => dec_text (f32_image b); format_f64 := fun b => dec_text (f64_image b) |}.
Definition bits_fl : float_parser :=
  let p t := match t with [] => None | _ => Some (dec_val t) end in {| f32_from_str := p; f64_from_str := p |}.
Lemma dec_val_text z : 0 <= z -> dec_val (dec_text z) = z.
Proof. intros H. unfold dec_text. replace (z <? 0) with false by lia. apply dec_nat_spec. auto. Qed.
Lemma bits_text z : 0 <= z -> match dec_text z with [] => None | _ => Some (dec_val (dec_text z)) end = Some z.
Proof.
  intros H. pose proof (dec_val_text z H) as E. destruct (dec_text_number z) as (m & i & f & e & Et & _ & (Hi & _) & _).
  destruct (dec_text z) as [|c r]; [|congruence]. destruct Hi as [Hi _]. destruct m, i; try discriminate; contradiction.
Qed.
Theorem bits_floats : printer_ok bits_fp /\ law32 bits_fl bits_fp /\ law64 bits_fl bits_fp.
Proof.
  split; [split; intros; apply dec_text_number|]. split; intros b Hb F; cbn [f32_from_str f64_from_str bits_fl format_f32 format_f64 bits_fp].
  - unfold f32_image. unfold finite32 in F. destruct (Z.eqb_spec (b / 2 ^ 23 mod 256) 255); [contradiction|].
    apply bits_text. destruct (b =? 0x80000000); lia.
  - unfold f64_image. unfold finite64 in F. destruct (Z.eqb_spec (b / 2 ^ 52 mod 2048) 2047); [contradiction|].
    apply bits_text. destruct (b =? 0x8000000000000000); lia.
Qed.

(** ** A surrogate pair in a key *)
Theorem surrogate_key_not_skipped ar fl any_f32 dec fuel :
  json_text (JObj [([240; 159; 152; 128], JNum [49])]) ([123; 34; 92;117;100;56;51;100; 92;117;100;101;48;48; 34; 58; 49; 125]) /\
  match js_from_mut_slice ar fl any_f32 dec (9 + fuel) (@ignored _) [123; 34; 92;117;100;56;51;100; 92;117;100;101;48;48; 34; 58; 49; 125] with
  | Done _ (Err e) => e = JInvalidUnicodeCodePoint
  | _ => False
  end.
Proof.
  split; [|destruct any_f32, dec; vm_compute; reflexivity].
  assert (N1 : json_number [49]).
  { exists [], [49], [], []. repeat split; auto; try discriminate; [repeat constructor; unfold is_digit; lia|right; exists 49, []; split; [auto|lia]|left; auto|left; auto]. }
  refine (T_obj _ _ _ _ _ _ (O_one any_ws (json_string true) (json_string true) json_number
    [240; 159; 152; 128] [34; 92;117;100;56;51;100; 92;117;100;101;48;48; 34] (JNum [49]) [49] [] [] [] [] _ _ _ _ (T_num _ _ _ _ _ N1) _)); try constructor.
  exists [92;117;100;56;51;100; 92;117;100;101;48;48]. split; [reflexivity|]. split.
  { apply valid_utf8_ascii. repeat constructor; lia. }
  apply (B_pair true [100;56;51;100] 0xd83d [100;101;48;48] 0xde00 [] []); auto; try lia; [..|constructor].
  - exists 100, 56, 51, 100, 13, 8, 3, 13. repeat split; unfold hex_digit; lia.
  - exists 100, 101, 48, 48, 13, 14, 0, 0. repeat split; unfold hex_digit; lia.
Qed.

(** ** A newtype as a key *)
Theorem newtype_key_lost : exists t v out, wf t /\ hastype t v /\ survives t v /\
  js_to_string bits_fp ArrayByteEncoder (trace t v) = Ok out /\
  forall ar fl any_f32 dec fuel, match js_from_mut_slice ar fl any_f32 dec fuel (prog t) out with Done _ (Ok _) => False | _ => True end.
Proof.
  exists (TMap (TNewtype (TInt U32)) TBool), (UMap [(UInt 1, UBool true)]), [123; 34; 49; 34; 58; 116; 114; 117; 101; 125].
  split; [cbn; auto|]. split; [cbn; split; [|reflexivity]; repeat constructor; unfold in_ikind; cbn; lia|]. split; [cbn; repeat constructor|].
  split; [vm_compute; reflexivity|]. intros ar fl any_f32 dec fuel. do 12 (destruct fuel; [vm_compute; exact I|]). vm_compute. exact I.
Qed.

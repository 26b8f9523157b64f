(** Encodings of types with buffered enums inside that are cut short, and that no two
    values share an encoding (C76). *)
From Verif Require Import Prelude PreludeFacts SerdeSer SerdeDe MpSpec MpDe MpDeView MpDeReads MpDeTop FloatOps Types MpTypeSpec Base64Spec JsonSpec JsonTypeSpec JsonAnySpec JsonDe
  Content Nested NestedReadSpec NestedRead.
From Verif Require MpFuel JsonFuel JsonUnamb JsonNestedSound.
Local Notation readings dec := (match dec with NopeDecoder => bytes_as_string | HexDecoder => hex_bytes | Base64Decoder => bytes_as_base64 end).

Theorem mp_nested_truncated ar fo x v bs c q : arch32up ar -> xwf x -> xadm fo x v (bs ++ c :: q) -> slice_of ar (bs ++ c :: q) ->
  exists N, forall fuel, (N <= fuel)%nat -> exists s, mp_from_slice ar fo fuel (xdenote fo DeserializeError x) bs = Done s (Err UnexpectedEof).
Proof. intros A32 W H Hs. destruct (nested_reads ar fo x W v _ H) as [[N HN] _]. exists N. intros fuel Hf. eapply from_slice_truncated; eauto. Qed.

Theorem mp_nested_unambiguous fo x v v' bs tail : xwf x -> slice64 (bs ++ tail) -> xadm fo x v bs -> xadm fo x v' (bs ++ tail) -> v = v' /\ tail = [].
Proof.
  intros W Hs H H'.
  set (ar := {| usize_max := 2 ^ 64 - 1; overflow_checks := true |}).
  assert (A64 : arch64 ar) by reflexivity.
  destruct (mp_nested_reads ar fo x v bs tail (arch64_up ar A64) W H (slice64_of ar _ A64 Hs)) as [N HN].
  destruct (mp_nested_reads ar fo x v' (bs ++ tail) [] (arch64_up ar A64) W H') as [N' HN']. { rewrite app_nil_r. apply slice64_of; auto. }
  destruct (HN (max N N')) as [s E]; [lia|]. destruct (HN' (max N N')) as [s' E']; [lia|]. rewrite app_nil_r in E'. rewrite E in E'. injection E' as _ <- L.
  split; auto. rewrite zlen_app in L. destruct tail; auto. rewrite zlen_cons in L. pose proof (zlen_nonneg tail). lia.
Qed.

Theorem js_nested_cut ar fl fo any_f32 dec x fuel s v d w1 text p q :
  f32_from_str fl [] = None -> f64_from_str fl [] = None -> xwf x ->
  (dec = Base64Decoder -> 3 * zlen (w1 ++ text) <= usize_max ar) ->
  loose_text d text -> any_ws w1 -> (forall tok, d <> JNum tok) -> w1 ++ text = p ++ q -> q <> [] ->
  js_from_mut_slice ar fl any_f32 dec fuel (xdenote fo JDeserializeError x) p <> Done s (Ok v).
Proof.
  intros F1 F2 Wt R T W Hn E Q H.
  destruct (JsonNestedSound.js_nested_sound ar fl fo any_f32 dec fuel x p s v F1 F2 Wt (JsonUnamb.cut_bytes _ _ _ _ _ E W T) (JsonUnamb.cut_bound ar dec _ _ _ E R) H)
    as (d' & u1 & t' & u2 & -> & U1 & _ & T' & _).
  apply (JsonUnamb.cut_text d w1 text _ q d' u1 t' u2 T W Hn E Q); auto.
Qed.
Theorem js_nested_one_value fo any_f32 f32_of f64_of dec x v v' d text : xwf x -> loose_text d text ->
  xreads fo any_f32 f32_of f64_of any_ws (readings dec) x v d -> xreads fo any_f32 f32_of f64_of any_ws (readings dec) x v' d -> v = v'.
Proof.
  intros W T H H'. set (fl := {| f32_from_str := f32_of; f64_from_str := f64_of |}).
  set (ar := {| usize_max := 3 * zlen text; overflow_checks := true |}).
  assert (R : dec = Base64Decoder -> 3 * zlen ([] ++ text ++ []) <= usize_max ar) by (intros _; cbn [app]; rewrite app_nil_r; cbn; lia).
  rewrite <- JsonNestedSound.bytes_readings in H, H'.
  destruct (js_nested_reads ar fl fo any_f32 dec any_ws (fun w H => H) x v d text [] [] W H T) as [K HK]; auto; try constructor.
  destruct (js_nested_reads ar fl fo any_f32 dec any_ws (fun w H => H) x v' d text [] [] W H' T) as [K' HK']; auto; try constructor.
  destruct (HK (max K K')) as [s E]; [lia|]. destruct (HK' (max K K')) as [s' E']; [lia|]. congruence.
Qed.

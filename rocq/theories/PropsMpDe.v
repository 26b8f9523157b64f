(** Properties of the MessagePack deserializer: skipping messages, memory safety
    for arbitrary Deserialize implementations, the cursor methods. *)
From Verif Require Import Prelude PreludeFacts Utf8Spec SerdeSer SerdeDe MpMagick MpSpec MpDe MpDeView MpDeReads MpDeEat MpDeSafe MpDeTop MpDeTrail.

(** Two concrete targets for the examples. *)
Definition x64 : arch := {| usize_max := 2 ^ 64 - 1; overflow_checks := false |}.
Definition x32 (checks : bool) : arch := {| usize_max := 2 ^ 32 - 1; overflow_checks := checks |}.
Definition no_floats : float_ops := {| int_to_f32 := fun z => z; int_to_f64 := fun z => z;
  f64_to_f32 := fun z => z; f32_to_f64 := fun z => z |}.
(** A deserializer over [input], cursor at [i]. *)
Definition at_index (input : bytes) (i : Z) : mpde :=
  {| d_input := {| sl_off := 0; sl_data := input |}; d_index := i; d_log := [] |}.

(** C15: a complete message, whatever follows, is skipped exactly, on 32-bit
    targets too.  The step budget is explicit: twice the length of the message. *)
Theorem C15_eat_message_exact : forall ar input i m bs tail fuel,
  arch32up ar -> slice_of ar input -> 0 <= i <= zlen input ->
  skipn (Z.to_nat i) input = bs ++ tail -> mp_fmt m bs ->
  (2 * length bs <= fuel)%nat ->
  exists s', eat_message ar fuel (at_index input i) = Done s' (Ok tt) /\
    pos s' = i + zlen bs /\ rest s' = tail.
Proof.
  exact (fun ar input i m bs tail fuel Ha Hs Hi Hr Hm Hf =>
    eat_exact ar (at_index input i) m bs tail fuel (ready_of ar (at_index input i) Ha Hs Hi) Hm Hr Hf).
Qed.
Print Assumptions C15_eat_message_exact.

(** An ext message nested in a map, between a consumed byte and a tail. *)
Example C15_case : mp_fmt (VMap [(VInt 5, VExt 9 [1])]) [0x81; 5; 0xd4; 9; 1] /\
  eat_message x64 10 (at_index [0; 0x81; 5; 0xd4; 9; 1; 0xc1] 1)
  = Done (at_index [0; 0x81; 5; 0xd4; 9; 1; 0xc1] 6) (Ok tt) /\
  eat_message (x32 true) 10 (at_index [0; 0x81; 5; 0xd4; 9; 1; 0xc1] 1)
  = Done (at_index [0; 0x81; 5; 0xd4; 9; 1; 0xc1] 6) (Ok tt) /\ arch32up (x32 true).
Proof.
  split; [|split; [reflexivity|split; [reflexivity|unfold arch32up; cbn; lia]]]. apply (MF_map [(VInt 5, VExt 9 [1])] [0x81] [5; 0xd4; 9; 1]).
  - apply (MH_fix 1). lia.
  - apply (MP_cons _ _ [] [5] [0xd4; 9; 1] []); [repeat constructor; lia| |constructor].
    apply (MF_ext 9 [1] [0xd4]); [unfold is_byte; lia|repeat constructor; unfold is_byte; lia|constructor].
Qed.

(** C16: arbitrary bytes.  eat_message returns, without panicking, having consumed
    [bs]; if it returns Ok then [bs] is one well-formed message. *)
Theorem C16_eat_message_sound : forall ar input i fuel,
  arch64 ar -> slice64 input -> 0 <= i <= zlen input ->
  (2 * length (skipn (Z.to_nat i) input) + 1 <= fuel)%nat ->
  exists s' r, eat_message ar fuel (at_index input i) = Done s' r /\
    exists bs, skipn (Z.to_nat i) input = bs ++ rest s' /\ pos s' = i + zlen bs /\
    match r with
    | Ok _ => exists m, mp_fmt m bs
    | Err e => e = UnexpectedEof \/ e = ReservedCode
    end.
Proof.
  exact (fun ar input i fuel Ha Hs Hi Hf =>
    eat_sound_top ar (at_index input i) fuel (ready64 ar (at_index input i) Ha Hs Hi) (arch64_wide ar Ha)
      (skipn_bytes input (Z.to_nat i) (proj1 Hs)) Hf).
Qed.
Print Assumptions C16_eat_message_sound.

Theorem C16_reserved_code : forall ar input i fuel tail,
  arch32up ar -> slice_of ar input -> 0 <= i <= zlen input -> skipn (Z.to_nat i) input = 0xc1 :: tail ->
  exists s', eat_message ar (S fuel) (at_index input i) = Done s' (Err ReservedCode).
Proof.
  exact (fun ar input i fuel tail Ha Hs Hi Hr =>
    eat_reserved ar fuel (at_index input i) tail (ready_of ar (at_index input i) Ha Hs Hi) Hr).
Qed.
Print Assumptions C16_reserved_code.

Example C16_case :
  eat_message x64 9 (at_index [0x92; 1; 0xc1; 7] 0) = Done (at_index [0x92; 1; 0xc1; 7] 3) (Err ReservedCode) /\
  eat_message x64 9 (at_index [0x92; 1; 0xcd; 7] 0) = Done (at_index [0x92; 1; 0xcd; 7] 3) (Err UnexpectedEof).
Proof. split; reflexivity. Qed.

(** C17: when only a proper prefix of a message is there, UnexpectedEof. *)
Theorem C17_truncated_eof : forall ar input i m c q fuel,
  arch64 ar -> slice64 input -> 0 <= i <= zlen input ->
  mp_fmt m (skipn (Z.to_nat i) input ++ c :: q) ->
  (2 * length (skipn (Z.to_nat i) input) + 1 <= fuel)%nat ->
  exists s', eat_message ar fuel (at_index input i) = Done s' (Err UnexpectedEof).
Proof.
  exact (fun ar input i m c q fuel Ha Hs Hi Hm Hf =>
    eat_truncated_wide ar (at_index input i) m _ c q fuel (ready64 ar (at_index input i) Ha Hs Hi) (arch64_wide ar Ha)
      (skipn_bytes input (Z.to_nat i) (proj1 Hs)) Hm eq_refl Hf).
Qed.
Print Assumptions C17_truncated_eof.

(** C17: on 32-bit targets too, if the whole message could be in memory. *)
Theorem C17_truncated_eof_32bit : forall ar input i m c q fuel,
  arch32up ar -> slice_of ar input -> 0 <= i <= zlen input ->
  mp_fmt m (skipn (Z.to_nat i) input ++ c :: q) -> slice_of ar (skipn (Z.to_nat i) input ++ c :: q) ->
  (2 * length (skipn (Z.to_nat i) input ++ c :: q) <= fuel)%nat ->
  exists s', eat_message ar fuel (at_index input i) = Done s' (Err UnexpectedEof).
Proof.
  exact (fun ar input i m c q fuel Ha Hs Hi Hm Hw Hf =>
    eat_truncated ar (at_index input i) m _ c q fuel (ready_of ar (at_index input i) Ha Hs Hi) (slice_fits ar _ Hw) Hm eq_refl Hf).
Qed.
Print Assumptions C17_truncated_eof_32bit.

Example C17_case : forall n, In n [0; 1; 2; 3; 4; 5]%nat ->
  (exists s, eat_message x64 13 (at_index (firstn n [0x81; 5; 0xc4; 2; 9; 1]) 0) = Done s (Err UnexpectedEof)) /\
  exists s, eat_message (x32 true) 12 (at_index (firstn n [0x81; 5; 0xc4; 2; 9; 1]) 0) = Done s (Err UnexpectedEof).
Proof. intros n H. repeat (destruct H as [<-|H]; [split; eexists; reflexivity|]). destruct H. Qed.

(** C08: the format is prefix-free: a reader always knows where a message ends. *)
Theorem C08_prefix_free : forall m m' a b t u, mp_fmt m a -> mp_fmt m' b -> a ++ t = b ++ u -> a = b /\ t = u.
Proof. exact mp_fmt_prefix_free_both. Qed.
Print Assumptions C08_prefix_free.

(** C18: on a 32-bit target the same claims fail.  In release builds a bin32
    header of length 2^32 - 5 is accepted without consuming a single byte, though
    the input starts with no well-formed message. *)
Theorem C18_eat_message_32bit_refuted : let input := [0xc6; 0xff; 0xff; 0xff; 0xfb] in
  (forall fuel, eat_message (x32 false) (S fuel) (at_index input 0) = Done (at_index input 0) (Ok tt)) /\
  (forall m bs t, mp_fmt m bs -> input <> bs ++ t).
Proof. exact eat32_accepts. Qed.
Print Assumptions C18_eat_message_32bit_refuted.

(** C18: with overflow checks it panics, also on an ext32 header. *)
Theorem C18_eat_message_32bit_panics_refuted : forall fuel,
  eat_message (x32 true) (S fuel) (at_index [0xc6; 0xff; 0xff; 0xff; 0xfb] 0) = Panic /\
  eat_message (x32 true) (S fuel) (at_index [0xc9; 0xff; 0xff; 0xff; 0xff] 0) = Panic.
Proof. exact eat32_panics. Qed.
Print Assumptions C18_eat_message_32bit_panics_refuted.

(** C18: without them it can fail to return at all: six bytes, an array of two
    whose first element wraps the cursor around to the array again. *)
Theorem C18_eat_message_32bit_diverges_refuted : forall fuel,
  eat_message (x32 false) fuel (at_index [0x92; 0xc6; 0xff; 0xff; 0xff; 0xfa] 0) = OutOfFuel.
Proof. exact eat32_diverges. Qed.
Print Assumptions C18_eat_message_32bit_diverges_refuted.

(** C19: from_slice and from_slice_split_tail never panic, whatever the input and
    the Deserialize program; the cursor stays inside the input.  On targets where
    positions and lengths cannot overflow, and on 32-bit targets whose builds do not
    check (there a skipped value may still move the cursor back, C18). *)
Theorem C19_no_panic : forall ar fo U fuel (p : deser U mp_de_error) input,
  arch32up ar -> 2 ^ 33 <= usize_max ar \/ overflow_checks ar = false -> slice_of ar input ->
  mp_from_slice ar fo fuel p input <> Panic /\ mp_from_slice_split_tail ar fo fuel p input <> Panic /\
  forall s r, mp_from_slice ar fo fuel p input = Done s r ->
    0 <= pos s <= zlen input /\ 0 <= d_index s <= zlen (sl_data (d_input s)) /\
    rest s = skipn (Z.to_nat (pos s)) input.
Proof. exact from_slice_no_panic. Qed.
Print Assumptions C19_no_panic.

(** The step budget does not matter: a larger one gives the same outcome. *)
Theorem C19_budget_irrelevant : forall ar fo U (p : deser U mp_de_error) input f g, (f <= g)%nat ->
  mp_from_slice ar fo f p input <> OutOfFuel ->
  mp_from_slice ar fo g p input = mp_from_slice ar fo f p input.
Proof. exact from_slice_budget. Qed.
Print Assumptions C19_budget_irrelevant.

(** A visitor that reads one array element as u8 and swallows its error. *)
Definition err_visitor {U} (r : result U mp_de_error) : visitor U mp_de_error :=
  Visitor (fun _ => r) (fun _ _ => r) (fun _ => r) (fun _ => r) (fun _ => r) (fun _ => r) (fun _ => r)
    r r (DRet r) (DRet r) (SRet r) (MRet r) (ERet r).
Definition u8_prog : deser Z mp_de_error :=
  DReq (DInt U8) (Visitor (fun _ => Err DeserializeError) (fun _ z => Ok z) (fun _ => Err DeserializeError)
    (fun _ => Err DeserializeError) (fun _ => Err DeserializeError) (fun _ => Err DeserializeError)
    (fun _ => Err DeserializeError) (Err DeserializeError) (Err DeserializeError) (DRet (Err DeserializeError))
    (DRet (Err DeserializeError)) (SRet (Err DeserializeError)) (MRet (Err DeserializeError)) (ERet (Err DeserializeError)))
    (fun r => r).
Definition swallow : deser Z mp_de_error :=
  DReq DSeq (Visitor (fun _ => Ok 0) (fun _ z => Ok z) (fun _ => Ok 0) (fun _ => Ok 0) (fun _ => Ok 0)
    (fun _ => Ok 0) (fun _ => Ok 0) (Ok 0) (Ok 0) (DRet (Ok 0)) (DRet (Ok 0))
    (SNext u8_prog (fun r => SRet (match r with Ok (Some z) => Ok z | _ => Ok 77 end))) (MRet (Ok 0)) (ERet (Ok 0)))
    (fun r => r).
Example C19_case :
  mp_from_slice x64 no_floats 10 swallow [0x91; 0xcc; 200; 9] = Done (at_index [0x91; 0xcc; 200; 9] 3) (Ok (200, 3)) /\
  mp_from_slice x64 no_floats 10 swallow [0x91; 0xcc] = Done (at_index [0x91; 0xcc] 2) (Ok (77, 2)).
Proof. split; reflexivity. Qed.

(** 32-bit, overflow not checked: the skipped value of C18 leaves the cursor inside. *)
Example C19_case_32bit : arch32up (x32 false) /\ overflow_checks (x32 false) = false /\
  mp_from_slice (x32 false) no_floats 10 (DReq DIgnoredAny (err_visitor (Ok 1)) (fun r => r)) [0xc6; 0xff; 0xff; 0xff; 0xfc; 9]
  = Done (at_index [0xc6; 0xff; 0xff; 0xff; 0xfc; 9] 1) (Ok (1, 1)).
Proof. split; [unfold arch32up; cbn; lia|]. split; reflexivity. Qed.

(** C20: the reported length and the tail agree, and lie inside the input. *)
Theorem C20_consumed_length : forall ar fo U fuel (p : deser U mp_de_error) input s v n,
  arch32up ar -> 2 ^ 33 <= usize_max ar \/ overflow_checks ar = false -> slice_of ar input -> mp_from_slice ar fo fuel p input = Done s (Ok (v, n)) ->
  0 <= n <= zlen input /\ n = pos s /\
  mp_from_slice_split_tail ar fo fuel p input = Done s (Ok (v, skipn (Z.to_nat n) input)).
Proof. exact from_slice_consumed. Qed.
Print Assumptions C20_consumed_length.

Example C20_case :
  mp_from_slice_split_tail x64 no_floats 10 swallow [0x91; 0xcc; 200; 9] = Done (at_index [0x91; 0xcc; 200; 9] 3) (Ok (200, [9])).
Proof. reflexivity. Qed.

(** C24: whatever the input and the program, every slice handed to a visitor is a
    range of the input, and every string is valid UTF-8. *)
Theorem C24_borrows : forall ar fo U fuel (p : deser U mp_de_error) input s r is_str x,
  arch32up ar -> 2 ^ 33 <= usize_max ar \/ overflow_checks ar = false -> slice_of ar input -> mp_from_slice ar fo fuel p input = Done s r -> In (is_str, x) (d_log s) ->
  0 <= sl_off x /\ sl_off x + zlen (sl_data x) <= zlen input /\
  sl_data x = firstn (length (sl_data x)) (skipn (Z.to_nat (sl_off x)) input) /\
  (is_str = true -> valid_utf8 (sl_data x)).
Proof. exact from_slice_borrows. Qed.
Print Assumptions C24_borrows.

Definition str_prog : deser Z mp_de_error := DReq DStr (err_visitor (Ok 1)) (fun r => r).
Example C24_case : exists s, mp_from_slice x64 no_floats 10 str_prog [0xa3; 0xe2; 0x82; 0xac; 5] = Done s (Ok (1, 4)) /\
  d_log s = [(true, {| sl_off := 1; sl_data := [0xe2; 0x82; 0xac] |})] /\
  exists s', mp_from_slice x64 no_floats 10 str_prog [0xa3; 0xe2; 0x82; 0x2c; 5] = Done s' (Err InvalidUnicodeCodePoint).
Proof. eexists. split; [reflexivity|]. split; [reflexivity|]. eexists. reflexivity. Qed.

(** C26: if the announced count exceeds the number of elements the visitor ever
    asks for, the container is rejected: an error of the visitor is passed on and
    its success becomes TrailingElements. *)
Theorem C26_surplus_elements : forall ar fo U fuel m (v : visitor U mp_de_error) n h t s j,
  seq_method m -> ready ar s -> rest s = h ++ t -> arr_hdr n h ->
  at_most j (visit_seq v) -> Z.of_nat j < n ->
  exists s1, adv ar s s1 (zlen h) /\
    mp_method ar fo (mp_run ar fo fuel) m v s =
    match r_seq (mp_run ar fo fuel) (visit_seq v) n s1 with
    | Done s2 (Ok _) => Done s2 (Err TrailingElements)
    | Done s2 (Err e) => Done s2 (Err e)
    | Panic => Panic
    | OutOfFuel => OutOfFuel
    end.
Proof. exact seq_trailing. Qed.
Print Assumptions C26_surplus_elements.

Theorem C26_surplus_entries : forall ar fo U fuel m (v : visitor U mp_de_error) n h t s j,
  map_method m -> ready ar s -> rest s = h ++ t -> map_hdr n h ->
  at_most_keys j (visit_map v) -> Z.of_nat j < n ->
  exists s1, adv ar s s1 (zlen h) /\
    mp_method ar fo (mp_run ar fo fuel) m v s =
    match r_map (mp_run ar fo fuel) (visit_map v) n s1 with
    | Done s2 (Ok _) => Done s2 (Err TrailingElements)
    | Done s2 (Err e) => Done s2 (Err e)
    | Panic => Panic
    | OutOfFuel => OutOfFuel
    end.
Proof. exact map_trailing. Qed.
Print Assumptions C26_surplus_entries.

Example C26_case :
  at_most 1 (SNext u8_prog (fun r => SRet (match r with Ok (Some z) => Ok z | _ => Ok 77 end))) /\
  mp_from_slice x64 no_floats 10 swallow [0x92; 7; 8] = Done (at_index [0x92; 7; 8] 2) (Err TrailingElements).
Proof. split; [|reflexivity]. constructor. intros r. constructor. Qed.

(** C48 (MessagePack): after any history of cursor calls, however far eat_some has
    moved, each call returns what its documentation says and none panics. *)
Theorem C48_msgpack_cursor : forall ar l s, 0 <= d_index s ->
  Forall (fun o => 0 <= eaten o /\ forall n, o = OSplitInput n -> 0 <= n) l ->
  d_index s + fold_right (fun o a => eaten o + a) 0 l <= usize_max ar ->
  exists s', do_ops ar s l = Some (s', view_ops (view_of s) l).
Proof. exact ops_view. Qed.
Print Assumptions C48_msgpack_cursor.

Example C48_msgpack_case : exists s',
  do_ops x64 (at_index [1; 2; 3] 0) [OEatSome 1; OPeek; OSplitInput 1; OEatSome 7; OPeek; ORemaining; OInputRef; OSplitInput 0; OEnd]
  = Some (s', [Ok []; Ok [2]; Ok [2]; Ok []; Err UnexpectedEof; Ok [0]; Err UnexpectedEof; Err UnexpectedEof; Err UnexpectedEof]).
Proof. eexists. reflexivity. Qed.

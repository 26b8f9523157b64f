(** Properties of the JSON deserializer that hold for every Deserialize
    implementation: no panic, stable borrows, the end of the document, the cursor
    methods. *)
From Verif Require Import Prelude PreludeFacts Utf8Spec SerdeDe JsonDe JsonDeSafe.

(** A target, and float parsing that knows no floats, for the examples. *)
Definition x64 : arch := {| usize_max := 2 ^ 64 - 1; overflow_checks := false |}.
Definition no_floats : float_parser := {| f32_from_str := fun _ => None; f64_from_str := fun _ => None |}.
(** A visitor that fails on everything but what it is given. *)
Definition visit_only_str {U} (f : bytes -> U) (bs : bytes -> U) (sq : sprog U js_de_error) : visitor U js_de_error :=
  Visitor (fun _ => Err JDeserializeError) (fun _ _ => Err JDeserializeError) (fun _ => Err JDeserializeError)
    (fun _ => Err JDeserializeError) (fun _ => Err JDeserializeError) (fun s => Ok (f s)) (fun s => Ok (bs s))
    (Err JDeserializeError) (Err JDeserializeError) (DRet (Err JDeserializeError)) (DRet (Err JDeserializeError))
    sq (MRet (Err JDeserializeError)) (ERet (Err JDeserializeError)).
Definition str_prog : deser (list bytes) js_de_error :=
  DReq DStr (visit_only_str (fun s => [s]) (fun s => [s]) (SRet (Err JDeserializeError))) (fun r => r).
(** (&str, &str); errors of the elements are replaced by the empty string. *)
Definition two_strs : deser (list bytes) js_de_error :=
  DReq DTuple (visit_only_str (fun s => [s]) (fun s => [s])
    (SNext str_prog (fun a => SNext str_prog (fun b =>
       SRet (Ok (match a with Ok (Some x) => x | _ => [[]] end ++ match b with Ok (Some x) => x | _ => [[]] end))))))
    (fun r => r).

(** C41: no input and no Deserialize implementation makes it panic.  For the Base64
    decoder the buffer must be small enough for [len * 3] (see C30). *)
Theorem C41_no_panic : forall ar fl any_f32 dec U fuel (p : deser U js_de_error) input,
  (dec = Base64Decoder -> 3 * zlen input <= usize_max ar) ->
  js_from_mut_slice ar fl any_f32 dec fuel p input <> Panic.
Proof. exact @from_mut_slice_no_panic. Qed.
Print Assumptions C41_no_panic.

(** An array of two strings, the first with escapes, the second with a raw newline;
    the error of the second element is swallowed. *)
Example C41_case :
  match js_from_mut_slice x64 no_floats false NopeDecoder 9 two_strs [91; 34; 92; 117; 48; 48; 52; 49; 92; 110; 34; 44; 34; 10; 34; 93] with
  | Done s r => r = Err JExpectedArrayEnd /\ memory s = [91; 34; 65; 10; 48; 48; 52; 49; 92; 110; 34; 44; 34; 10; 34; 93]
  | _ => False
  end.
Proof. vm_compute. auto. Qed.

(** C42: every slice handed to a visitor lies in the part of the buffer that is out
    of reach, still has its content at the end, slices handed out later lie
    behind it, and a [&str] is UTF-8. *)
Theorem C42_borrows_stable_disjoint : forall ar fl any_f32 dec U fuel (p : deser U js_de_error) input s r,
  (dec = Base64Decoder -> 3 * zlen input <= usize_max ar) ->
  js_from_mut_slice ar fl any_f32 dec fuel p input = Done s r ->
  length (memory s) = length input /\ (j_index s <= length (j_input s))%nat /\
  (forall b x, In (b, x) (j_log s) ->
     (js_off x + length (js_data x) <= length (j_front s))%nat /\
     firstn (length (js_data x)) (skipn (js_off x) (memory s)) = js_data x /\
     (b = true -> valid_utf8 (js_data x))) /\
  (forall i j x y, (i < j)%nat -> nth_error (j_log s) i = Some y -> nth_error (j_log s) j = Some x ->
     (js_off (snd x) + length (js_data (snd x)) <= js_off (snd y))%nat).
Proof. exact @from_mut_slice_borrows. Qed.
Print Assumptions C42_borrows_stable_disjoint.

(** Two borrowed strings, the first with an escape. *)
Example C42_case :
  match js_from_mut_slice x64 no_floats false NopeDecoder 9 two_strs [91; 34; 92; 47; 34; 44; 34; 98; 34; 93] with
  | Done s r => r = Ok [[47]; [98]] /\
      j_log s = [(true, {| js_off := 7; js_data := [98] |}); (true, {| js_off := 2; js_data := [47] |})]
  | _ => False
  end.
Proof. vm_compute. auto. Qed.

(** C45: Ok exactly when everything after the value is whitespace; otherwise
    TrailingCharacters.  Errors of the value itself come first. *)
Theorem C45_trailing : forall ar fl any_f32 dec U fuel (p : deser U js_de_error) input s v,
  (dec = Base64Decoder -> 3 * zlen input <= usize_max ar) ->
  jr_de (js_run ar fl any_f32 dec fuel) false p (j_from_mut_slice input) = Done s (Ok v) ->
  (blank (unparsed s) -> js_from_mut_slice ar fl any_f32 dec fuel p input = Done s (Ok v)) /\
  (~ blank (unparsed s) -> exists s', js_from_mut_slice ar fl any_f32 dec fuel p input = Done s' (Err JTrailingCharacters)).
Proof. exact @end_spec. Qed.
Print Assumptions C45_trailing.

Theorem C45_accepted : forall ar fl any_f32 dec U fuel (p : deser U js_de_error) input s v,
  js_from_mut_slice ar fl any_f32 dec fuel p input = Done s (Ok v) -> blank (unparsed s).
Proof. exact @accepted_blank. Qed.
Print Assumptions C45_accepted.

Example C45_case :
  let run l := match js_from_mut_slice x64 no_floats false NopeDecoder 9 str_prog l with Done s r => Some r | _ => None end in
  run [34; 97; 34; 32; 10] = Some (Ok [[97]]) /\ run [34; 97; 34; 32; 44] = Some (Err JTrailingCharacters).
Proof. vm_compute. auto. Qed.

(** C48 (JSON): what the cursor methods return inside the input ... *)
Theorem C48_json_inside : forall s, (j_index s <= length (j_input s))%nat ->
  j_remaining_len s = length (unparsed s) /\
  input_mut s = Done s (Ok (unparsed s)) /\
  (j_peek s = match unparsed s with c :: _ => Done s (Ok c) | [] => Done s (Err JUnexpectedEof) end) /\
  (forall w c t, unparsed s = w ++ c :: t -> blank w -> ~ blank [c] ->
     exists s', eat_whitespace s = Done s' (Ok c) /\ unparsed s' = c :: t /\ memory s' = memory s) /\
  (blank (unparsed s) -> eat_whitespace s = Done s (Err JUnexpectedEof)).
Proof. exact cursor_inside. Qed.
Print Assumptions C48_json_inside.

(** ... and the ones that report UnexpectedEof beyond its end ... *)
Theorem C48_json_beyond_end : forall ar s, (length (j_input s) < j_index s)%nat ->
  j_remaining_len s = 0%nat /\
  j_peek s = Done s (Err JUnexpectedEof) /\ input_mut s = Done s (Err JUnexpectedEof) /\
  (forall token, parse_token_content token s = Done s (Err JUnexpectedEof)) /\
  eat_str_content s = Done s (Err JUnexpectedEof) /\
  parse_str_bytes_content s = Done s (Err JUnexpectedEof) /\
  parse_str_content s = Done s (Err JUnexpectedEof) /\
  parse_hex_bytes_content s = Done s (Err JUnexpectedEof) /\
  parse_base64_bytes_content ar s = Done s (Err JUnexpectedEof).
Proof. exact cursor_beyond. Qed.
Print Assumptions C48_json_beyond_end.

(** ... while [eat_whitespace], [end] and the number parsers panic there, though
    [eat_some] gets there from any input. *)
Theorem C48_json_beyond_end_refuted : forall input n, (length input < n)%nat ->
  exists s, j_eat_some n (j_from_mut_slice input) = Done s (Ok tt) /\
    eat_whitespace s = Panic /\ j_end s = Panic /\ (forall k, parse_unsigned k s = Panic /\ parse_signed k s = Panic).
Proof.
  exact (fun input n H => ex_intro _ (jset input n (j_from_mut_slice input))
    (conj eq_refl (cursor_beyond_panics (jset input n (j_from_mut_slice input)) H))).
Qed.
Print Assumptions C48_json_beyond_end_refuted.

Example C48_json_case : exists s, j_eat_some 3 (j_from_mut_slice [32; 49]) = Done s (Ok tt) /\
  j_peek s = Done s (Err JUnexpectedEof) /\ eat_whitespace s = Panic.
Proof. eexists. split; [reflexivity|]. split; reflexivity. Qed.

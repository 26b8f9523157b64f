(** Properties: the errors of self-describing decoding ([deserialize_any]).
    [MpAnyFaultSpec] and [JsonAnyFaultSpec] say what the faults of an input are and what
    each is called; [MpTypeSpec] and [JsonAnySpec] what an input denotes. *)
From Verif Require Import Prelude Utf8Spec SerdeSer SerdeDe MpSpec Base64Spec JsonSpec JsonTypeSpec JsonAnySpec JsonFaultSpec MpDe JsonDe MpDeTop
  FloatOps Types MpTypeSpec MpFaultSpec JsonCases PropsMpTyped.
From Verif Require MpAnyFaultSpec MpAnyFault JsonAnyFaultSpec JsonAnyFault PropsMpDe PropsJsonDe.

Local Notation mp_any := (any DeserializeError).
Local Notation js_any := (any JDeserializeError).

(** C59: a fault is reported by its name, whatever follows it. *)
Theorem C59_msgpack_any_faults_named : forall ar fo, arch32up ar -> forall bs e tail,
  MpAnyFaultSpec.any_fault bs e -> slice_of ar (bs ++ tail) ->
  exists N, forall fuel, (N <= fuel)%nat -> exists s, mp_from_slice ar fo fuel mp_any (bs ++ tail) = Done s (Err e).
Proof. exact MpAnyFault.any_fault_named. Qed.
Print Assumptions C59_msgpack_any_faults_named.

(** C59: every input is one of three: it begins with a message that denotes a value, or
    with a fault, or it is too short to tell. *)
Theorem C59_msgpack_any_outcome : forall ar fo, arch64 ar -> forall input fuel,
  slice64 input -> (6 + 3 * length input <= fuel)%nat ->
  exists s r, mp_from_slice ar fo fuel mp_any input = Done s r /\
  match r with
  | Ok (v, n) => exists m bs tail, input = bs ++ tail /\ zlen bs = n /\ mp_fmt m bs /\ denotes m (inl v)
  | Err UnexpectedEof => forall bs tail, input = bs ++ tail ->
      (forall m v, mp_fmt m bs -> ~ denotes m (inl v)) /\ (forall e, ~ MpAnyFaultSpec.any_fault bs e)
  | Err e => exists bs tail, input = bs ++ tail /\ MpAnyFaultSpec.any_fault bs e
  end.
Proof. exact MpAnyFault.any_decided. Qed.
Print Assumptions C59_msgpack_any_outcome.

(** C59: an input has one fault at most, and then no value in front. *)
Theorem C59_msgpack_any_verdict_unique : forall input bs e tail,
  slice64 input -> input = bs ++ tail -> MpAnyFaultSpec.any_fault bs e ->
  (forall bs' e' tail', input = bs' ++ tail' -> MpAnyFaultSpec.any_fault bs' e' -> e' = e) /\
  (forall m bs' v tail', input = bs' ++ tail' -> mp_fmt m bs' -> ~ denotes m (inl v)).
Proof. exact MpAnyFault.any_verdict_unique. Qed.
Print Assumptions C59_msgpack_any_verdict_unique.

(** C59: JSON documents. *)
Theorem C59_json_any_faults_named : forall ar fl (any_f32 : bool) dec input e,
  all_bytes input -> (dec = Base64Decoder -> 3 * zlen input <= usize_max ar) ->
  JsonAnyFaultSpec.any_document_fault any_f32 (if any_f32 then f32_from_str fl else f64_from_str fl) input e ->
  exists N, forall fuel, (N <= fuel)%nat -> exists s, js_from_mut_slice ar fl any_f32 dec fuel js_any input = Done s (Err e).
Proof. exact JsonAnyFault.any_named. Qed.
Print Assumptions C59_json_any_faults_named.

(** C59: a document either stands for a value or has a fault. *)
Theorem C59_json_any_outcome : forall ar fl (any_f32 : bool) dec input fuel,
  all_bytes input -> (dec = Base64Decoder -> 3 * zlen input <= usize_max ar) -> (6 + 3 * length input <= fuel)%nat ->
  exists s r, js_from_mut_slice ar fl any_f32 dec fuel js_any input = Done s r /\
  match r with
  | Ok v => exists d w1 text w2, input = w1 ++ text ++ w2 /\ any_ws w1 /\ any_ws w2 /\ loose_text d text /\
      any_as any_f32 (if any_f32 then f32_from_str fl else f64_from_str fl) v d
  | Err e => JsonAnyFaultSpec.any_document_fault any_f32 (if any_f32 then f32_from_str fl else f64_from_str fl) input e
  end.
Proof. exact JsonAnyFault.any_decided. Qed.
Print Assumptions C59_json_any_outcome.

Theorem C59_json_any_verdict_unique : forall (any_f32 : bool) float_of input e,
  all_bytes input -> JsonAnyFaultSpec.any_document_fault any_f32 float_of input e ->
  (forall e', JsonAnyFaultSpec.any_document_fault any_f32 float_of input e' -> e' = e) /\
  (forall v d w1 text w2, input = w1 ++ text ++ w2 -> any_ws w1 -> any_ws w2 -> loose_text d text -> ~ any_as any_f32 float_of v d).
Proof. exact JsonAnyFault.any_verdict_unique. Qed.
Print Assumptions C59_json_any_verdict_unique.

(** A map with one entry read, the value of the second an array whose first element is
    an extension, then a key that is not UTF-8. *)
Ltac bytes := repeat (apply Forall_cons; [unfold is_byte; lia|]); apply Forall_nil.
Lemma one_pair : mp_fmt_pairs [(VInt 7, VNil)] ([7] ++ [0xc0] ++ []) /\ denotes_pairs [(VInt 7, VNil)] (inl [(UInt 7, UUnit)]).
Proof. split.
  - apply MP_cons; [apply MF_int, IF_pos; lia|constructor|constructor].
  - repeat constructor.
Qed.
Example C59_case_ext : MpAnyFaultSpec.any_fault ([0x82] ++ ([7] ++ [0xc0] ++ []) ++ [9] ++ [0x92] ++ [] ++ [0xd4]) UnsupportedExt.
Proof.
  destruct one_pair as [P1 P2]. eapply MpAnyFaultSpec.Y_value with (l := [(VInt 7, VNil)]) (m := VInt 9) (v := UInt 9); [apply (MH_fix 2); lia|reflexivity|exact P1|exact P2| | |].
  - apply MF_int, IF_pos. lia.
  - constructor.
  - eapply MpAnyFaultSpec.Y_elem with (l := []) (vs := []); [apply (AH_fix 2); lia|reflexivity|constructor|constructor|].
    apply MpAnyFaultSpec.Y_ext; [unfold is_byte; lia|reflexivity].
Qed.
Example C59_case_utf8 : MpAnyFaultSpec.any_fault ([0x82] ++ ([7] ++ [0xc0] ++ []) ++ [0xa1; 0xff]) InvalidUnicodeCodePoint.
Proof.
  destruct one_pair as [P1 P2]. eapply MpAnyFaultSpec.Y_key with (l := [(VInt 7, VNil)]); [apply (MH_fix 2); lia|reflexivity|exact P1|exact P2|].
  apply MpAnyFaultSpec.Y_utf8 with (s := [0xff]); [bytes| |].
  - intros (l & Hl & E). destruct l as [|c l]; [discriminate|]. inversion Hl as [|? ? Hc _]; subst. unfold utf8, is_scalar in *. cbn [flat_map] in E.
    apply (f_equal (hd 0)) in E. revert E. unfold utf8_char.
    repeat match goal with |- context [if ?b then _ else _] => destruct b eqn:? end; cbn [hd app]; Z.div_mod_to_equations; lia.
  - exists [0xa1]. split; [apply (SH_fix 1); lia|reflexivity].
Qed.
(** The same through the decoder; a truncated one too. *)
Example C59_cases_run :
  map (fun input => match mp_from_slice PropsMpDe.x64 PropsMpDe.no_floats 60 mp_any input with Done _ (Err e) => Some e | _ => None end)
    [[0x82; 7; 0xc0; 9; 0x92; 0xd4; 1; 2]; [0x82; 7; 0xc0; 0xa1; 0xff; 1; 2]; [0x82; 7; 0xc0; 9; 0x92]; [0x92; 1; 0xc1]]
  = [Some UnsupportedExt; Some InvalidUnicodeCodePoint; Some UnexpectedEof; Some ReservedCode].
Proof. vm_compute. reflexivity. Qed.

(** [[1,;]: an array with an element read and none after the comma; a colon left out. *)
Local Notation fault := (JsonAnyFaultSpec.any_document_fault false (f64_from_str bits_fl)).
Ltac start := exists []; split; [reflexivity|]; split; [constructor|unfold is_ws; lia].
Example C59_case_colon : fault [32; 123; 34; 97; 34; 32; 49; 125] JExpectedColon.
Proof.
  left. eapply JsonAnyFaultSpec.Y_obj_colon with (n := 0%nat) (raw := [97]) (s := [97]) (m := [32; 49; 125]).
  - exists [32]. split; [reflexivity|]. split; [apply Forall_cons; [unfold is_ws; auto|constructor]|unfold is_ws; lia].
  - apply Wa_nil.
  - exists 34, ([97] ++ 34 :: [32; 49; 125]). split; [reflexivity|]. split; [lia|]. split; [start|lia].
  - split; [apply B_plain; [unfold plain_byte; lia|constructor]|utf8].
  - eapply CF_colon with (c := 49) (r := [125]); [exists [32]; split; [reflexivity|]; split; [apply Forall_cons; [unfold is_ws; auto|constructor]|unfold is_ws; lia]|lia].
Qed.
Example C59_json_cases_run :
  map (fun input => match js_from_mut_slice PropsJsonDe.x64 bits_fl false NopeDecoder 60 js_any input with Done _ (Err e) => Some e | _ => None end)
    [[32; 123; 34; 97; 34; 32; 49; 125]; [91; 49; 44; 59]; [91; 49; 44; 93]; [123; 49]; [110; 117; 108; 120]; [45; 120]; [34; 97]; [49; 50; 32; 49]]
  = [Some JExpectedColon; Some JUnexpectedChar; Some JTrailingArrayComma; Some JKeyMustBeAString; Some JExpectedToken; Some JInvalidNumber;
     Some JUnexpectedEof; Some JTrailingCharacters].
Proof. vm_compute. reflexivity. Qed.

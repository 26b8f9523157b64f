(** Properties: decoding terminates.  The models run [Deserialize] programs with a step
    budget; here the budget is shown to be a proof device only: a budget linear in the
    length of the input and the size of the type always suffices, and the result does
    not depend on it.  A length or count announced by the input does not enter. *)
From Verif Require Import Prelude Utf8Spec SerdeSer SerdeDe MpSpec MpDe MpDeTop Base64Spec JsonSpec JsonTypeSpec JsonDe
  FloatOps Types TypeSize MpTypeSpec PropsMpDe PropsMpTyped PropsJsonDe.
From Verif Require MpFuel JsonFuel JsonCases.

Local Notation mprog t := (denote DeserializeError t).
Local Notation jprog t := (denote JDeserializeError t).
Local Notation x64 := PropsJsonDe.x64.
Local Notation bits_fl := JsonCases.bits_fl.
Local Notation readings dec := (match dec with NopeDecoder => bytes_as_string | HexDecoder => hex_bytes | Base64Decoder => bytes_as_base64 end).

(** C53: MessagePack. *)
Theorem C53_msgpack_terminates : forall ar fo t input fuel,
  arch64 ar -> wf t -> slice64 input -> (10 * type_size t + 3 * length input <= fuel)%nat ->
  exists s r, mp_from_slice ar fo fuel (mprog t) input = Done s r.
Proof. exact (fun ar fo t input fuel A => MpFuel.typed_ends ar fo A t input fuel). Qed.
Print Assumptions C53_msgpack_terminates.

Theorem C53_msgpack_skip_terminates : forall ar fo input fuel,
  arch64 ar -> slice64 input -> (6 + 3 * length input <= fuel)%nat ->
  exists s r, mp_from_slice ar fo fuel ignored input = Done s r.
Proof. exact (fun ar fo input fuel A => MpFuel.ignored_ends ar fo A input fuel). Qed.
Print Assumptions C53_msgpack_skip_terminates.

Theorem C53_msgpack_any_terminates : forall ar fo input fuel,
  arch64 ar -> slice64 input -> (6 + 3 * length input <= fuel)%nat ->
  exists s r, mp_from_slice ar fo fuel (any DeserializeError) input = Done s r.
Proof. exact (fun ar fo input fuel A => MpFuel.any_ends ar fo A input fuel). Qed.
Print Assumptions C53_msgpack_any_terminates.

Theorem C53_msgpack_budget_irrelevant : forall ar fo U (p : deser U mp_de_error) input f g s s' r r',
  mp_from_slice ar fo f p input = Done s r -> mp_from_slice ar fo g p input = Done s' r' -> s = s' /\ r = r'.
Proof. exact (fun ar fo U p => MpFuel.budget_irrelevant ar fo p). Qed.
Print Assumptions C53_msgpack_budget_irrelevant.

(** Decoding decides: the value and the length of the encoding at the front of the
    input, or an error and no prefix of the input is an encoding of any value. *)
Theorem C53_msgpack_decides : forall ar fo t input fuel,
  arch64 ar -> wf t -> slice64 input -> (10 * type_size t + 3 * length input <= fuel)%nat ->
  (exists s v bs tail, mp_from_slice ar fo fuel (mprog t) input = Done s (Ok (v, zlen bs)) /\ input = bs ++ tail /\ adm fo t v bs) \/
  (exists s e, mp_from_slice ar fo fuel (mprog t) input = Done s (Err e) /\ forall v bs tail, input = bs ++ tail -> ~ adm fo t v bs).
Proof. exact (fun ar fo t input fuel A => MpFuel.typed_decides ar fo A t input fuel). Qed.
Print Assumptions C53_msgpack_decides.

(** Eleven bytes announcing 2^32-1 sequences of 2^32-1 elements: the budget is 63 steps. *)
Example C53_msgpack_case : wf (TSeq (TSeq TBool)) /\ slice64 [0xdd; 255;255;255;255; 0xdd; 255;255;255;255; 0xc3] /\
  (10 * type_size (TSeq (TSeq TBool)) + 3 * length [0xdd; 255;255;255;255; 0xdd; 255;255;255;255; 0xc3] = 63)%nat /\
  match mp_from_slice PropsMpDe.x64 PropsMpDe.no_floats 63 (mprog (TSeq (TSeq TBool))) [0xdd; 255;255;255;255; 0xdd; 255;255;255;255; 0xc3] with
  | Done _ r => r = Err UnexpectedEof
  | _ => False
  end.
Proof.
  split; [exact I|]. split; [split; [repeat (apply Forall_cons; [unfold is_byte; lia|]); apply Forall_nil|unfold zlen; cbn; lia]|]. split; [reflexivity|]. vm_compute. reflexivity.
Qed.

(** C53: JSON. *)
Theorem C53_json_terminates : forall ar fl any_f32 dec t input fuel,
  (dec = Base64Decoder -> 3 * zlen input <= usize_max ar) -> (10 * type_size t + 3 * length input <= fuel)%nat ->
  exists s r, js_from_mut_slice ar fl any_f32 dec fuel (jprog t) input = Done s r.
Proof. exact JsonFuel.typed_ends. Qed.
Print Assumptions C53_json_terminates.

Theorem C53_json_skip_terminates : forall ar fl any_f32 dec input fuel,
  (dec = Base64Decoder -> 3 * zlen input <= usize_max ar) -> (6 + 3 * length input <= fuel)%nat ->
  exists s r, js_from_mut_slice ar fl any_f32 dec fuel ignored input = Done s r.
Proof. exact JsonFuel.ignored_ends. Qed.
Print Assumptions C53_json_skip_terminates.

Theorem C53_json_any_terminates : forall ar fl any_f32 dec input fuel,
  (dec = Base64Decoder -> 3 * zlen input <= usize_max ar) -> (6 + 3 * length input <= fuel)%nat ->
  exists s r, js_from_mut_slice ar fl any_f32 dec fuel (any JDeserializeError) input = Done s r.
Proof. exact JsonFuel.any_ends. Qed.
Print Assumptions C53_json_any_terminates.

Theorem C53_json_budget_irrelevant : forall ar fl any_f32 dec U (p : deser U js_de_error) input f g s s' r r',
  js_from_mut_slice ar fl any_f32 dec f p input = Done s r ->
  js_from_mut_slice ar fl any_f32 dec g p input = Done s' r' -> s = s' /\ r = r'.
Proof. exact (fun ar fl any_f32 dec U p => JsonFuel.budget_irrelevant ar fl any_f32 dec p). Qed.
Print Assumptions C53_json_budget_irrelevant.

(** Decoding decides: the value the input represents, or an error and the input
    represents no value of the type. *)
Theorem C53_json_decides : forall ar fl any_f32 dec t input fuel,
  f32_from_str fl [] = None -> f64_from_str fl [] = None ->
  wf t -> all_bytes input -> (dec = Base64Decoder -> 3 * zlen input <= usize_max ar) -> (10 * type_size t + 3 * length input <= fuel)%nat ->
  (exists s v d w1 text w2, js_from_mut_slice ar fl any_f32 dec fuel (jprog t) input = Done s (Ok v) /\
     input = w1 ++ text ++ w2 /\ any_ws w1 /\ any_ws w2 /\ loose_text d text /\
     reads_as any_ws (f32_from_str fl) (f64_from_str fl) (readings dec) t v d) \/
  (exists s e, js_from_mut_slice ar fl any_f32 dec fuel (jprog t) input = Done s (Err e) /\
     forall v d w1 text w2, input = w1 ++ text ++ w2 -> any_ws w1 -> any_ws w2 -> loose_text d text ->
       ~ reads_as any_ws (f32_from_str fl) (f64_from_str fl) (readings dec) t v d).
Proof. exact JsonFuel.typed_decides. Qed.
Print Assumptions C53_json_decides.

(** [[[true]]] as Vec<Vec<bool>>, and eight opening brackets as a self-describing value. *)
Example C53_json_case :
  match js_from_mut_slice x64 bits_fl false NopeDecoder 54 (jprog (TSeq (TSeq TBool))) [91; 91; 116;114;117;101; 93; 93] with
  | Done _ r => r = Ok (USeq [USeq [UBool true]])
  | _ => False
  end /\
  match js_from_mut_slice x64 bits_fl false NopeDecoder 30 (any JDeserializeError) [91; 91; 91; 91; 91; 91; 91; 91] with
  | Done _ r => r = Err JUnexpectedEof
  | _ => False
  end /\ (10 * type_size (TSeq (TSeq TBool)) + 3 * 8 = 54)%nat.
Proof. split; [vm_compute; reflexivity|]. split; [vm_compute; reflexivity|reflexivity]. Qed.

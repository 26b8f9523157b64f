(** Self-describing decoding of JSON: [JsonAnySpec] says which value a document
    stands for. *)
From Verif Require Import Prelude Utf8Spec SerdeSer SerdeDe MpSpec Base64Spec JsonSpec JsonTypeSpec JsonAnySpec JsonDe
  Types MpTypeSpec JsonAny JsonCases PropsMpTyped PropsJsonDe PropsJsonTyped.

Local Notation any := (any JDeserializeError).
Local Notation x64 := PropsJsonDe.x64.

(** C52: a type that takes whatever [deserialize_any] finds gets the value of the
    document; every JSON text of it, with any whitespace around, is accepted. *)
Theorem C52_self_describing : forall ar fl any_f32 dec v d text w1 w2,
  any_as any_f32 (if any_f32 then f32_from_str fl else f64_from_str fl) v d ->
  raw_text d text -> any_ws w1 -> any_ws w2 ->
  (dec = Base64Decoder -> 3 * zlen (w1 ++ text ++ w2) <= usize_max ar) ->
  exists N, forall fuel, (N <= fuel)%nat ->
    exists s, js_from_mut_slice ar fl any_f32 dec fuel any (w1 ++ text ++ w2) = Done s (Ok v).
Proof. exact self_describing_reads. Qed.
Print Assumptions C52_self_describing.

(** C52: and it gets nothing else. *)
Theorem C52_self_describing_exact : forall ar fl any_f32 dec v input,
  all_bytes input -> (dec = Base64Decoder -> 3 * zlen input <= usize_max ar) ->
  ((exists fuel s, js_from_mut_slice ar fl any_f32 dec fuel any input = Done s (Ok v)) <->
   (exists d w1 text w2, input = w1 ++ text ++ w2 /\ any_ws w1 /\ any_ws w2 /\ loose_text d text /\
      any_as any_f32 (if any_f32 then f32_from_str fl else f64_from_str fl) v d)).
Proof. exact self_describing_exact. Qed.
Print Assumptions C52_self_describing_exact.

(** [{"a":[null,-7,1.5],"b":"x\n"}]. *)
Definition any_text : bytes := [123; 34;97;34; 58; 91; 110;117;108;108; 44; 45;55; 44; 49;46;53; 93; 44; 34;98;34; 58; 34;120;92;110;34; 125].
Definition any_doc : jv := JObj [([97], JArr [JNull; JNum [45; 55]; JNum [49; 46; 53]]); ([98], JStr [120; 92; 110])].
Definition any_val : val := UMap [(UStr [97], USeq [UUnit; UInt (-7); UF64 (dec_val [49; 46; 53])]); (UStr [98], UStr [120; 10])].
Example C52_case : any_as false (f64_from_str bits_fl) any_val any_doc /\
  match js_from_mut_slice x64 bits_fl false NopeDecoder 30 any any_text with Done _ r => r = Ok any_val | _ => False end.
Proof.
  split; [|vm_compute; reflexivity]. apply A_obj. apply Forall2_cons.
  - split.
    + exists [97]. split; [reflexivity|]. split; [apply B_plain; [unfold plain_byte; lia|constructor]|utf8].
    + apply A_arr. repeat apply Forall2_cons; [constructor| | |constructor].
      * apply A_num. apply (N_neg _ _ [55]); [split; [discriminate|repeat constructor; unfold is_digit; lia]|cbn; lia].
      * apply A_num. apply (N_float false (f64_from_str bits_fl) [49; 46; 53]).
        -- exists 46. cbn. auto.
        -- exists 49, [46; 53]. split; auto. left. unfold is_digit. lia.
        -- reflexivity.
  - apply Forall2_cons; [|constructor]. split.
    + exists [98]. split; [reflexivity|]. split; [apply B_plain; [unfold plain_byte; lia|constructor]|utf8].
    + apply A_str. split; [|utf8]. apply B_plain; [unfold plain_byte; lia|]. apply B_esc; constructor.
Qed.
(** Integers out of the range of [u64]/[i64] are not read as floats. *)
Example C52_range_case :
  match js_from_mut_slice x64 bits_fl false NopeDecoder 30 any (dec_text (2 ^ 64)) with Done _ r => r = Err JInvalidNumber | _ => False end /\
  match js_from_mut_slice x64 bits_fl false NopeDecoder 30 any (dec_text (- 2 ^ 63)) with Done _ r => r = Ok (UInt (- 2 ^ 63)) | _ => False end.
Proof. split; vm_compute; reflexivity. Qed.

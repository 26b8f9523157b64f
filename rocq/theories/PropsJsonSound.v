(** Properties of JSON decoding: exactly which texts are accepted, and as what.
    [JsonTypeSpec] has the grammar ([loose_text]: RFC 8259 with two relaxations,
    number tokens may be any run of number characters, and whitespace of any kind may
    follow the opening quote of a key) and which documents represent a value. *)
From Verif Require Import Prelude Utf8Spec SerdeSer SerdeDe MpSpec Base64Spec JsonSpec JsonTypeSpec JsonDe
  Types MpTypeSpec JsonSoundTop JsonCases PropsMpTyped PropsJsonDe.

Local Notation prog t := (denote JDeserializeError t).
Local Notation x64 := PropsJsonDe.x64.
Local Notation readings dec := (match dec with NopeDecoder => bytes_as_string | HexDecoder => hex_bytes | Base64Decoder => bytes_as_base64 end).

(** C51: decoding into any type succeeds with [v] exactly if the input is, up to
    whitespace around it, a text of a document that represents [v].  Assumed of
    [str::parse]: the empty string is not a float. *)
Theorem C51_json_decoding_exact : forall ar fl any_f32 dec t v input,
  f32_from_str fl [] = None -> f64_from_str fl [] = None ->
  wf t -> all_bytes input -> (dec = Base64Decoder -> 3 * zlen input <= usize_max ar) ->
  ((exists fuel s, js_from_mut_slice ar fl any_f32 dec fuel (prog t) input = Done s (Ok v)) <->
   (exists d w1 text w2, input = w1 ++ text ++ w2 /\ any_ws w1 /\ any_ws w2 /\ loose_text d text /\
      reads_as any_ws (f32_from_str fl) (f64_from_str fl) (readings dec) t v d)).
Proof. exact decoding_exact. Qed.
Print Assumptions C51_json_decoding_exact.

(** [[1,2 ]] is a Vec<u8>; none of [[,1]], [[1,]], [[1,,2]], [[1 2]], [[01]] is. *)
Example C51_case : f32_from_str bits_fl [] = None /\ f64_from_str bits_fl [] = None /\
  match js_from_mut_slice x64 bits_fl false NopeDecoder 20 (prog (TSeq (TInt U8))) [91; 49; 44; 50; 32; 93] with Done _ r => r = Ok (USeq [UInt 1; UInt 2]) | _ => False end /\
  map (fun input => match js_from_mut_slice x64 bits_fl false NopeDecoder 20 (prog (TSeq (TInt U8))) input with Done _ (Err _) => true | _ => false end)
    [[91; 44; 49; 93]; [91; 49; 44; 93]; [91; 49; 44; 44; 50; 93]; [91; 49; 32; 50; 93]; [91; 48; 49; 93]] = repeat true 5.
Proof. do 2 (split; [reflexivity|]). split; vm_compute; reflexivity. Qed.
(** A tab and a line feed after the quote of an integer key. *)
Example C51_loose_case :
  match js_from_mut_slice x64 bits_fl false NopeDecoder 20 (prog (TMap (TInt U8) TBool)) [123; 34; 9; 10; 55; 34; 58; 116;114;117;101; 125] with
  | Done _ r => r = Ok (UMap [(UInt 7, UBool true)])
  | _ => False
  end.
Proof. vm_compute. reflexivity. Qed.

(** C46: [IgnoredAny] accepts exactly the texts of this grammar whose number tokens
    begin with a digit or a minus sign and whose keys are well-formed strings: commas
    and colons must be where JSON wants them. *)
Theorem C46_skipping_exact : forall ar fl any_f32 dec input,
  all_bytes input -> (dec = Base64Decoder -> 3 * zlen input <= usize_max ar) ->
  ((exists fuel s, js_from_mut_slice ar fl any_f32 dec fuel ignored input = Done s (Ok UUnit)) <->
   (exists d w1 text w2, input = w1 ++ text ++ w2 /\ any_ws w1 /\ any_ws w2 /\ loose_text d text /\ skippable d)).
Proof. exact skip_exact. Qed.
Print Assumptions C46_skipping_exact.

(** [{"a":[1,{}]}] is skipped; [{"a" 1}], [{"a":1,}], [{,"a":1}], [{"a":1 "b":2}] and
    [[1,,2]] are not. *)
Example C46_case :
  match js_from_mut_slice x64 bits_fl false NopeDecoder 30 ignored [123; 34;97;34; 58; 91; 49; 44; 123; 125; 93; 125] with Done _ r => r = Ok UUnit | _ => False end /\
  map (fun input => match js_from_mut_slice x64 bits_fl false NopeDecoder 30 ignored input with Done _ (Err _) => true | _ => false end)
    [[123; 34;97;34; 32; 49; 125]; [123; 34;97;34; 58; 49; 44; 125]; [123; 44; 34;97;34; 58; 49; 125];
     [123; 34;97;34; 58; 49; 32; 34;98;34; 58; 50; 125]; [91; 49; 44; 44; 50; 93]] = repeat true 5.
Proof. split; vm_compute; reflexivity. Qed.
(** What is no JSON and skipped all the same: [1e+-.] as a number. *)
Example C46_loose_case :
  match js_from_mut_slice x64 bits_fl false NopeDecoder 30 ignored [49; 101; 43; 45; 46] with Done _ r => r = Ok UUnit | _ => False end.
Proof. vm_compute. reflexivity. Qed.

(** C47: whatever the types, the only map with newtype structs as keys that can be
    read back is the empty one. *)
Theorem C47_newtype_keys_only_empty : forall ar fl any_f32 dec k t fuel input s v,
  f32_from_str fl [] = None -> f64_from_str fl [] = None ->
  wf (TMap (TNewtype k) t) -> all_bytes input -> (dec = Base64Decoder -> 3 * zlen input <= usize_max ar) ->
  js_from_mut_slice ar fl any_f32 dec fuel (prog (TMap (TNewtype k) t)) input = Done s (Ok v) ->
  v = UMap [] /\ exists w1 w2 w3, input = w1 ++ [123] ++ w2 ++ [125] ++ w3 /\ any_ws w1 /\ any_ws w2 /\ any_ws w3.
Proof. exact newtype_keys_only_empty. Qed.
Print Assumptions C47_newtype_keys_only_empty.
Example C47_empty_case :
  match js_from_mut_slice x64 bits_fl false NopeDecoder 20 (prog (TMap (TNewtype TStr) TBool)) [123; 32; 125] with
  | Done _ r => r = Ok (UMap [])
  | _ => False
  end.
Proof. vm_compute. reflexivity. Qed.

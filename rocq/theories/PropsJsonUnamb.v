(** JSON texts cut short, and texts read twice.  The grammar is [loose_text] of
    [JsonTypeSpec]: everything the decoder accepts. *)
From Verif Require Import Prelude Utf8Spec SerdeSer SerdeDe MpSpec Base64Spec JsonSpec JsonTypeSpec JsonSer JsonErrMap JsonDe
  Types MpTypeSpec JsonUnamb JsonCases PropsMpTyped PropsJsonSer PropsJsonDe.

Local Notation prog t := (denote JDeserializeError t).
Local Notation x64 := PropsJsonDe.x64.
Local Notation readings dec := (match dec with NopeDecoder => bytes_as_string | HexDecoder => hex_bytes | Base64Decoder => bytes_as_base64 end).

(** C56: no text stands for two documents. *)
Theorem C56_one_document : forall d d' text, loose_text d text -> loose_text d' text -> d = d'.
Proof. exact text_one_document. Qed.
Print Assumptions C56_one_document.

(** C56: hence two types that both read an input have read the same document. *)
Theorem C56_types_agree_on_the_document : forall ar fl any_f32 dec t t' fuel fuel' s s' v v' input,
  f32_from_str fl [] = None -> f64_from_str fl [] = None -> wf t -> wf t' ->
  all_bytes input -> (dec = Base64Decoder -> 3 * zlen input <= usize_max ar) ->
  js_from_mut_slice ar fl any_f32 dec fuel (prog t) input = Done s (Ok v) ->
  js_from_mut_slice ar fl any_f32 dec fuel' (prog t') input = Done s' (Ok v') ->
  exists d, reads_as any_ws (f32_from_str fl) (f64_from_str fl) (readings dec) t v d /\
            reads_as any_ws (f32_from_str fl) (f64_from_str fl) (readings dec) t' v' d.
Proof. exact same_document. Qed.
Print Assumptions C56_types_agree_on_the_document.

(** [[1,"a"]] as (u8, char) and as (i64, String). *)
Example C56_agree_case :
  match js_from_mut_slice x64 bits_fl false NopeDecoder 30 (prog (TTuple [TInt U8; TChar])) [91; 49; 44; 34; 97; 34; 93] with
  | Done _ r => r = Ok (USeq [UInt 1; UChar 97]) | _ => False end /\
  match js_from_mut_slice x64 bits_fl false NopeDecoder 30 (prog (TTuple [TInt I64; TStr])) [91; 49; 44; 34; 97; 34; 93] with
  | Done _ r => r = Ok (USeq [UInt 1; UStr [97]]) | _ => False end.
Proof. split; vm_compute; reflexivity. Qed.

(** C56: a document other than a number, cut anywhere before its last byte, is decoded
    by no type at all. *)
Theorem C56_cut_documents_refused : forall ar fl any_f32 dec t fuel s v d w1 text p q,
  f32_from_str fl [] = None -> f64_from_str fl [] = None -> wf t ->
  (dec = Base64Decoder -> 3 * zlen (w1 ++ text) <= usize_max ar) ->
  loose_text d text -> any_ws w1 -> (forall tok, d <> JNum tok) -> w1 ++ text = p ++ q -> q <> [] ->
  js_from_mut_slice ar fl any_f32 dec fuel (prog t) p <> Done s (Ok v).
Proof. exact cut_typed. Qed.
Print Assumptions C56_cut_documents_refused.

(** C56: not by a type that takes what it finds either, *)
Theorem C56_cut_documents_refused_any : forall ar fl any_f32 dec fuel s v d w1 text p q,
  (dec = Base64Decoder -> 3 * zlen (w1 ++ text) <= usize_max ar) ->
  loose_text d text -> any_ws w1 -> (forall tok, d <> JNum tok) -> w1 ++ text = p ++ q -> q <> [] ->
  js_from_mut_slice ar fl any_f32 dec fuel (any JDeserializeError) p <> Done s (Ok v).
Proof. exact cut_any. Qed.
Print Assumptions C56_cut_documents_refused_any.

(** C56: nor by [IgnoredAny]. *)
Theorem C56_cut_documents_not_skipped : forall ar fl any_f32 dec fuel s d w1 text p q,
  (dec = Base64Decoder -> 3 * zlen (w1 ++ text) <= usize_max ar) ->
  loose_text d text -> any_ws w1 -> (forall tok, d <> JNum tok) -> w1 ++ text = p ++ q -> q <> [] ->
  js_from_mut_slice ar fl any_f32 dec fuel ignored p <> Done s (Ok UUnit).
Proof. exact cut_ignored. Qed.
Print Assumptions C56_cut_documents_not_skipped.

(** C56: what a serializer wrote, cut short by a full buffer or a lost connection, is
    taken for no value of any type, unless the value is a lone number. *)
Theorem C56_cut_output_refused : forall ar fl any_f32 dec fp enc v out t fuel s u w1 p q,
  enc <> PassThroughByteEncoder -> printer_ok fp -> strings_ok v -> maps_ok v ->
  js_to_string fp enc v = Ok out -> (forall tok, js_value fp enc v <> Some (JNum tok)) ->
  f32_from_str fl [] = None -> f64_from_str fl [] = None -> wf t ->
  any_ws w1 -> (dec = Base64Decoder -> 3 * zlen (w1 ++ out) <= usize_max ar) ->
  w1 ++ out = p ++ q -> q <> [] ->
  js_from_mut_slice ar fl any_f32 dec fuel (prog t) p <> Done s (Ok u).
Proof. exact cut_output. Qed.
Print Assumptions C56_cut_output_refused.

(** [ ["a",{"b":1}]]: a document that satisfies the hypotheses, and all that is left of
    it when it is cut is refused with an error. *)
Definition cut_demo : bytes := [91; 34; 97; 34; 44; 123; 34; 98; 34; 58; 49; 125; 93].
Example C56_cut_case :
  loose_text (JArr [JStr [97]; JObj [([98], JNum [49])]]) cut_demo /\
  match js_from_mut_slice x64 bits_fl false NopeDecoder 40 ignored cut_demo with Done _ r => r = Ok UUnit | _ => False end /\
  map (fun n => match js_from_mut_slice x64 bits_fl false NopeDecoder 40 ignored (firstn n cut_demo) with Done _ (Err _) => true | _ => false end) (seq 0 13)
    = repeat true 13 /\
  map (fun n => match js_from_mut_slice x64 bits_fl false NopeDecoder 40 (any JDeserializeError) (firstn n cut_demo) with Done _ (Err _) => true | _ => false end) (seq 0 13)
    = repeat true 13.
Proof.
  split; [|split; [vm_compute; reflexivity|split; vm_compute; reflexivity]].
  assert (P : forall c, 97 <= c <= 98 -> quoted [c] [34; c; 34]).
  { intros c C. split; [reflexivity|]. apply Q_plain; [unfold plain_byte; lia|constructor]. }
  apply T_arr with (b := [] ++ [34; 97; 34] ++ [] ++ 44 :: [123; 34; 98; 34; 58; 49; 125]). apply L_more; try constructor.
  - apply P. lia.
  - apply L_one with (w1 := []) (b := [123; 34; 98; 34; 58; 49; 125]) (w2 := []); try constructor.
    apply T_obj with (b := [] ++ [34; 98; 34] ++ [] ++ 58 :: [] ++ [49] ++ []). apply O_one; try constructor.
    + reflexivity.
    + exists [], [98]. split; [reflexivity|]. split; [constructor|]. apply P. lia.
    + split; [discriminate|]. apply Forall_cons; [unfold is_digit; lia|constructor].
Qed.
Example C56_output_case :
  js_to_string demo_fp ArrayByteEncoder jdemo <> Err JSerializeError /\
  (forall tok, js_value demo_fp ArrayByteEncoder jdemo <> Some (JNum tok)) /\ wf (TMap TStr (TInt U8)) /\
  f32_from_str bits_fl [] = None /\ f64_from_str bits_fl [] = None.
Proof. split; [vm_compute; discriminate|]. split; [intros tok; vm_compute; discriminate|]. split; [cbn; auto|]. split; reflexivity. Qed.

(** C56: a lone number has no such protection: [12], cut, is [1]. *)
Theorem C56_cut_numbers_refuted : exists ar fl dec t d text p q fuel s v,
  f32_from_str fl [] = None /\ f64_from_str fl [] = None /\ wf t /\ loose_text d text /\ text = p ++ q /\ q <> [] /\
  js_from_mut_slice ar fl false dec fuel (prog t) p = Done s (Ok v).
Proof.
  exists x64, bits_fl, NopeDecoder, (TInt U8), (JNum [49; 50]), [49; 50], [49], [50], 10%nat. do 2 eexists.
  split; [reflexivity|]. split; [reflexivity|]. split; [exact I|]. split; [apply T_num; split; [discriminate|repeat (apply Forall_cons; [unfold is_digit; lia|]); constructor]|].
  split; [reflexivity|]. split; [discriminate|]. vm_compute. reflexivity.
Qed.
Print Assumptions C56_cut_numbers_refuted.

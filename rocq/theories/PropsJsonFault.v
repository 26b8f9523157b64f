(** Properties: the errors of typed JSON decoding.  [JsonFaultSpec] says what the faults
    of an input are and what each is called; [JsonTypeSpec] what the texts of a value are. *)
From Verif Require Import Prelude Utf8Spec SerdeSer SerdeDe MpSpec Base64Spec JsonSpec JsonTypeSpec JsonDe
  Types TypeSize MpTypeSpec JsonFaultSpec JsonCases PropsMpTyped PropsJsonDe.
From Verif Require JsonFaultTop JsonEats JsonStop.

Local Notation prog t := (denote JDeserializeError t).
Local Notation x64 := PropsJsonDe.x64.

(** C58: a fault is reported by its name. *)
Theorem C58_json_faults_named : forall ar fl any_f32 dec t input e,
  wf t -> all_bytes input -> (dec = Base64Decoder -> 3 * zlen input <= usize_max ar) ->
  document_fault (f32_from_str fl) (f64_from_str fl) dec t input e ->
  exists N, forall fuel, (N <= fuel)%nat -> exists s, js_from_mut_slice ar fl any_f32 dec fuel (prog t) input = Done s (Err e).
Proof. exact JsonFaultTop.fault_named. Qed.
Print Assumptions C58_json_faults_named.

(** C58: and every input is one of two: a text of a value, which is decoded, or one with
    a fault, and the error is the name of the fault.  Assumed of [str::parse]: the empty
    string is not a float. *)
Theorem C58_json_outcome : forall ar fl any_f32 dec t input fuel,
  f32_from_str fl [] = None -> f64_from_str fl [] = None ->
  wf t -> all_bytes input -> (dec = Base64Decoder -> 3 * zlen input <= usize_max ar) ->
  (10 * type_size t + 3 * length input <= fuel)%nat ->
  exists s r, js_from_mut_slice ar fl any_f32 dec fuel (prog t) input = Done s r /\
  match r with
  | Ok v => exists d w1 text w2, input = w1 ++ text ++ w2 /\ any_ws w1 /\ any_ws w2 /\ loose_text d text /\
      reads_as any_ws (f32_from_str fl) (f64_from_str fl) (byte_literal dec) t v d
  | Err e => document_fault (f32_from_str fl) (f64_from_str fl) dec t input e
  end.
Proof. exact JsonFaultTop.outcome_decided. Qed.
Print Assumptions C58_json_outcome.

(** C58: an input has one fault at most, and then it is not the text of a value. *)
Theorem C58_json_verdict_unique : forall f32_of f64_of dec t input e,
  wf t -> all_bytes input -> document_fault f32_of f64_of dec t input e ->
  (forall e', document_fault f32_of f64_of dec t input e' -> e' = e) /\
  (forall v d w1 text w2, input = w1 ++ text ++ w2 -> any_ws w1 -> any_ws w2 -> loose_text d text ->
     ~ reads_as any_ws f32_of f64_of (byte_literal dec) t v d).
Proof. exact JsonFaultTop.verdict_unique. Qed.
Print Assumptions C58_json_verdict_unique.

(** C58: the same for [IgnoredAny]. *)
Theorem C58_json_skip_outcome : forall ar fl any_f32 dec input fuel,
  all_bytes input -> (dec = Base64Decoder -> 3 * zlen input <= usize_max ar) -> (6 + 3 * length input <= fuel)%nat ->
  exists s r, js_from_mut_slice ar fl any_f32 dec fuel ignored input = Done s r /\
  match r with
  | Ok _ => exists d w1 text w2, input = w1 ++ text ++ w2 /\ any_ws w1 /\ any_ws w2 /\ loose_text d text /\ skippable d
  | Err e => skip_document_fault input e
  end.
Proof. exact JsonFaultTop.skip_decided. Qed.
Print Assumptions C58_json_skip_outcome.

(** The record of C21: [{"id":70000], [{"id":7,"id"], [{"id":7}], [{"id":7 "t"],
    [{"z":[1;]. *)
Local Notation fault := (document_fault (f32_from_str bits_fl) (f64_from_str bits_fl) NopeDecoder).
Local Notation fields := [([105; 100], FPlain, TInt U16); ([116], FPlain, TSeq TStr); ([107], FPlain, TOption kind_ty); ([111], FDefault (UF64 0), TF64)].
Ltac start := exists []; split; [reflexivity|]; split; [constructor|unfold is_ws; lia].
Ltac ascii := split; [repeat (apply B_plain; [unfold plain_byte; lia|]); apply B_nil|utf8].
Lemma id_taken k r : k = 44 \/ k = 125 \/ k = 32 ->
  takes_fields (f32_from_str bits_fl) (f64_from_str bits_fl) NopeDecoder fields [None; None; None; None] true
    ([34; 105; 100; 34; 58; 55] ++ k :: r) [Some (UInt 7); None; None; None] false (k :: r).
Proof.
  intros Hk. eapply TM_field with (raw := [105; 100]) (i := 0%nat) (v := UInt 7) (y := k :: r); [| reflexivity|reflexivity|ascii|start| |].
  - exists 34, ([105; 100] ++ 34 :: [58; 55] ++ k :: r). split; [reflexivity|]. split; [lia|]. split; [start|lia].
  - exists [], (JNum [55]), [55]. split; [reflexivity|]. split; [constructor|]. split; [apply T_num; split; [discriminate|apply Forall_cons; [left; unfold is_digit; lia|apply Forall_nil]]|]. split.
    + cbn. exists [55]. split; [reflexivity|]. split; [unfold in_ikind; cbn; lia|]. exists false, [55]. split; [reflexivity|]. split; [|split; [reflexivity|discriminate]].
      split; [split; [discriminate|apply Forall_cons; [unfold is_digit; lia|apply Forall_nil]]|]. right. exists 55, []. split; [reflexivity|lia].
    + right. right. cbn. unfold is_digit. lia.
  - apply TM_nil.
Qed.
Lemma digits_of l : forallb (fun c => (48 <=? c) && (c <=? 57)) l = true -> Forall is_digit l.
Proof. rewrite forallb_forall, Forall_forall. intros H c Hc. specialize (H c Hc). unfold is_digit. lia. Qed.
Example C58_case_range : fault rec_ty ([123; 34; 105; 100; 34; 58] ++ [55;48;48;48;48] ++ [125]) JInvalidNumber.
Proof.
  left. eapply X_field_value with (raw := [105; 100]) (i := 0%nat) (x := [55;48;48;48;48] ++ [125]); [start|apply TM_nil| |reflexivity|ascii|reflexivity|start|].
  - exists 34, ([105; 100] ++ 34 :: 58 :: [55;48;48;48;48] ++ [125]). split; [reflexivity|]. split; [lia|]. split; [start|lia].
  - apply X_int. apply (IF_range U16 [] false [55;48;48;48;48] [125]); [constructor| |cbn; unfold is_digit; lia|discriminate|vm_compute; intuition discriminate].
    split; [split; [discriminate|apply digits_of; reflexivity]|]. right. exists 55, [48;48;48;48]. split; [reflexivity|lia].
Qed.
Example C58_case_twice : fault rec_ty ([123] ++ [34; 105; 100; 34; 58; 55] ++ 44 :: [34; 105; 100; 34; 33]) JDeserializeError.
Proof.
  left. eapply X_field_again with (raw := [105; 100]) (m := [33]) (i := 0%nat) (v := UInt 7); [start|apply id_taken; auto| |reflexivity|ascii|reflexivity].
  exists 34, [105; 100; 34; 33]. split; [reflexivity|]. split; [lia|]. exists [34; 105; 100; 34; 33]. split; start.
Qed.
Example C58_case_missing : fault rec_ty ([123] ++ [34; 105; 100; 34; 58; 55] ++ [125]) JDeserializeError.
Proof.
  left. eapply X_field_missing with (i := 1%nat) (k' := []); [start|apply id_taken; auto|start|reflexivity|reflexivity|reflexivity|discriminate].
Qed.
Example C58_case_comma : fault rec_ty ([123] ++ [34; 105; 100; 34; 58; 55] ++ 32 :: [34; 116; 34]) JExpectedObjectCommaOrEnd.
Proof.
  left. eapply X_field_gap; [start|apply id_taken; auto|]. eapply (G_missing _ _ _ _ _ 34 [116; 34]); [|lia|lia].
  exists [32]. split; [reflexivity|]. split; [apply Forall_cons; [unfold is_ws; auto|constructor]|unfold is_ws; lia].
Qed.
Example C58_case_skip : fault rec_ty [123; 34; 122; 34; 58; 91; 59] JUnexpectedChar.
Proof.
  left. eapply X_field_skip with (raw := [122]) (m := [58; 91; 59]) (x := [91; 59]); [start|apply TM_nil| |ascii|cbn; intuition discriminate|start|].
  - exists 34, [122; 34; 58; 91; 59]. split; [reflexivity|]. split; [lia|]. split; [start|lia].
  - eapply (S_arr _ [59] 0 true [59] [59]); [start|apply Wa_nil|exists 59, []; split; [reflexivity|]; split; [lia|]; split; [start|lia]|].
    eapply S_kind; [start|]. unfold value_start, is_digit. lia.
Qed.
(** A value, and something after it; an element too many. *)
Example C58_case_trailing : fault (TInt U8) [48; 32; 49] JTrailingCharacters.
Proof.
  right. split; [reflexivity|]. exists (UInt 0), [32; 49]. split.
  - exists [], (JNum [48]), [48]. split; [reflexivity|]. split; [constructor|]. split; [apply T_num; split; [discriminate|apply Forall_cons; [left; unfold is_digit; lia|apply Forall_nil]]|].
    split; [|left; reflexivity]. exists [48]. split; [reflexivity|]. split; [unfold in_ikind; cbn; lia|]. exists false, [48].
    split; [reflexivity|]. split; [split; [split; [discriminate|apply digits_of; reflexivity]|left; reflexivity]|]. split; [reflexivity|discriminate].
  - intros H. inversion H as [|? ? _ H2]; subst. inversion H2 as [|? ? H3 _]; subst. unfold is_ws in H3. lia.
Qed.
(** The same through the decoder. *)
Example C58_cases_run : wf rec_ty /\ f32_from_str bits_fl [] = None /\ f64_from_str bits_fl [] = None /\
  map (fun input => match js_from_mut_slice x64 bits_fl false NopeDecoder 60 (prog rec_ty) input with Done _ (Err e) => Some e | _ => None end)
    [[123; 34; 105; 100; 34; 58; 55;48;48;48;48; 125]; [123; 34; 105; 100; 34; 58; 55; 44; 34; 105; 100; 34; 33]; [123; 34; 105; 100; 34; 58; 55; 125];
     [123; 34; 105; 100; 34; 58; 55; 32; 34; 116; 34]; [123; 34; 122; 34; 58; 91; 59]; [48]; [123; 44]; [32; 123]]
  = [Some JInvalidNumber; Some JDeserializeError; Some JDeserializeError; Some JExpectedObjectCommaOrEnd; Some JUnexpectedChar;
     Some JExpectedStruct; Some JLeadingObjectComma; Some JUnexpectedEof].
Proof. split; [apply rec_wf|]. do 2 (split; [reflexivity|]). vm_compute. reflexivity. Qed.
Example C58_skip_run :
  map (fun input => match js_from_mut_slice x64 bits_fl false NopeDecoder 40 ignored input with Done _ (Err e) => Some e | _ => None end)
    [[91; 49; 44; 93]; [123; 49]; [123; 34; 97; 34; 49]; [110; 117; 108; 120]; [34; 97]; [49; 50; 32; 49]]
  = [Some JTrailingArrayComma; Some JKeyMustBeAString; Some JExpectedColon; Some JExpectedToken; Some JUnexpectedEof; Some JTrailingCharacters].
Proof. vm_compute. reflexivity. Qed.

(** C58: 128-bit integers are refused before the input is looked at. *)
Theorem C58_json_i128 : forall U ar fl any_f32 dec fuel (v : visitor U js_de_error) input,
  js_from_mut_slice ar fl any_f32 dec (S fuel) (DReq DI128 v (fun r => r)) input = Done (j_from_mut_slice input) (Err JDeserializeError).
Proof. exact JsonFaultTop.i128_refused. Qed.
Print Assumptions C58_json_i128.
Example C58_i128_case :
  map (fun input => match js_from_mut_slice x64 bits_fl false NopeDecoder 20 (request DSeq (v_seq JDeserializeError (seq_loop (request DI128 (v_int JDeserializeError U64)) []))) input with Done _ r => Some r | _ => None end)
    [[91; 93]; [91; 55; 93]] = [Some (Ok (USeq [])); Some (Err JDeserializeError)].
Proof. vm_compute. reflexivity. Qed.

(** C26 (JSON): a visitor of the caller that stops in the middle of an object does not
    make the object end there.  [JsonEats.eats m u r k]: the program [m], run on the bytes
    [r], succeeds with [u] and leaves [k] unread. *)
Theorem C26_json_object_unfinished : forall ar fl any_f32 dec m (v : visitor val js_de_error) input r u k e,
  In m [DMap; DStruct; DAny; DIgnoredAny] -> (dec = Base64Decoder -> 3 * zlen input <= usize_max ar) -> begins input 123 r ->
  JsonEats.eats ar dec (fun f => jr_map (js_run ar fl any_f32 dec f) (visit_map v) true) u r k ->
  (any_ws k /\ e = JUnexpectedEof) \/ (exists c k', begins k c k' /\ c <> 125 /\ e = JExpectedObjectEnd) ->
  exists N, forall fuel, (N <= fuel)%nat -> exists s, js_from_mut_slice ar fl any_f32 dec fuel (DReq m v (fun r => r)) input = Done s (Err e).
Proof. exact JsonStop.object_stops. Qed.
Print Assumptions C26_json_object_unfinished.
Theorem C26_json_array_unfinished : forall ar fl any_f32 dec m (v : visitor val js_de_error) input r u k e,
  In m [DSeq; DTuple; DTupleStruct; DStruct; DAny; DIgnoredAny] -> (dec = Base64Decoder -> 3 * zlen input <= usize_max ar) -> begins input 91 r ->
  JsonEats.eats ar dec (fun f => jr_seq (js_run ar fl any_f32 dec f) (visit_seq v) true) u r k ->
  (any_ws k /\ e = JUnexpectedEof) \/ (exists c k', begins k c k' /\ c <> 93 /\ e = JExpectedArrayEnd) ->
  exists N, forall fuel, (N <= fuel)%nat -> exists s, js_from_mut_slice ar fl any_f32 dec fuel (DReq m v (fun r => r)) input = Done s (Err e).
Proof. exact JsonStop.array_stops. Qed.
Print Assumptions C26_json_array_unfinished.

(** A visitor that looks at nothing, and one that takes the first entry only (de.rs:2608-2632). *)
Definition looks_at_nothing : visitor val js_de_error := mk_visitor (v_struct JDeserializeError (SRet (Ok UUnit)) (MRet (Ok UUnit))).
Definition first_entry : deser val js_de_error := request DAny (v_map JDeserializeError
  (MKey (prog (TInt I32)) (fun k => match k with
     | Ok (Some k) => MVal (prog (TInt I32)) (fun v => MRet (match v with Ok v => Ok (UMap [(k, v)]) | Err e => Err e end))
     | Ok None => MRet (Ok (UMap []))
     | Err e => MRet (Err e)
     end))).
Example C26_json_case :
  begins [123; 34; 48; 34; 58; 49; 125] 123 [34; 48; 34; 58; 49; 125] /\ begins [32; 91] 91 [] /\
  JsonEats.eats x64 NopeDecoder (fun f => jr_map (js_run x64 bits_fl false NopeDecoder f) (visit_map looks_at_nothing) true) UUnit [34; 48; 34; 58; 49; 125] [34; 48; 34; 58; 49; 125] /\
  JsonEats.eats x64 NopeDecoder (fun f => jr_seq (js_run x64 bits_fl false NopeDecoder f) (visit_seq looks_at_nothing) true) UUnit [] [] /\
  map (fun input => match js_from_mut_slice x64 bits_fl false NopeDecoder 40 first_entry input with Done _ r => Some r | _ => None end)
    [[123; 125]; [123; 34; 48; 34; 58; 49; 125]; [123; 34; 48; 34; 58; 49]; [123; 34; 48; 34; 58; 49; 93]; [123; 34; 48; 34; 58; 49; 44; 34; 50; 34; 58; 51; 125]]
  = [Some (Ok (UMap [])); Some (Ok (UMap [(UInt 0, UInt 1)])); Some (Err JUnexpectedEof); Some (Err JExpectedObjectEnd); Some (Err JExpectedObjectEnd)].
Proof.
  split; [start|]. split; [exists [32]; split; [reflexivity|]; split; [repeat constructor; unfold is_ws; lia|unfold is_ws; lia]|].
  split; [exists 1%nat; intros f Hf s I U; destruct f as [|f]; [lia|]; exists s; split; [reflexivity|]; split; assumption|].
  split; [exists 1%nat; intros f Hf s I U; destruct f as [|f]; [lia|]; exists s; split; [reflexivity|]; split; assumption|].
  vm_compute. reflexivity.
Qed.

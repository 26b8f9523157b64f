(** C72: every input of a struct with a flattened field is decided. *)
From Verif Require Import Prelude Utf8Spec SerdeSer SerdeDe FloatOps Arch MpSpec MpErrMap Types MpTypeSpec Base64Spec JsonSpec JsonTypeSpec JsonErrMap JsonDe
  JsonCases JsonAnySpec BufferSpec Flatten MpDe MpDeView MpDeTop FlattenEncSpec FlattenJsonSpec FlattenReadSpec MpFlattenSound JsonFlattenSound TypeSize PropsMpSer PropsMpDe PropsMpTyped PropsJsonSer PropsJsonTyped PropsFlatten.

(** C72: the flattened field is what its type makes of the entries it takes (C75), whatever
    else is among them. *)
Theorem C72_msgpack_takes : forall fo fs g ar l w bs tail,
  arch32up ar -> wf (TStruct fs) -> (exists gs, g = TStruct gs) \/ (exists k v, g = TMap k v) -> wf g ->
  flat_takes fo fs g l w bs -> slice_of ar (bs ++ tail) ->
  exists N, forall fuel, (N <= fuel)%nat ->
    exists s, mp_from_slice ar fo fuel (flattened fo DeserializeError fs g) (bs ++ tail) = Done s (Ok (USeq [USeq l; w], zlen bs)).
Proof. exact mp_flattened_takes. Qed.
Print Assumptions C72_msgpack_takes.
Theorem C72_msgpack_takes_truncated : forall fo fs g ar l w bs c q,
  arch32up ar -> wf (TStruct fs) -> (exists gs, g = TStruct gs) \/ (exists k v, g = TMap k v) -> wf g ->
  flat_takes fo fs g l w (bs ++ c :: q) -> slice_of ar (bs ++ c :: q) ->
  exists N, forall fuel, (N <= fuel)%nat ->
    exists s, mp_from_slice ar fo fuel (flattened fo DeserializeError fs g) bs = Done s (Err UnexpectedEof).
Proof. exact mp_flattened_takes_truncated. Qed.
Print Assumptions C72_msgpack_takes_truncated.
(** C72: a value comes from an encoding of it at the start of the input, and an input is
    refused only when no encoding is there. *)
Theorem C72_msgpack_decides : forall fo fs g ar input fuel,
  arch64 ar -> wf (TStruct fs) -> (exists gs, g = TStruct gs) \/ (exists k v, g = TMap k v) -> wf g -> slice64 input ->
  (10 * type_size (TStruct fs) + 1 + 3 * length input <= fuel)%nat ->
  (exists s l w bs tail, mp_from_slice ar fo fuel (flattened fo DeserializeError fs g) input = Done s (Ok (USeq [USeq l; w], zlen bs)) /\
     input = bs ++ tail /\ flat_got fo fs g l w bs) \/
  (exists s e, mp_from_slice ar fo fuel (flattened fo DeserializeError fs g) input = Done s (Err e) /\
     forall l w bs tail, input = bs ++ tail -> ~ flat_takes fo fs g l w bs).
Proof. exact mp_flattened_decides. Qed.
Print Assumptions C72_msgpack_decides.
(** {"k": -3, "b": "hi", "z": 5, "a": 7} for a flattened map; the same with a key of the map
    twice, which is kept twice; and what is refused: a value that is no number, a key that is
    one, a field missing, a field twice. *)
Definition flat_mp2 : bytes := [0x84; 0xa1; 107; 0xfd; 0xa1; 98; 0xa2; 104; 105; 0xa1; 122; 5; 0xa1; 97; 7].
Example C72_msgpack_decides_case : flat_takes no_floats flat_fs flat_m flat_l flat_n flat_mp2 /\
  map (fun input => match mp_from_slice x64 no_floats 999 (flattened no_floats DeserializeError flat_fs flat_m) input with Done _ r => Some r | _ => None end)
    [flat_mp2 ++ [1]; [0x84; 0xa1; 107; 0xfd; 0xa1; 98; 0xa2; 104; 105; 0xa1; 107; 5; 0xa1; 97; 7];
     [0x83; 0xa1; 107; 0xc3; 0xa1; 98; 0xa0; 0xa1; 97; 7]; [0x83; 5; 5; 0xa1; 98; 0xa0; 0xa1; 97; 7]; [0x82; 0xa1; 107; 5; 0xa1; 98; 0xa0]; [0x82; 0xa1; 97; 7; 0xa1; 97; 7]]
  = [Some (Ok (USeq [USeq flat_l; flat_n], 15)); Some (Ok (USeq [USeq flat_l; UMap [(UStr [107], UInt (-3)); (UStr [107], UInt 5)]], 15));
     Some (Err DeserializeError); Some (Err DeserializeError); Some (Err DeserializeError); Some (Err DeserializeError)].
Proof.
  assert (E : forall c, str_enc [c] [0xa1; c]) by (intros c; exists [0xa1]; split; [apply (SH_fix 1); lia|reflexivity]).
  split; [|vm_compute; reflexivity].
  exists 4, [0x84], (tl flat_mp2), [(VStr [107], VInt (-3)); (VStr [122], VInt 5)], [Some (UInt 7); Some (UStr [104; 105])], [(UStr [107], UInt (-3)); (UStr [122], UInt 5)].
  split; [reflexivity|]. split; [apply (MH_fix 4); lia|]. split; [|split; [cbn; auto|]].
  - apply (FE_flat _ _ _ _ _ 3 (VStr [107]) (VInt (-3)) (UInt (-3)) [0xa1; 107] [0xfd]).
    1:{ left. exists [107]. split; [reflexivity|]. split; [utf8|]. split; [cbn; intuition discriminate|apply E]. }
    1:{ exact I. }
    1:{ apply MF_int. apply (IF_neg (-3)). lia. }
    1:{ constructor. }
    eapply (FE_field _ _ _ _ _ 2 1 _ (UStr [104; 105]) [98] [0xa1; 98] [0xa2; 104; 105]); [reflexivity|reflexivity|reflexivity|apply E| |].
    1:{ cbn [adm snd]. split; [utf8|]. exists [0xa2]. split; [apply (SH_fix 2); lia|reflexivity]. }
    apply (FE_flat _ _ _ _ _ 1 (VStr [122]) (VInt 5) (UInt 5) [0xa1; 122] [5]).
    1:{ left. exists [122]. split; [reflexivity|]. split; [utf8|]. split; [cbn; intuition discriminate|apply E]. }
    1:{ exact I. }
    1:{ apply MF_int. constructor. lia. }
    1:{ constructor. }
    eapply (FE_field _ _ _ _ _ 0 0 _ (UInt 7) [97] [0xa1; 97] [7] []); [reflexivity|reflexivity|reflexivity|apply E| |].
    1:{ cbn [adm snd]. split; [unfold in_ikind; cbn; lia|]. constructor. lia. }
    apply FE_nil.
  - split.
    + repeat constructor; utf8.
    + split; [cbn; intuition discriminate|]. eexists. split; [reflexivity|]. repeat constructor; cbn; auto; unfold in_ikind; cbn; lia.
Qed.

(** C72: the same for JSON. *)
Theorem C72_json_takes : forall ar fl fo (any_f32 : bool) dec fs g l w d text w1 w2,
  wf (TStruct fs) -> (exists gs, g = TStruct gs) \/ (exists k v, g = TMap k v) -> wf g ->
  flat_from_doc fo (f32_from_str fl) (f64_from_str fl) dec any_f32 fs g l w d ->
  loose_text d text -> any_ws w1 -> any_ws w2 -> (dec = Base64Decoder -> 3 * zlen (w1 ++ text ++ w2) <= usize_max ar) ->
  exists N, forall fuel, (N <= fuel)%nat ->
    exists s, js_from_mut_slice ar fl any_f32 dec fuel (flattened fo JDeserializeError fs g) (w1 ++ text ++ w2) = Done s (Ok (USeq [USeq l; w])).
Proof. exact js_flattened_takes. Qed.
Print Assumptions C72_json_takes.
Theorem C72_json_decides : forall ar fl fo (any_f32 : bool) dec fs g input fuel,
  f32_from_str fl [] = None -> f64_from_str fl [] = None ->
  wf (TStruct fs) -> (exists gs, g = TStruct gs) \/ (exists k v, g = TMap k v) -> wf g -> all_bytes input ->
  (dec = Base64Decoder -> 3 * zlen input <= usize_max ar) -> (10 * type_size (TStruct fs) + 1 + 3 * length input <= fuel)%nat ->
  let from l w d := flat_from_doc fo (f32_from_str fl) (f64_from_str fl) dec any_f32 fs g l w d in
  (exists s l w d w1 text w2, js_from_mut_slice ar fl any_f32 dec fuel (flattened fo JDeserializeError fs g) input = Done s (Ok (USeq [USeq l; w])) /\
     input = w1 ++ text ++ w2 /\ any_ws w1 /\ any_ws w2 /\ loose_text d text /\ from l w d) \/
  (exists s e, js_from_mut_slice ar fl any_f32 dec fuel (flattened fo JDeserializeError fs g) input = Done s (Err e) /\
     forall l w d w1 text w2, input = w1 ++ text ++ w2 -> any_ws w1 -> any_ws w2 -> loose_text d text -> ~ from l w d).
Proof. exact js_flattened_decides. Qed.
Print Assumptions C72_json_decides.
(** C72: no beginning of a JSON document, other than of a number, is taken for a value. *)
Theorem C72_json_cut_refused : forall ar fl fo (any_f32 : bool) dec fs g fuel s u d w1 text p q,
  f32_from_str fl [] = None -> f64_from_str fl [] = None ->
  wf (TStruct fs) -> (exists gs, g = TStruct gs) \/ (exists k v, g = TMap k v) -> wf g ->
  (dec = Base64Decoder -> 3 * zlen (w1 ++ text) <= usize_max ar) ->
  loose_text d text -> any_ws w1 -> (forall tok, d <> JNum tok) -> w1 ++ text = p ++ q -> q <> [] ->
  js_from_mut_slice ar fl any_f32 dec fuel (flattened fo JDeserializeError fs g) p <> Done s (Ok u).
Proof. exact js_flattened_cut. Qed.
Print Assumptions C72_json_cut_refused.
(** The object of [C72_json_interoperability_case], whole and cut at every place; a flattened
    struct with a member of another type; a document that is no object. *)
Example C72_json_decides_case :
  flat_from_doc no_floats (f32_from_str bits_fl) (f64_from_str bits_fl) HexDecoder false flat_fs flat_g flat_l flat_w (JObj flat_members3) /\
  f32_from_str bits_fl [] = None /\ f64_from_str bits_fl [] = None /\ (10 * type_size (TStruct flat_fs) + 1 + 3 * length flat_text3 = 154)%nat /\
  (let run input := match js_from_mut_slice x64 bits_fl false HexDecoder 154 (flattened no_floats JDeserializeError flat_fs flat_g) input with Done _ r => Some r | _ => None end in
   map run [flat_text3; [123; 34; 97; 34; 58; 55; 44; 34; 98; 34; 58; 34; 34; 44; 34; 120; 34; 58; 49; 125]; [34; 97; 34]]
   = [Some (Ok (USeq [USeq flat_l; flat_w])); Some (Err JDeserializeError); Some (Err JExpectedObject)] /\
   forallb (fun n => match run (firstn n flat_text3) with Some (Err _) => true | _ => false end) (seq 0 (length flat_text3)) = true).
Proof.
  split; [|split; [reflexivity|]; split; [reflexivity|]; split; [reflexivity|]; split; vm_compute; reflexivity].
  exists flat_members3, [(UStr [121], UUnit); (UStr [120], UBool true)], [Some (UInt 7); Some (UStr [104; 105])].
  split; [reflexivity|]. split; [|split; [cbn; auto|]].
  - unfold flat_members3. eapply (FD_flat _ _ _ _ _ _ _ [121]); [ascii|cbn; intuition discriminate|cbn; auto|constructor|].
    eapply (FD_field _ _ _ _ _ _ _ 1 _ (UStr [104; 105])); [reflexivity|reflexivity|ascii|eexists; split; [reflexivity|ascii]|].
    eapply (FD_skip _ _ _ _ _ _ _ [113]); [ascii|cbn; intuition discriminate|cbn; intuition discriminate|apply (A_arr _ _ []); constructor|].
    eapply (FD_flat _ _ _ _ _ _ _ [120]); [ascii|cbn; intuition discriminate|cbn; auto|constructor|].
    eapply (FD_field _ _ _ _ _ _ _ 0 _ (UInt 7)); [reflexivity|reflexivity|ascii| |apply FD_nil].
    exists [55]. split; [reflexivity|]. split; [unfold in_ikind; cbn; lia|]. exists false, [55]. split; [reflexivity|].
    split; [split; [dgt|right; exists 55, []; split; [reflexivity|lia]]|]. split; [reflexivity|discriminate].
  - right. exists [(UStr [121], UUnit); (UStr [120], UBool true)], [Some (UBool true); Some UNone]. split; [reflexivity|]. split; [|cbn; auto].
    eapply (BF_field _ _ _ 1 [121] _ UNone); [reflexivity|reflexivity|reflexivity|left; reflexivity|left; reflexivity|].
    eapply (BF_field _ _ _ 0 [120] _ (UBool true)); [reflexivity|reflexivity|reflexivity|left; reflexivity|reflexivity|]. constructor.
Qed.

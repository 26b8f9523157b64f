(** C75: which messages and documents enums read through a buffer take; [BufferSpec] says
    what a type makes of a buffered value. *)
From Verif Require Import Prelude Utf8Spec Utf8 Utf8Facts SerdeSer SerdeDe FloatOps MpSpec MpDe MpDeView MpDeTop Types MpTypeSpec Base64Spec JsonSpec JsonTypeSpec JsonAnySpec JsonDe
  JsonCases Content BufferSpec BufferTop BufferFault PropsMpDe PropsMpTyped.
From Verif Require MpAnyFaultSpec JsonAnyFaultSpec.

(** C75: of a message in any encoding an untagged enum is the first variant that takes what
    it denotes, and refused when none does.  Keys that are numbers are left out: what serde
    makes of them depends on their width, which the model does not keep. *)
Theorem C75_msgpack_untagged_decides : forall ar fo vs m bs c tail,
  arch32up ar -> Forall (fun f => kind_ok (fst f) (snd f) /\ wf (snd f)) vs ->
  mp_fmt m bs -> denotes m (inl c) -> no_number_keys c -> slice_of ar (bs ++ tail) ->
  exists N, forall fuel, (N <= fuel)%nat -> exists s r, mp_from_slice ar fo fuel (untagged fo DeserializeError vs) (bs ++ tail) = Done s r /\
    (forall i v, first_variant fo vs i v c -> r = Ok (UVar i v, zlen bs)) /\
    (no_variant fo vs c -> r = Err DeserializeError).
Proof. exact (fun ar fo vs m bs c tail A => mp_untagged_exact ar fo A vs m bs c tail). Qed.
Print Assumptions C75_msgpack_untagged_decides.

(** C75: the same for the text of any JSON document. *)
Theorem C75_json_untagged_decides : forall ar fl fo (any_f32 : bool) dec vs c d text w1 w2,
  Forall (fun f => kind_ok (fst f) (snd f) /\ wf (snd f)) vs ->
  any_as any_f32 (if any_f32 then f32_from_str fl else f64_from_str fl) c d -> raw_text d text -> any_ws w1 -> any_ws w2 ->
  (dec = Base64Decoder -> 3 * zlen (w1 ++ text ++ w2) <= usize_max ar) ->
  exists N, forall fuel, (N <= fuel)%nat -> exists s r, js_from_mut_slice ar fl any_f32 dec fuel (untagged fo JDeserializeError vs) (w1 ++ text ++ w2) = Done s r /\
    (forall i v, first_variant fo vs i v c -> r = Ok (UVar i v)) /\
    (no_variant fo vs c -> r = Err JDeserializeError).
Proof. exact js_untagged_exact. Qed.
Print Assumptions C75_json_untagged_decides.

(** C75: an internally tagged enum is read with the tag at any place and the fields in any
    order. *)
Theorem C75_msgpack_tagged_interoperability : forall ar fo tag vs m bs c i v tail,
  arch32up ar -> NoDup (map fst vs) -> Forall (fun f => match snd f with Some fs => wf (TStruct fs) | None => True end) vs ->
  mp_fmt m bs -> denotes m (inl c) -> no_number_keys c -> tagged_as fo tag vs i v c -> slice_of ar (bs ++ tail) ->
  exists N, forall fuel, (N <= fuel)%nat -> exists s, mp_from_slice ar fo fuel (tagged fo DeserializeError tag vs) (bs ++ tail) = Done s (Ok (UVar i v, zlen bs)).
Proof. exact (fun ar fo tag vs m bs c i v tail A => mp_tagged_reads ar fo A tag vs m bs c i v tail). Qed.
Print Assumptions C75_msgpack_tagged_interoperability.

Theorem C75_json_tagged_interoperability : forall ar fl fo (any_f32 : bool) dec tag vs c i v d text w1 w2,
  NoDup (map fst vs) -> Forall (fun f => match snd f with Some fs => wf (TStruct fs) | None => True end) vs ->
  any_as any_f32 (if any_f32 then f32_from_str fl else f64_from_str fl) c d -> raw_text d text -> any_ws w1 -> any_ws w2 -> tagged_as fo tag vs i v c ->
  (dec = Base64Decoder -> 3 * zlen (w1 ++ text ++ w2) <= usize_max ar) ->
  exists N, forall fuel, (N <= fuel)%nat -> exists s, js_from_mut_slice ar fl any_f32 dec fuel (tagged fo JDeserializeError tag vs) (w1 ++ text ++ w2) = Done s (Ok (UVar i v)).
Proof. exact js_tagged_reads. Qed.
Print Assumptions C75_json_tagged_interoperability.

(** C75: what an internally tagged enum refuses: a map with no tag, with several, or with one
    that names no variant; a unit variant with more elements; anything but arrays and maps. *)
Theorem C75_msgpack_tagged_refuses : forall ar fo tag vs m bs c tail,
  arch32up ar -> NoDup (map fst vs) -> mp_fmt m bs -> denotes m (inl c) -> tag_refused tag vs c -> slice_of ar (bs ++ tail) ->
  exists N, forall fuel, (N <= fuel)%nat -> exists s, mp_from_slice ar fo fuel (tagged fo DeserializeError tag vs) (bs ++ tail) = Done s (Err DeserializeError).
Proof. exact (fun ar fo tag vs m bs c tail A => mp_tagged_refuses ar fo A tag vs m bs c tail). Qed.
Print Assumptions C75_msgpack_tagged_refuses.

Theorem C75_json_tagged_refuses : forall ar fl fo (any_f32 : bool) dec tag vs c d text w1 w2,
  NoDup (map fst vs) ->
  any_as any_f32 (if any_f32 then f32_from_str fl else f64_from_str fl) c d -> raw_text d text -> any_ws w1 -> any_ws w2 -> tag_refused tag vs c ->
  (dec = Base64Decoder -> 3 * zlen (w1 ++ text ++ w2) <= usize_max ar) ->
  exists N, forall fuel, (N <= fuel)%nat -> exists s, js_from_mut_slice ar fl any_f32 dec fuel (tagged fo JDeserializeError tag vs) (w1 ++ text ++ w2) = Done s (Err JDeserializeError).
Proof. exact js_tagged_refuses. Qed.
Print Assumptions C75_json_tagged_refuses.

(** C75: a fault of the message is reported as a self-describing type reports it (C59),
    whatever the variants. *)
Theorem C75_msgpack_faults_pass : forall ar fo vs tag tvs bs e tail,
  arch32up ar -> MpAnyFaultSpec.any_fault bs e -> slice_of ar (bs ++ tail) ->
  exists N, forall fuel, (N <= fuel)%nat ->
    (exists s, mp_from_slice ar fo fuel (untagged fo DeserializeError vs) (bs ++ tail) = Done s (Err e)) /\
    (exists s, mp_from_slice ar fo fuel (tagged fo DeserializeError tag tvs) (bs ++ tail) = Done s (Err e)).
Proof. exact mp_faults_pass. Qed.
Print Assumptions C75_msgpack_faults_pass.

(** C75: a fault of the document, too; only characters after the value are not looked at
    when no variant takes it. *)
Theorem C75_json_faults_pass : forall ar fl fo (any_f32 : bool) dec vs tag tvs input e,
  all_bytes input -> (dec = Base64Decoder -> 3 * zlen input <= usize_max ar) ->
  JsonAnyFaultSpec.any_document_fault any_f32 (if any_f32 then f32_from_str fl else f64_from_str fl) input e ->
  exists N, forall fuel, (N <= fuel)%nat ->
    (exists s e', js_from_mut_slice ar fl any_f32 dec fuel (untagged fo JDeserializeError vs) input = Done s (Err e') /\
      (e' = e \/ (e = JTrailingCharacters /\ e' = JDeserializeError))) /\
    (exists s e', js_from_mut_slice ar fl any_f32 dec fuel (tagged fo JDeserializeError tag tvs) input = Done s (Err e') /\
      (e' = e \/ (e = JTrailingCharacters /\ e' = JDeserializeError))).
Proof. exact js_faults_pass. Qed.
Print Assumptions C75_json_faults_pass.

(** C75: what becomes of any input: the first variant that takes its value, or the fault
    of the input, or it is too short, or no variant takes the value. *)
Theorem C75_msgpack_untagged_outcome : forall ar fo vs input fuel,
  arch64 ar -> Forall (fun f => kind_ok (fst f) (snd f) /\ wf (snd f)) vs -> slice64 input -> (6 + 3 * length input <= fuel)%nat ->
  exists s r, mp_from_slice ar fo fuel (untagged fo DeserializeError vs) input = Done s r /\
  match r with
  | Ok (u, n) => exists m bs tail c, input = bs ++ tail /\ zlen bs = n /\ mp_fmt m bs /\ denotes m (inl c) /\
      (no_number_keys c -> exists i v, u = UVar i v /\ first_variant fo vs i v c)
  | Err e =>
    (exists bs tail, input = bs ++ tail /\ MpAnyFaultSpec.any_fault bs e) \/
    (e = UnexpectedEof /\ forall bs tail, input = bs ++ tail ->
      (forall m v, mp_fmt m bs -> ~ denotes m (inl v)) /\ (forall e, ~ MpAnyFaultSpec.any_fault bs e)) \/
    (e = DeserializeError /\ exists m bs tail c, input = bs ++ tail /\ mp_fmt m bs /\ denotes m (inl c) /\
      (no_number_keys c -> no_variant fo vs c))
  end.
Proof. exact mp_untagged_outcome. Qed.
Print Assumptions C75_msgpack_untagged_outcome.

Theorem C75_json_untagged_outcome : forall ar fl fo (any_f32 : bool) dec vs input fuel,
  Forall (fun f => kind_ok (fst f) (snd f) /\ wf (snd f)) vs ->
  all_bytes input -> (dec = Base64Decoder -> 3 * zlen input <= usize_max ar) -> (6 + 3 * length input <= fuel)%nat ->
  let float_of := if any_f32 then f32_from_str fl else f64_from_str fl in
  exists s r, js_from_mut_slice ar fl any_f32 dec fuel (untagged fo JDeserializeError vs) input = Done s r /\
  match r with
  | Ok u => exists i v c d w1 text w2, u = UVar i v /\ first_variant fo vs i v c /\
      input = w1 ++ text ++ w2 /\ any_ws w1 /\ any_ws w2 /\ loose_text d text /\ any_as any_f32 float_of c d
  | Err e =>
    JsonAnyFaultSpec.any_document_fault any_f32 float_of input e \/
    (e = JDeserializeError /\
      (JsonAnyFaultSpec.any_document_fault any_f32 float_of input JTrailingCharacters \/
       exists c d w1 text w2, no_variant fo vs c /\
         input = w1 ++ text ++ w2 /\ any_ws w1 /\ any_ws w2 /\ loose_text d text /\ any_as any_f32 float_of c d))
  end.
Proof. exact js_untagged_outcome. Qed.
Print Assumptions C75_json_untagged_outcome.

(** enum E { Name(String), Rec { a: u8, b: Option<bool> } } *)
Definition buf_fs : list (bytes * fattr * ty) := [([97], FPlain, TInt U8); ([98], FPlain, TOption TBool)].
Definition buf_vs : list (vkind * ty) := [(KNewtype, TStr); (KStruct, TStruct buf_fs)].
(** A map with an unknown entry "z" and the key "a" as a byte string; a byte string that is
    text; one that is not; a map with "a" twice. *)
Example C75_untagged_case :
  Forall (fun f => kind_ok (fst f) (snd f) /\ wf (snd f)) buf_vs /\
  first_variant no_floats buf_vs 1 (USeq [UInt 7; UNone]) (UMap [(UStr [122], UInt 1); (UBytes [97], UInt 7)]) /\
  first_variant no_floats buf_vs 0 (UStr [104; 105]) (UBytes [104; 105]) /\
  no_variant no_floats buf_vs (UBytes [255]) /\
  no_variant no_floats buf_vs (UMap [(UStr [97], UInt 7); (UStr [97], UInt 7)]) /\
  map (fun input => match mp_from_slice x64 no_floats 60 (untagged no_floats DeserializeError buf_vs) input with Done _ r => Some r | _ => None end)
    [[0x82; 0xa1; 122; 1; 0xc4; 1; 97; 7; 9]; [0xc4; 2; 104; 105]; [0xc4; 1; 255]; [0x82; 0xa1; 97; 7; 0xa1; 97; 7]]
  = [Some (Ok (UVar 1 (USeq [UInt 7; UNone]), 8)); Some (Ok (UVar 0 (UStr [104; 105]), 4)); Some (Err DeserializeError); Some (Err DeserializeError)].
Proof.
  split; [constructor; [split; shown|constructor; [split; shown|constructor]]|]. split.
  { exists (KStruct, TStruct buf_fs). split; [reflexivity|]. split.
    - split; [eauto|]. right. eexists. exists [Some (UInt 7); None]. split; [reflexivity|]. split.
      + apply BF_other with (s := [122]); [left; reflexivity|cbn; intuition discriminate|].
        apply (BF_field _ _ _ 0 [97] (buf_as no_floats (TInt U8)) (UInt 7)); [reflexivity|reflexivity|reflexivity|right; reflexivity| |apply BF_nil].
        split; [reflexivity|]. unfold in_ikind. cbn. lia.
      + cbn. repeat split. eexists. reflexivity.
    - intros [|j] g u L E; [|lia]. injection E as <-. unfold variant_as. cbn. destruct u; auto. intros [E|[E _]]; discriminate. }
  split.
  { exists (KNewtype, TStr). split; [reflexivity|]. split; [right; split; [reflexivity|utf8]|]. intros j g u L. lia. }
  split.
  { intros f v [<-|[<-|[]]]; unfold variant_as; cbn [fst snd].
    - destruct v; cbn; auto. intros [E|[[= <-] U]]; [discriminate|]. apply from_utf8_ok_spec in U. discriminate.
    - intros [[es E] _]. discriminate. }
  split.
  { intros f v [<-|[<-|[]]]; unfold variant_as; cbn [fst snd].
    - destruct v; cbn; auto. intros [E|[E _]]; discriminate.
    - intros [_ H]. destruct v; cbn in H; auto. destruct H as [(cs & E & _)|(es & got & [= <-] & H & _)]; [discriminate|].
      inversion H as [|? i n p v k c es got' Hg Hp Hn C Hv H'|? s k c es got' C O H']; subst.
      + assert (n = [97]) by (destruct C as [[= ->]|?]; [reflexivity|discriminate]). subst n. destruct i as [|[|i]]; [| |destruct i]; cbn in Hn; try discriminate.
        cbn in H'. inversion H' as [|? i n p' v' k c es got2 Hg' Hp' Hn' C' Hv' H2|? s k c es got2 C' O H2]; subst.
        * assert (n = [97]) by (destruct C' as [[= ->]|?]; [reflexivity|discriminate]). subst n. destruct i as [|[|i]]; [| |destruct i]; cbn in Hn', Hg'; discriminate.
        * assert (s = [97]) by (destruct C' as [[= ->]|?]; [reflexivity|discriminate]). subst s. apply O. left. reflexivity.
      + assert (s = [97]) by (destruct C as [[= ->]|?]; [reflexivity|discriminate]). subst s. apply O. left. reflexivity. }
  vm_compute. reflexivity.
Qed.
(** {"a":7,"t":"On"} with the tag "t". *)
Example C75_tagged_case :
  let vs := [([79; 102; 102], None); ([79; 110], Some buf_fs)] in
  tagged_as no_floats [116] vs 1 (USeq [UInt 7; UNone]) (UMap [(UStr [97], UInt 7); (UStr [116], UStr [79; 110])]) /\
  match js_from_mut_slice x64 bits_fl false NopeDecoder 60 (tagged no_floats JDeserializeError [116] vs)
    [123; 34; 97; 34; 58; 55; 44; 34; 116; 34; 58; 34; 79; 110; 34; 125] with Done _ r => r = Ok (UVar 1 (USeq [UInt 7; UNone])) | _ => False end /\
  match mp_from_slice x64 no_floats 60 (tagged no_floats DeserializeError [116] vs) [0x82; 0xa1; 97; 7; 0xa1; 116; 0xa2; 79; 110] with
    Done _ r => r = Ok (UVar 1 (USeq [UInt 7; UNone]), 9) | _ => False end.
Proof.
  cbn zeta. split.
  { exists [79; 110], (Some buf_fs), (UStr [79; 110]). split; [reflexivity|]. split; [left; reflexivity|]. right.
    exists [(UStr [97], UInt 7)], [], (UStr [116]). split; [reflexivity|]. split; [left; reflexivity|]. split.
    - constructor; [intros [E|E]; discriminate|constructor].
    - right. eexists. exists [Some (UInt 7); None]. split; [reflexivity|]. split.
      + apply (BF_field _ _ _ 0 [97] (buf_as no_floats (TInt U8)) (UInt 7)); [reflexivity|reflexivity|reflexivity|left; reflexivity| |apply BF_nil].
        split; [reflexivity|]. unfold in_ikind. cbn. lia.
      + cbn. repeat split. eexists. reflexivity. }
  split; vm_compute; reflexivity.
Qed.

(** The tag "t" twice, not at all, with the name of no variant; the unit variant "Off" with
    an element more; a text. *)
Example C75_tagged_refused_case :
  let vs := [([79; 102; 102], None); ([79; 110], Some buf_fs)] in
  tag_refused [116] vs (UMap [(UStr [116], UStr [79; 102; 102]); (UStr [116], UStr [79; 102; 102])]) /\
  tag_refused [116] vs (UMap [(UStr [97], UInt 7)]) /\
  tag_refused [116] vs (UMap [(UStr [116], UStr [79])]) /\
  tag_refused [116] vs (USeq [UStr [79; 102; 102]; UInt 1]) /\
  map (fun input => match mp_from_slice x64 no_floats 60 (tagged no_floats DeserializeError [116] vs) input with Done _ r => Some r | _ => None end)
    [[0x82; 0xa1; 116; 0xa3; 79; 102; 102; 0xa1; 116; 0xa3; 79; 102; 102]; [0x81; 0xa1; 97; 7]; [0x81; 0xa1; 116; 0xa1; 79]; [0x92; 0xa3; 79; 102; 102; 1]; [0xa1; 79]; [0x91; 0xa3; 79; 102; 102]]
  = [Some (Err DeserializeError); Some (Err DeserializeError); Some (Err DeserializeError); Some (Err DeserializeError); Some (Err DeserializeError); Some (Ok (UVar 0 UUnit, 5))].
Proof.
  cbn zeta. split; [right; left; exists [], [], []; do 2 eexists; split; [reflexivity|]; split; left; reflexivity|].
  split; [left; constructor; [intros [E|E]; discriminate|constructor]|].
  split; [right; right; exists [], []; do 2 eexists; split; [reflexivity|]; split; [left; reflexivity|]; split; [discriminate|]; intros n f [E|[E|[]]] [C|C]; congruence|].
  split; [right; split; [discriminate|]; eexists; split; [left; reflexivity|left; reflexivity]|].
  vm_compute. reflexivity.
Qed.

(** An array with an extension in it; a document that is no value, one with
    something behind a text, and with something behind a number, which no variant takes. *)
Example C75_fault_case :
  MpAnyFaultSpec.any_fault ([0x91] ++ [] ++ [0xd4]) UnsupportedExt /\
  JsonAnyFaultSpec.any_document_fault false (f64_from_str bits_fl) [32; 33] JUnexpectedChar /\
  match mp_from_slice x64 no_floats 60 (untagged no_floats DeserializeError buf_vs) [0x91; 0xd4; 1] with Done _ r => Some r | _ => None end = Some (Err UnsupportedExt) /\
  map (fun input => match js_from_mut_slice x64 bits_fl false NopeDecoder 60 (untagged no_floats JDeserializeError buf_vs) input with Done _ r => Some r | _ => None end)
    [[32; 33]; [34; 97; 34; 33]; [49; 32; 33]]
  = [Some (Err JUnexpectedChar); Some (Err JTrailingCharacters); Some (Err JDeserializeError)].
Proof.
  split.
  { eapply MpAnyFaultSpec.Y_elem with (l := []) (vs := []); [apply (AH_fix 1); lia|reflexivity|constructor|constructor|].
    apply MpAnyFaultSpec.Y_ext; [unfold is_byte; lia|reflexivity]. }
  split.
  { left. eapply JsonAnyFaultSpec.Y_kind with (c := 33) (r := []); [exists [32]; split; [reflexivity|]; split; [repeat constructor|]|]; unfold is_ws, JsonFaultSpec.value_start, is_digit; lia. }
  split; vm_compute; reflexivity.
Qed.

(** C60: how much stack decoding needs.  [mp_from_slice_deep] and
    [js_from_mut_slice_deep] are the two entry points with a number of nested calls they
    may make; one call more is a stack overflow, shown as [Panic]. *)
From Verif Require Import Prelude SerdeSer SerdeDe FloatOps Types TypeDepth MpDe MpDepth MpDeView MpDeTop MpDeSafe Utf8Spec JsonSpec JsonTypeSpec JsonDe JsonDepth.
From Verif Require Nesting MpNestTop JsonNestTop.
From Verif Require Import PropsMpTyped.
From Verif Require PropsMpDe PropsJsonDe.

(** *** MessagePack *)

(** A type with no struct in it: as many calls as types in one another, whatever the
    input; on any machine. *)
Theorem C60_msgpack_stack_by_type ar fo t fuel depth input :
  skips_nothing t -> (type_depth t <= depth)%nat ->
  mp_from_slice_deep ar fo fuel depth (denote DeserializeError t) input =
  mp_from_slice ar fo fuel (denote DeserializeError t) input.
Proof. exact (MpNestTop.typed_depth ar fo t fuel depth input). Qed.
Print Assumptions C60_msgpack_stack_by_type.

(** Any type: at most one call more for each byte. *)
Theorem C60_msgpack_stack_by_input ar fo t fuel depth input :
  2 ^ 33 <= usize_max ar -> slice_of ar input -> (type_depth t + length input + 1 <= depth)%nat ->
  mp_from_slice_deep ar fo fuel depth (denote DeserializeError t) input =
  mp_from_slice ar fo fuel (denote DeserializeError t) input.
Proof. intros W. refine (MpNestTop.skipping_depth ar fo _ W t fuel depth input). unfold arch32up. lia. Qed.
Print Assumptions C60_msgpack_stack_by_input.
Theorem C60_msgpack_stack_any ar fo fuel depth input :
  2 ^ 33 <= usize_max ar -> slice_of ar input -> (length input + 1 <= depth)%nat ->
  mp_from_slice_deep ar fo fuel depth (any DeserializeError) input = mp_from_slice ar fo fuel (any DeserializeError) input /\
  mp_from_slice_deep ar fo fuel depth ignored input = mp_from_slice ar fo fuel ignored input.
Proof.
  intros W S D. split; apply (MpNestTop.greedy_depth ar fo); auto; try (unfold arch32up; lia); intros n; [apply Nesting.gd_any|apply Nesting.gd_ignored].
Qed.
Print Assumptions C60_msgpack_stack_any.

(** But no constant is enough where values are skipped or self-describing: for every
    depth there is an input, about as long, that a bigger stack decodes and this one
    does not. *)
Theorem C60_msgpack_any_refuted ar fo depth : 2 ^ 32 - 1 <= usize_max ar -> Z.of_nat depth + 2 <= usize_max ar / 2 ->
  exists input, slice_of ar input /\ zlen input = Z.of_nat depth + 2 /\
  exists N, forall fuel, (N <= fuel)%nat ->
    (exists s v, mp_from_slice ar fo fuel (any DeserializeError) input = Done s (Ok (v, zlen input))) /\
    mp_from_slice_deep ar fo fuel depth (any DeserializeError) input = Panic.
Proof.
  intros A D. destruct (MpNestTop.any_overflows ar fo A depth D) as (i & H1 & H2 & N & H). exists i. split; [exact H1|]. split; [exact H2|].
  exists N. intros f Hf. destruct (H f Hf) as ((s & E) & P). eauto.
Qed.
Print Assumptions C60_msgpack_any_refuted.
Theorem C60_msgpack_ignored_refuted ar fo depth : 2 ^ 32 - 1 <= usize_max ar -> Z.of_nat depth + 1 <= usize_max ar / 2 ->
  exists input, slice_of ar input /\ zlen input = Z.of_nat depth + 1 /\
  exists N, forall fuel, (N <= fuel)%nat ->
    (exists s, mp_from_slice ar fo fuel ignored input = Done s (Ok (UUnit, zlen input))) /\
    mp_from_slice_deep ar fo fuel depth ignored input = Panic.
Proof. intros A. exact (MpNestTop.ignored_overflows ar fo A depth). Qed.
Print Assumptions C60_msgpack_ignored_refuted.
(** Whatever the struct: a field it does not know overflows the stack. *)
Theorem C60_msgpack_struct_refuted ar fo fs depth :
  2 ^ 33 <= usize_max ar -> zlen fs < 2 ^ 32 - 1 -> Z.of_nat depth + 7 <= usize_max ar / 2 ->
  exists input, slice_of ar input /\ zlen input = Z.of_nat depth + 7 /\
  exists N, forall fuel, (N <= fuel)%nat ->
    mp_from_slice ar fo fuel (denote DeserializeError (TStruct fs)) input <> Panic /\
    mp_from_slice_deep ar fo fuel depth (denote DeserializeError (TStruct fs)) input = Panic.
Proof. intros W. apply (MpNestTop.struct_overflows ar fo); [unfold arch32up; lia|left; exact W]. Qed.
Print Assumptions C60_msgpack_struct_refuted.

(** An enum with a tuple variant: none is not enough, two are; four arrays in an unknown field need
    six. *)
Definition flat_ty : ty := TEnum [([65], KUnit, TUnit); ([66], KTuple, TTuple [TInt I8; TUnit])].
Example C60_msgpack_case : skips_nothing flat_ty /\ type_depth flat_ty = 2%nat /\ type_depth rec_ty = 4%nat /\
  mp_from_slice_deep PropsMpDe.x64 PropsMpDe.no_floats 40 0 (denote DeserializeError flat_ty) [0x81; 0xa1; 66; 0x92; 0xfb; 0xc0] = Panic /\
  (exists s, mp_from_slice_deep PropsMpDe.x64 PropsMpDe.no_floats 40 2 (denote DeserializeError flat_ty) [0x81; 0xa1; 66; 0x92; 0xfb; 0xc0]
     = Done s (Ok (UVar 1 (USeq [UInt (-5); UUnit]), 6))) /\
  (let skip := [0x81; 0xa1; 120; 0x91; 0x91; 0x91; 0x91; 0xc0] in
   mp_from_slice_deep PropsMpDe.x64 PropsMpDe.no_floats 40 5 (denote DeserializeError (TStruct [])) skip = Panic /\
   exists s, mp_from_slice_deep PropsMpDe.x64 PropsMpDe.no_floats 40 6 (denote DeserializeError (TStruct [])) skip = Done s (Ok (USeq [], 8))).
Proof.
  split; [repeat split|]. split; [reflexivity|]. split; [reflexivity|]. split; [lazy; reflexivity|]. split; [eexists; lazy; reflexivity|].
  split; [lazy; reflexivity|]. eexists; lazy; reflexivity.
Qed.

(** *** JSON *)
Theorem C60_json_stack_by_type ar fl any_f32 dec t fuel depth input :
  skips_nothing t -> (type_depth t <= depth)%nat ->
  js_from_mut_slice_deep ar fl any_f32 dec fuel depth (denote JDeserializeError t) input =
  js_from_mut_slice ar fl any_f32 dec fuel (denote JDeserializeError t) input.
Proof. exact (JsonNestTop.typed_depth ar fl any_f32 dec t fuel depth input). Qed.
Print Assumptions C60_json_stack_by_type.

Theorem C60_json_stack_by_input ar fl any_f32 dec t fuel depth input :
  (dec = Base64Decoder -> 3 * zlen input <= usize_max ar) -> (type_depth t + length input <= depth)%nat ->
  js_from_mut_slice_deep ar fl any_f32 dec fuel depth (denote JDeserializeError t) input =
  js_from_mut_slice ar fl any_f32 dec fuel (denote JDeserializeError t) input.
Proof. exact (JsonNestTop.skipping_depth ar fl any_f32 dec t fuel depth input). Qed.
Print Assumptions C60_json_stack_by_input.
Theorem C60_json_stack_any ar fl any_f32 dec fuel depth input :
  (dec = Base64Decoder -> 3 * zlen input <= usize_max ar) -> (length input <= depth)%nat ->
  js_from_mut_slice_deep ar fl any_f32 dec fuel depth (any JDeserializeError) input = js_from_mut_slice ar fl any_f32 dec fuel (any JDeserializeError) input /\
  js_from_mut_slice_deep ar fl any_f32 dec fuel depth ignored input = js_from_mut_slice ar fl any_f32 dec fuel ignored input.
Proof.
  intros S D. split; apply (JsonNestTop.greedy_depth ar fl any_f32 dec); auto; intros n; [apply Nesting.gd_any|apply Nesting.gd_ignored].
Qed.
Print Assumptions C60_json_stack_any.

(** Two brackets more than the stack has calls. *)
Theorem C60_json_any_refuted ar fl any_f32 dec depth : (dec = Base64Decoder -> 3 * (2 * Z.of_nat depth + 4) <= usize_max ar) ->
  exists N, forall fuel, (N <= fuel)%nat ->
    (exists s v, js_from_mut_slice ar fl any_f32 dec fuel (any JDeserializeError) (repeat 91 (depth + 2) ++ repeat 93 (depth + 2)) = Done s (Ok v)) /\
    js_from_mut_slice_deep ar fl any_f32 dec fuel depth (any JDeserializeError) (repeat 91 (depth + 2) ++ repeat 93 (depth + 2)) = Panic.
Proof.
  intros D. destruct (JsonNestTop.any_overflows ar fl any_f32 dec depth D) as (N & H). exists N. intros f Hf.
  replace (depth + 2)%nat with (S (S depth)) by lia. destruct (H f Hf) as ((s & E) & P). split; [exists s; eexists; exact E|exact P].
Qed.
Print Assumptions C60_json_any_refuted.
Theorem C60_json_ignored_refuted ar fl any_f32 dec depth : (dec = Base64Decoder -> 3 * (2 * Z.of_nat depth + 4) <= usize_max ar) ->
  exists N, forall fuel, (N <= fuel)%nat ->
    (exists s, js_from_mut_slice ar fl any_f32 dec fuel ignored (repeat 91 (depth + 2) ++ repeat 93 (depth + 2)) = Done s (Ok UUnit)) /\
    js_from_mut_slice_deep ar fl any_f32 dec fuel depth ignored (repeat 91 (depth + 2) ++ repeat 93 (depth + 2)) = Panic.
Proof.
  intros D. replace (depth + 2)%nat with (S (S depth)) by lia. exact (JsonNestTop.ignored_overflows ar fl any_f32 dec depth D).
Qed.
Print Assumptions C60_json_ignored_refuted.
(** Whatever the struct: [{"key":[[...]]}] with a key it does not know. *)
Theorem C60_json_struct_refuted ar fl any_f32 dec fs raw key depth :
  literal raw key -> ~ In key (map (fun f => fst (fst f)) fs) ->
  (dec = Base64Decoder -> 3 * (2 * Z.of_nat depth + zlen raw + 7) <= usize_max ar) ->
  exists N, forall fuel, (N <= fuel)%nat ->
    let input := [123; 34] ++ raw ++ [34; 58] ++ (repeat 91 (depth + 1) ++ repeat 93 (depth + 1)) ++ [125] in
    js_from_mut_slice ar fl any_f32 dec fuel (denote JDeserializeError (TStruct fs)) input <> Panic /\
    js_from_mut_slice_deep ar fl any_f32 dec fuel depth (denote JDeserializeError (TStruct fs)) input = Panic.
Proof.
  intros L Hk D. destruct (JsonNestTop.struct_overflows ar fl any_f32 dec fs raw key depth L Hk D) as (N & H). exists N. intros f Hf.
  replace (depth + 1)%nat with (S depth) by lia. exact (H f Hf).
Qed.
Print Assumptions C60_json_struct_refuted.

(** [{"B":[-5,null]}] as [flat_ty], and [{"x":[[[[]]]]}] as a struct with no fields. *)
Example C60_json_case :
  map (fun depth => match js_from_mut_slice_deep PropsJsonDe.x64 PropsJsonDe.no_floats false NopeDecoder 40 depth (denote JDeserializeError flat_ty)
       [123; 34; 66; 34; 58; 91; 45; 53; 44; 110; 117; 108; 108; 93; 125] with Done _ r => Some r | _ => None end) [0; 2]%nat
  = [None; Some (Ok (UVar 1 (USeq [UInt (-5); UUnit])))] /\
  map (fun depth => match js_from_mut_slice_deep PropsJsonDe.x64 PropsJsonDe.no_floats false NopeDecoder 40 depth (denote JDeserializeError (TStruct []))
       [123; 34; 120; 34; 58; 91; 91; 91; 91; 93; 93; 93; 93; 125] with Done _ r => Some r | _ => None end) [0; 3; 4]%nat
  = [None; None; Some (Ok (USeq []))] /\
  literal [120] [120] /\ ~ In [120] (map (fun f => fst (fst f)) [([105; 100], FPlain, TInt U16)]).
Proof.
  split; [lazy; reflexivity|]. split; [lazy; reflexivity|]. split.
  - split; [apply B_plain; [unfold plain_byte; lia|apply B_nil]|]. utf8.
  - intros [H|[]]. discriminate.
Qed.

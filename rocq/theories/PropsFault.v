(** Properties: the errors of typed MessagePack decoding.  [MpFaultSpec] says what the
    faults of an input are and what each is called; [MpTypeSpec] what the encodings are. *)
From Verif Require Import Prelude Utf8Spec SerdeSer SerdeDe MpSpec MpDe MpDeTop FloatOps Types TypeSize MpTypeSpec MpFaultSpec PropsMpDe PropsMpTyped.
From Verif Require MpBlameTop.

Local Notation prog t := (denote DeserializeError t).

(** C57: a fault is reported by its name, whatever follows it, on 32-bit and 64-bit
    targets. *)
Theorem C57_msgpack_faults_named : forall ar fo t bs e tail, arch32up ar -> wf t -> mp_fault fo t bs e -> slice_of ar (bs ++ tail) ->
  exists N, forall fuel, (N <= fuel)%nat -> exists s, mp_from_slice ar fo fuel (prog t) (bs ++ tail) = Done s (Err e).
Proof. exact (fun ar fo t bs e tail A => MpBlameTop.fault_named ar fo A t bs e tail). Qed.
Print Assumptions C57_msgpack_faults_named.

(** C57: and every input is one of three: it begins with an encoding, which is decoded;
    it begins with a fault, which is named; it is too short to tell, and that is the only
    way to get [UnexpectedEof]. *)
Theorem C57_msgpack_outcome : forall ar fo t input fuel,
  arch64 ar -> wf t -> slice64 input -> (10 * type_size t + 3 * length input <= fuel)%nat ->
  exists s r, mp_from_slice ar fo fuel (prog t) input = Done s r /\
  match r with
  | Ok (v, n) => exists bs tail, input = bs ++ tail /\ zlen bs = n /\ adm fo t v bs
  | Err UnexpectedEof => forall bs tail, input = bs ++ tail -> (forall v, ~ adm fo t v bs) /\ (forall e, ~ mp_fault fo t bs e)
  | Err e => exists bs tail, input = bs ++ tail /\ mp_fault fo t bs e
  end.
Proof. exact (fun ar fo t input fuel A => MpBlameTop.outcome_decided ar fo A t input fuel). Qed.
Print Assumptions C57_msgpack_outcome.

(** C57: the three exclude each other, and an input has one fault at most. *)
Theorem C57_msgpack_verdict_unique : forall fo t input bs e tail, wf t -> slice64 input -> input = bs ++ tail -> mp_fault fo t bs e ->
  (forall bs' e' tail', input = bs' ++ tail' -> mp_fault fo t bs' e' -> e' = e) /\
  (forall bs' v tail', input = bs' ++ tail' -> ~ adm fo t v bs').
Proof. exact MpBlameTop.verdict_unique. Qed.
Print Assumptions C57_msgpack_verdict_unique.

(** C57: a message that is skipped is refused only for the reserved code or its end. *)
Theorem C57_msgpack_skip_outcome : forall ar fo input fuel, arch64 ar -> slice64 input -> (6 + 3 * length input <= fuel)%nat ->
  exists s r, mp_from_slice ar fo fuel ignored input = Done s r /\
  match r with
  | Ok (_, n) => exists m bs tail, input = bs ++ tail /\ zlen bs = n /\ mp_fmt m bs
  | Err e => e = ReservedCode /\ (exists bs tail, input = bs ++ tail /\ skip_fault bs) \/
      e = UnexpectedEof /\ forall bs tail, input = bs ++ tail -> ~ skip_fault bs /\ forall m, ~ mp_fmt m bs
  end.
Proof. exact (fun ar fo input fuel A => MpBlameTop.skip_decided ar fo A input fuel). Qed.
Print Assumptions C57_msgpack_skip_outcome.

(** The table by which kinds are told apart is that of the grammar of MessagePack. *)
Theorem C57_msgpack_family : forall m bs, mp_fmt m bs -> exists c l, bs = c :: l /\ family_of c = family_of_value m.
Proof. exact MpBlameTop.family_right. Qed.
Print Assumptions C57_msgpack_family.

(** The record of C21: [id] out of range; [id] twice; [t] missing; a key that is a
    boolean; an unknown key with a reserved byte in what belongs to it.  Tuples with an
    element too few or too many. *)
Local Notation fault := (mp_fault no_floats).
Lemma id_key : ident_enc (map name_of [([105; 100], FPlain, TInt U16); ([116], FPlain, TSeq TStr); ([107], FPlain, TOption kind_ty); ([111], FDefault (UF64 0), TF64)]) 0 [0xa2; 105; 100].
Proof. left. exists [105; 100]. split; [reflexivity|]. exists [0xa2]. split; [apply (SH_fix 2); lia|reflexivity]. Qed.
Lemma id_entry : entries (map name_of [([105; 100], FPlain, TInt U16); ([116], FPlain, TSeq TStr); ([107], FPlain, TOption kind_ty); ([111], FDefault (UF64 0), TF64)])
  (map (fun f => adm no_floats (snd f)) [([105; 100], FPlain, TInt U16); ([116], FPlain, TSeq TStr); ([107], FPlain, TOption kind_ty); ([111], FDefault (UF64 0), TF64)])
  [None; None; None; None] (1 + 0) ([0xa2; 105; 100] ++ [7] ++ []) [Some (UInt 7); None; None; None].
Proof.
  eapply EN_field with (i := 0%nat) (v := UInt 7); [reflexivity|reflexivity|apply id_key| |apply EN_nil]. split; [unfold in_ikind; cbn; lia|apply IF_pos; lia].
Qed.
Example C57_case_range : fault rec_ty ([0x83] ++ [] ++ [0xa2; 105; 100] ++ [0xce; 0; 1; 0; 0]) InvalidInteger.
Proof.
  eapply X_field_value with (i := 0%nat) (m := 0); [apply (MH_fix 3); lia|lia|apply EN_nil|reflexivity|reflexivity|apply id_key|].
  apply X_range with (z := 65536); [apply IF_u32; split; [reflexivity|]; split; [repeat (apply Forall_cons; [unfold is_byte; lia|]); apply Forall_nil|reflexivity]|].
  unfold in_ikind. cbn. lia.
Qed.
Example C57_case_twice : fault rec_ty ([0x83] ++ ([0xa2; 105; 100] ++ [7] ++ []) ++ [0xa2; 105; 100]) DeserializeError.
Proof.
  eapply X_field_again with (i := 0%nat) (m := 1 + 0); [apply (MH_fix 3); lia|lia|apply id_entry|reflexivity|apply id_key].
Qed.
Example C57_case_missing : fault rec_ty ([0x81] ++ [0xa2; 105; 100] ++ [7] ++ []) DeserializeError.
Proof.
  eapply X_field_missing with (i := 1%nat) (n := 1 + 0); [apply (MH_fix 1); lia|apply id_entry|reflexivity|reflexivity|reflexivity|discriminate].
Qed.
Example C57_case_key : fault rec_ty ([0x83] ++ ([0xa2; 105; 100] ++ [7] ++ []) ++ [0xc3]) ExpectedIdentifier.
Proof.
  eapply X_field_key with (m := 1 + 0); [apply (MH_fix 3); lia|lia|apply id_entry|]. apply K_kind; [unfold is_byte; lia|reflexivity].
Qed.
Example C57_case_skip : fault rec_ty ([0x83] ++ ([0xa2; 105; 100] ++ [7] ++ []) ++ [0xa1; 90] ++ [0x92] ++ [] ++ [0xc1]) ReservedCode.
Proof.
  eapply X_field_skip with (m := 1 + 0); [apply (MH_fix 3); lia|lia|apply id_entry| |].
  - left. exists [90]. split; [utf8|]. split; [cbn; intuition discriminate|]. exists [0xa1]. split; [apply (SH_fix 1); lia|reflexivity].
  - eapply S_arr with (l := []); [apply (AH_fix 2); lia|reflexivity|constructor|constructor].
Qed.
Example C57_case_few : fault (TTuple [TInt U8; TBool]) ([0x91] ++ [7]) DeserializeError.
Proof.
  eapply X_few with (T := TTuple) (ts1 := [TInt U8]) (l := [UInt 7]); [auto|apply (AH_fix 1); lia|reflexivity|].
  cbn. exists [7], []. split; [reflexivity|]. split; [|reflexivity]. split; [unfold in_ikind; cbn; lia|apply IF_pos; lia].
Qed.
Example C57_case_many : fault (TTuple [TInt U8]) ([0x92] ++ [7]) TrailingElements.
Proof.
  eapply X_many with (T := TTuple) (n := 2) (l := [UInt 7]); [auto|apply (AH_fix 2); lia|reflexivity|reflexivity|].
  cbn. exists [7], []. split; [reflexivity|]. split; [|reflexivity]. split; [unfold in_ikind; cbn; lia|apply IF_pos; lia].
Qed.
(** The same through the decoder. *)
Example C57_cases_run : wf rec_ty /\
  map (fun input => match mp_from_slice x64 no_floats 40 (prog rec_ty) input with Done _ (Err e) => Some e | _ => None end)
    [[0x83; 0xa2; 105; 100; 0xce; 0; 1; 0; 0; 9]; [0x83; 0xa2; 105; 100; 7; 0xa2; 105; 100]; [0x81; 0xa2; 105; 100; 7; 1; 2];
     [0x83; 0xa2; 105; 100; 7; 0xc3]; [0x83; 0xa2; 105; 100; 7; 0xa1; 90; 0x92; 0xc1]; [0xc0]; [0x83; 0xa2; 105; 100]]
  = [Some InvalidInteger; Some DeserializeError; Some DeserializeError; Some ExpectedIdentifier; Some ReservedCode; Some ExpectedStruct; Some UnexpectedEof].
Proof. split; [apply rec_wf|vm_compute; reflexivity]. Qed.

(** C57: 128-bit integers are refused before the input is looked at, whatever the
    visitor and the input, an empty one too. *)
Theorem C57_msgpack_i128 : forall U ar fo fuel (v : visitor U mp_de_error) input,
  mp_from_slice ar fo (S fuel) (DReq DI128 v (fun r => r)) input = Done (de_from_slice input) (Err DeserializeError).
Proof. exact MpBlameTop.i128_refused. Qed.
Print Assumptions C57_msgpack_i128.
(** Also for a number that would fit, and inside a sequence, of which only the empty one is read. *)
Example C57_i128_case :
  map (fun input => match mp_from_slice x64 no_floats 20 (request DSeq (v_seq DeserializeError (seq_loop (request DI128 (v_int DeserializeError U64)) []))) input with Done _ r => Some r | _ => None end)
    [[0x90]; [0x91; 7]] = [Some (Ok (USeq [], 1)); Some (Err DeserializeError)].
Proof. vm_compute. reflexivity. Qed.

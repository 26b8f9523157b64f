(** MessagePack serialization fails with the first fault of the value (C63). *)
From Verif Require Import Prelude PreludeFacts Utf8 Writer SerMonad SerdeSer MpSpec MpSer MpErrMap MpSerSim MpSerProofs WriterContract MpSerFacts SerFaultSpec.
Ltac Zify.zify_post_hook ::= Z.div_mod_to_equations.

(** The error that stands for a fault.  With alloc a Display that fails panics. *)
Definition mp_named {E} (alloc : bool) (f : ser_fault) : mp_ser_error E :=
  match f with
  | WrongSeqLength => MSeqLength
  | WrongMapLength => MMapLength
  | LongString => MStrLength
  | LongBytes => MDataLength
  | Gap => MFieldSkipped
  | DisplayFailed => if alloc then MPanic else MFormatError
  | Refused | KeyNotString => MSerializeError
  end.

Section P.
Context {E : Type} (cfg : mp_cfg) (fl : flavour) (room : 0 <= cfg_usize_max cfg).
Local Notation X := (mp_ser_error E).
Local Notation VW := (@VecWriter E).
Local Notation st := (style_of fl).
Local Notation alloc := (cfg_alloc cfg).
Local Notation fault := (mp_first_fault st alloc (cfg_usize_max cfg)).

(** On the list writer [m] ends with [r]. *)
Definition ends {A} (m : SM bytes X A) (r : result A X) : Prop := forall w, snd (m w) = r.
Definition verdict {A} (o : option ser_fault) (a : A) : result A X :=
  match o with None => Ok a | Some f => Err (mp_named alloc f) end.

Lemma ends_ret {A} (a : A) : ends (sret a) (Ok a). Proof. intros w. reflexivity. Qed.
Lemma ends_fail {A} e : ends (@sfail bytes X A e) (Err e). Proof. intros w. reflexivity. Qed.
Lemma ends_bind {A B} (m : SM bytes X A) (f : A -> SM bytes X B) a r : ends m (Ok a) -> ends (f a) r -> ends (sbind m f) r.
Proof. intros H1 H2 w. unfold sbind. specialize (H1 w). destruct (m w) as [w' r']. cbn in H1. subst r'. apply H2. Qed.
Lemma ends_bind_err {A B} (m : SM bytes X A) (f : A -> SM bytes X B) e : ends m (Err e) -> ends (sbind m f) (Err e).
Proof. intros H1 w. unfold sbind. specialize (H1 w). destruct (m w) as [w' r']. cbn in H1. subst r'. reflexivity. Qed.
Lemma ends_or {A B} (m : SM bytes X A) (f : A -> SM bytes X B) o1 a o2 b :
  ends m (verdict o1 a) -> ends (f a) (verdict o2 b) -> ends (sbind m f) (verdict (orelse o1 o2) b).
Proof. destruct o1; cbn; intros H1 H2; [apply ends_bind_err, H1|eapply ends_bind; eauto]. Qed.
Lemma ends_emits {A} (m : SM bytes X A) out r : emits m out r -> ends m r.
Proof. intros H w. rewrite H. reflexivity. Qed.
Lemma ends_wb b : ends (write_byte VW b) (Ok tt). Proof. intros w. reflexivity. Qed.

Lemma ends_int k z : ends (serialize_int VW k z) (Ok tt).
Proof.
  intros w. destruct k; cbn [serialize_int]; unfold serialize_i8, serialize_i16, serialize_i32, serialize_i64, serialize_u8, serialize_u16, serialize_u32, serialize_u64, write_u32;
    repeat match goal with
    | |- context [if ?c then _ else _] => destruct c
    | |- context [match try_from ?k ?z with _ => _ end] => destruct (try_from k z)
    end; reflexivity.
Qed.
Lemma ends_u32 z : ends (write_u32 VW z) (Ok tt). Proof. apply (ends_int U32). Qed.

Lemma from_u32 n : 0 <= n -> try_from U32 n = if n <? 2 ^ 32 then Some n else None.
Proof. intros H. unfold try_from, in_ikindb. cbn [imin imax]. destruct (n <? 2 ^ 32) eqn:L; destruct (_ && _)%bool eqn:L2; auto; lia. Qed.
Lemma ends_str_len n : 0 <= n -> ends (write_str_len VW n) (verdict (if n <? 2 ^ 32 then None else Some LongString) tt).
Proof.
  intros H. destruct (n <? 2 ^ 32) eqn:L.
  - destruct (@str_len_ok E n) as (h & He & _); [lia|]. exact (ends_emits _ _ _ He).
  - eapply ends_emits. apply str_len_err. lia.
Qed.
Lemma ends_str s : ends (write_str VW s) (verdict (str_fault s) tt).
Proof.
  unfold write_str.
  replace (str_fault s) with (orelse (str_fault s) None) by (destruct (str_fault s); reflexivity).
  eapply ends_or; [apply ends_str_len, zlen_nonneg|]. intros w. reflexivity.
Qed.
Lemma ends_bytes s : ends (serialize_bytes VW s) (verdict (bytes_fault s) tt).
Proof.
  intros w. unfold serialize_bytes, bytes_fault. pose proof (zlen_nonneg s).
  rewrite (from_u32 _ H). unfold try_from. cbn [imin imax].
  destruct (zlen s <? 2 ^ 32) eqn:L; repeat match goal with |- context [if ?c then _ else _] => destruct c eqn:? end; try reflexivity;
    unfold in_ikindb in *; cbn [imin imax] in *; lia.
Qed.
Lemma ends_array_len n : ends (write_array_len VW n) (verdict (if n <? 2 ^ 32 then None else Some WrongSeqLength) tt).
Proof.
  destruct (n <? 2 ^ 32) eqn:L.
  - destruct (Z.leb_spec 0 n).
    + destruct (@array_len_ok E n) as (h & He & _); [lia|]. exact (ends_emits _ _ _ He).
    + intros w. unfold write_array_len. replace (n <=? MAX_FIXARRAY_SIZE) with true by (unfold MAX_FIXARRAY_SIZE; lia). reflexivity.
  - eapply ends_emits. apply array_len_err. lia.
Qed.
Lemma ends_map_len n : ends (write_map_len VW n) (verdict (if n <? 2 ^ 32 then None else Some WrongMapLength) tt).
Proof.
  destruct (n <? 2 ^ 32) eqn:L.
  - destruct (Z.leb_spec 0 n).
    + destruct (@map_len_ok E n) as (h & He & _); [lia|]. exact (ends_emits _ _ _ He).
    + intros w. unfold write_map_len. replace (n <=? MAX_FIXMAP_SIZE) with true by (unfold MAX_FIXMAP_SIZE; lia). reflexivity.
  - eapply ends_emits. apply map_len_err. lia.
Qed.
Lemma ends_variant i n : ends (serialize_variant VW fl i n) (verdict (name_fault st n) tt).
Proof. unfold name_fault. destruct fl; cbn [serialize_variant style_of verdict]; [apply ends_u32|apply ends_u32|apply ends_str]. Qed.

(** ** Containers *)
Lemma dec_ends n e : ends (@checked_dec bytes E n e) (if n <? 1 then Err e else Ok (n - 1)).
Proof. intros w. unfold checked_dec. destruct (n <? 1); reflexivity. Qed.
(** The parts and then the end. *)
Definition closes {S} (len : S -> Z) (body : S -> SM bytes X S) (fin : S -> SM bytes X unit) e l : Prop :=
  forall s, ends (sbind (body s) fin) (verdict (parts_fault e (len s) l) tt).

Lemma items_close (f : sval -> SM bytes X unit) g l : Forall (fun x => ends (f x) (verdict (g x) tt)) l -> forall n,
  ends (sbind (ser_items f l n) (@seq_end bytes E)) (verdict (parts_fault WrongSeqLength n (map (fun v => Counts (g v)) l)) tt).
Proof.
  induction 1 as [|x l Hx _ IH]; intros n; cbn [ser_items map parts_fault].
  - intros w. cbn. unfold seq_end. destruct (n =? 0); reflexivity.
  - intros w. unfold seq_serialize_element, checked_dec. destruct (n <? 1); [reflexivity|].
    cbn. specialize (Hx w). unfold sbind. cbn. destruct (f x w) as [w1 [[]|e1]]; cbn in Hx; destruct (g x); cbn in Hx; try discriminate; cbn [orelse].
    + specialize (IH (n - 1) w1). unfold sbind in IH. exact IH.
    + cbn. congruence.
Qed.
Lemma entries_close (f : sval -> SM bytes X unit) g l : Forall (fun o => ends (f (snd o)) (verdict (g (snd o)) tt)) l -> forall n,
  ends (sbind (ser_entries f l n) (@map_end bytes E))
    (verdict (parts_fault WrongMapLength n (map (fun o : bool * sval => (if fst o then Counts else Free) (g (snd o))) l)) tt).
Proof.
  induction 1 as [|[isk x] l Hx _ IH]; intros n; cbn [ser_entries map parts_fault fst snd] in *.
  - intros w. cbn. unfold map_end. destruct (n =? 0); reflexivity.
  - intros w. destruct isk; cbn [parts_fault]; unfold map_serialize_key, map_serialize_value, checked_dec; [destruct (n <? 1); [reflexivity|]|];
      specialize (Hx w); unfold sbind; cbn; destruct (f x w) as [w1 [[]|e1]]; cbn in Hx; destruct (g x); cbn in Hx; try discriminate; cbn [orelse];
      try (cbn; congruence).
    + specialize (IH (n - 1) w1). unfold sbind in IH. exact IH.
    + specialize (IH n w1). unfold sbind in IH. exact IH.
Qed.
Lemma fields_close (f : sval -> SM bytes X unit) g l : Forall (fun fd => forall x, snd fd = Some x -> ends (f x) (verdict (g x) tt)) l -> forall n i,
  ends (sbind (ser_fields VW fl f l (n, i)) (@struct_end bytes E fl))
    (verdict (parts_fault (struct_kind st) n (map (fun fd : bytes * option sval => field_part st (fst fd) (option_map g (snd fd))) l)) tt).
Proof.
  induction 1 as [|[k [x|]] l Hx _ IH]; intros n i; cbn [ser_fields map parts_fault fst snd option_map field_part] in *.
  - intros w. cbn. unfold struct_end. cbn [fst]. destruct fl, (n =? 0); reflexivity.
  - specialize (Hx x eq_refl). destruct fl; cbn [style_of struct_kind struct_serialize_field name_fault] in *; unfold checked_dec; (destruct (n <? 1); [intros w; reflexivity|]).
    + intros w. specialize (Hx w). unfold sbind. cbn. destruct (f x w) as [w1 [[]|e1]]; cbn in Hx; destruct (g x); cbn in Hx; try discriminate; cbn [orelse]; try (cbn; congruence).
      specialize (IH (n - 1) i w1). unfold sbind in IH. exact IH.
    + intros w. unfold sbind. cbn. unfold serialize_u32. pose proof (ends_u32 i w) as H1. destruct (write_u32 VW i w) as [w0 r0]. cbn in H1. subst r0.
      specialize (Hx w0). destruct (f x w0) as [w1 [[]|e1]]; cbn in Hx; destruct (g x); cbn in Hx; try discriminate; cbn [orelse]; try (cbn; congruence).
      specialize (IH (n - 1) ((i + 1) mod 2 ^ 32) w1). unfold sbind in IH. exact IH.
    + intros w. unfold sbind. cbn. unfold serialize_str. pose proof (ends_str k w) as H1. destruct (write_str VW k w) as [w0 r0]. cbn in H1. subst r0.
      destruct (str_fault k); [reflexivity|]. cbn [verdict orelse].
      specialize (Hx w0). destruct (f x w0) as [w1 [[]|e1]]; cbn in Hx; destruct (g x); cbn in Hx; try discriminate; cbn [orelse]; try (cbn; congruence).
      specialize (IH (n - 1) i w1). unfold sbind in IH. exact IH.
  - destruct fl; cbn [style_of struct_kind struct_skip_field parts_fault orelse] in *.
    + intros w. unfold sbind. cbn. destruct (n =? 0) eqn:En; [|reflexivity]. specialize (IH n i w). unfold sbind in IH. exact IH.
    + intros w. specialize (IH n ((i + 1) mod 2 ^ 32) w). exact IH.
    + intros w. specialize (IH n i w). exact IH.
Qed.

(** ** Display *)
Lemma pass2_ends p n : fmt_propagates p -> 0 <= n ->
  ends (collect_pass2 VW p n) (match fmt_text p with Some t => if zlen t <=? n then Ok tt else Err MFormatError | None => Err MFormatError end).
Proof.
  intros Hp Hn w. unfold collect_pass2.
  enough (H : snd (run_fmt (@collector_write_str bytes E VecWriter) p (n, w)) = match fmt_text p with Some t => zlen t <=? n | None => false end).
  { destruct (run_fmt _ p (n, w)) as [[n' w'] ok]. cbn in *. subst ok. destruct (fmt_text p); [destruct (_ <=? _)|]; reflexivity. }
  revert n Hn w. induction p as [ok|c k1 IH k2 _]; intros n Hn w; cbn [run_fmt fmt_text fmt_propagates] in *.
  - destruct ok; [change (zlen []) with 0; cbn; lia|reflexivity].
  - destruct Hp as [-> Hp]. unfold collector_write_str at 1. pose proof (zlen_nonneg c). destruct (n <? zlen c) eqn:L.
    + cbn. destruct (fmt_text k1) as [t|]; [|reflexivity]. cbn [option_map]. rewrite MpSerProofs.zlen_app. pose proof (zlen_nonneg t). lia.
    + cbn [sw_write_str VecWriter SerWrite_default]. rewrite (IH Hp) by lia. destruct (fmt_text k1) as [t|]; [|reflexivity]. cbn [option_map]. rewrite MpSerProofs.zlen_app. lia.
Qed.
Lemma ends_collect p1 p2 : fmt_propagates p1 -> fmt_propagates p2 ->
  ends (collect_str VW cfg p1 p2) (verdict (display_fault alloc (cfg_usize_max cfg) p1 p2) tt).
Proof.
  intros H1 H2. unfold collect_str, display_fault. destruct alloc eqn:Ea.
  - destruct (string_run p1 []) as (t & E1 & E2 & E3).
    destruct (run_fmt string_write_str p1 []) as [t' ok]. cbn [fst snd] in *. cbn in E1. subst t' ok.
    destruct (fmt_text p1) as [t'|]; [|intros w; unfold verdict; rewrite Ea; reflexivity].
    rewrite (E3 t' eq_refl). apply ends_str.
  - pose proof (counter_run cfg p1 H1 0) as HC.
    destruct (fmt_text p1) as [t|] eqn:Ft.
    + rewrite Z.add_0_l in HC. pose proof (zlen_nonneg t).
      destruct (cfg_usize_max cfg <? zlen t) eqn:L.
      * replace (zlen t <=? cfg_usize_max cfg) with false in HC by lia. destruct HC as [->|HC]; [change (zlen []) with 0 in L; lia|].
        destruct (run_fmt _ p1 0) as [n ok]. cbn in HC. subst ok. intros w. unfold verdict. rewrite Ea. reflexivity.
      * replace (zlen t <=? cfg_usize_max cfg) with true in HC by lia. rewrite HC.
        eapply ends_or; [apply ends_str_len; lia|]. pose proof (pass2_ends p2 (zlen t) H2 H) as P2.
        intros w. rewrite (P2 w). destruct (fmt_text p2); [destruct (_ <=? _)|]; unfold verdict; rewrite ?Ea; reflexivity.
    + destruct (run_fmt _ p1 0) as [n ok]. cbn in HC. subst ok. intros w. unfold verdict. rewrite Ea. reflexivity.
Qed.

(** ** Values *)
Lemma ends_eq {A} (m : SM bytes X A) r r' : ends m r -> r = r' -> ends m r'. Proof. intros H <-. exact H. Qed.
Lemma ends_assoc {A B C} (m : SM bytes X A) (f : A -> SM bytes X B) (g : B -> SM bytes X C) r :
  ends (sbind m (fun a => sbind (f a) g)) r -> ends (sbind (sbind m f) g) r.
Proof. intros H w. specialize (H w). unfold sbind in *. destruct (m w) as [w1 [a|e]]; auto. Qed.
Lemma header {S} (hdr : SM bytes X unit) (s : S) (k : S -> SM bytes X unit) n e l :
  ends hdr (verdict (if n <? 2 ^ 32 then None else Some e) tt) -> ends (k s) (verdict (parts_fault e n l) tt) ->
  ends (sbind (sbind hdr (fun _ => sret s)) k) (verdict (container_fault e n l) tt).
Proof.
  intros H1 H2. unfold container_fault. destruct (n <? 2 ^ 32); cbn [verdict] in *.
  - eapply ends_bind; [|exact H2]. eapply ends_bind; [exact H1|apply ends_ret].
  - apply ends_bind_err, ends_bind_err, H1.
Qed.
Lemma struct_ends f g l n : Forall (fun fd => forall x, snd fd = Some x -> ends (f x) (verdict (g x) tt)) l ->
  ends (sbind (inherent_serialize_struct VW fl n) (fun st => sbind (ser_fields VW fl f l st) (@struct_end bytes E fl)))
    (verdict (container_fault (struct_kind st) n (map (fun fd : bytes * option sval => field_part st (fst fd) (option_map g (snd fd))) l)) tt).
Proof.
  intros H. pose proof (fields_close f g l H n 0) as F. unfold inherent_serialize_struct, struct_kind in *.
  destruct fl; cbn [style_of] in *; (eapply header; [|exact F]); [apply ends_array_len|apply ends_map_len|apply ends_map_len].
Qed.

Theorem mp_ser_ends v : displays_propagate v -> ends (mp_ser VW cfg fl v) (verdict (fault v) tt).
Proof.
  induction v using sval_ind'; intros Hd; cbn [mp_ser mp_first_fault displays_propagate] in *;
    try (intros w; reflexivity); auto.
  - apply ends_int.
  - unfold serialize_char, serialize_str. eapply ends_eq; [apply ends_str|]. unfold str_fault, encode_utf8.
    repeat destruct (c <? _); reflexivity.
  - apply ends_str.
  - apply ends_bytes.
  - apply ends_variant.
  - unfold serialize_newtype_variant. eapply ends_bind; [apply ends_wb|]. eapply ends_or; [apply ends_variant|]. auto.
  - rewrite all_list_Forall in Hd. destruct l as [n|]; [|apply ends_bind_err, ends_fail].
    eapply header; [apply ends_array_len|]. apply items_close. eapply Forall_impl2; [|exact H|exact Hd]; auto.
  - rewrite all_list_Forall in Hd. 
    eapply header; [apply ends_array_len|]. apply items_close. eapply Forall_impl2; [|exact H|exact Hd]; auto.
  - rewrite all_list_Forall in Hd. 
    eapply header; [apply ends_array_len|]. apply items_close. eapply Forall_impl2; [|exact H|exact Hd]; auto.
  - rewrite all_list_Forall in Hd. unfold serialize_tuple_variant. apply ends_assoc. eapply ends_bind; [apply ends_wb|]. apply ends_assoc.
    eapply ends_or; [apply ends_variant|]. eapply header; [apply ends_array_len|]. apply items_close. eapply Forall_impl2; [|exact H|exact Hd]; auto.
  - rewrite all_list_Forall in Hd. destruct l as [n|]; [|apply ends_bind_err, ends_fail].
    eapply header; [apply ends_map_len|]. apply (entries_close _ fault). eapply Forall_impl2; [|exact H|exact Hd]; auto.
  - rewrite all_list_Forall in Hd. apply struct_ends. rewrite Forall_forall in *. intros fd Hf x Ex.
    specialize (H fd Hf x Ex). specialize (Hd fd Hf). cbn beta in Hd. rewrite Ex in Hd. auto.
  - rewrite all_list_Forall in Hd. unfold serialize_struct_variant. apply ends_assoc. eapply ends_bind; [apply ends_wb|]. apply ends_assoc.
    eapply ends_or; [apply ends_variant|]. apply struct_ends. rewrite Forall_forall in *. intros fd Hf x Ex.
    specialize (H fd Hf x Ex). specialize (Hd fd Hf). cbn beta in Hd. rewrite Ex in Hd. auto.
  - destruct Hd. apply ends_collect; auto.
Qed.
End P.

Theorem to_vec_first_fault cfg fl v : 0 <= cfg_usize_max cfg -> displays_propagate v ->
  match mp_first_fault (style_of fl) (cfg_alloc cfg) (cfg_usize_max cfg) v with
  | Some f => mp_to_vec cfg fl v = Err (mp_named (cfg_alloc cfg) f)
  | None => exists out, mp_to_vec cfg fl v = Ok out
  end.
Proof.
  intros R D. pose proof (@mp_ser_ends ser_error cfg fl R v D []) as H. unfold mp_to_vec, mp_to_writer.
  match type of H with snd ?x = _ => destruct x as [w r] end. cbn in H. subst r. destruct (mp_first_fault _ _ _ v); cbn; eauto.
Qed.
Lemma named_map {E} alloc f (e : mp_ser_error E) : (forall x, e <> MWriter x) -> err_map (fun _ => BufferFull) e = mp_named alloc f -> e = mp_named alloc f.
Proof. destruct e, f, alloc; cbn; intros H; try discriminate; auto; destruct (H e eq_refl). Qed.
Theorem to_writer_first_fault {W E} (SW : SerWrite W E) inv content : lawful SW inv content ->
  forall cfg fl v w, 0 <= cfg_usize_max cfg -> displays_propagate v -> inv w ->
  match snd (mp_to_writer SW cfg fl w v), mp_first_fault (style_of fl) (cfg_alloc cfg) (cfg_usize_max cfg) v with
  | Ok _, o => o = None
  | Err e, o => (exists x, e = MWriter x) \/ e = MFormatError \/ exists f, o = Some f /\ e = mp_named (cfg_alloc cfg) f
  end.
Proof.
  intros L cfg fl v w R D I. pose proof (to_vec_first_fault cfg fl v R D) as H.
  destruct (mp_to_writer SW cfg fl w v) as [w' [[]|e]] eqn:Ew; cbn [snd].
  - destruct (to_writer_ok_bytes SW inv content L cfg fl v w w' D I Ew) as (out & Eo & _).
    destruct (mp_first_fault _ _ _ v); [congruence|reflexivity].
  - assert (Dw : (exists x, e = MWriter x) \/ forall x, e <> MWriter x) by (destruct e; eauto; right; discriminate).
    assert (Df : e = MFormatError \/ e <> MFormatError) by (destruct e; auto; right; discriminate).
    destruct Dw as [Dw|Dw]; [auto|]. destruct Df as [Df|Df]; [auto|]. right. right.
    pose proof (to_writer_own_error SW inv content L cfg fl v w w' e D I Ew Dw Df) as Eo.
    destruct (mp_first_fault _ _ _ v) as [f|]; [|destruct H as [out H]; congruence].
    exists f. split; [reflexivity|]. apply named_map; [exact Dw|]. rewrite H in Eo. injection Eo as Eo. symmetry. exact Eo.
Qed.

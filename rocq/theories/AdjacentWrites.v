(** Values of adjacently tagged enums can be written: proofs for C71. *)
From Verif Require Import Prelude PreludeFacts Utf8Spec SerdeSer Types TypesFacts MpSpec MpErrMap MpSer Base64Spec JsonSpec JsonTypeSpec JsonSer JsonErrMap JsonTypedSer FloatOps MpTypeSpec MpTyped MpTypedSer MpTypedTop MpBytes Adjacent.

(** What is written is a struct of the tag and, unless the variant is a unit one, the content. *)
Definition as_struct (tag content : bytes) (vs : list (bytes * vkind * ty)) (k : vkind) (t : ty) : ty :=
  TStruct ((tag, FPlain, tag_ty vs) :: match k with KUnit => [] | _ => [(content, FPlain, t)] end).
Definition as_value (i : nat) (k : vkind) (v : val) : val := USeq (UVar i UUnit :: match k with KUnit => [] | _ => [v] end).

Lemma tag_names vs : map name_of (map (fun f : bytes * vkind * ty => (name_of f, KUnit, TUnit)) vs) = map name_of vs.
Proof. rewrite map_map. reflexivity. Qed.
Lemma as_trace tag content vs i n k t v : nth_error vs i = Some (n, k, t) ->
  adjacent_trace tag content vs (UVar i v) = trace (as_struct tag content vs k t) (as_value i k v).
Proof.
  intros E. unfold as_struct, as_value, tag_ty. cbn [adjacent_trace]. rewrite E.
  destruct k; cbn; rewrite !nth_error_map, E; reflexivity.
Qed.
Lemma as_wf tag content vs i n k t v : names_ok [tag; content] -> wf (TEnum vs) -> nth_error vs i = Some (n, k, t) -> hastype t v ->
  wf (as_struct tag content vs k t) /\ hastype (as_struct tag content vs k t) (as_value i k v).
Proof.
  intros Hn [Hv Hw] E H. pose proof (all_list_In _ _ Hw _ (nth_error_In _ _ E)) as [W _]. cbn [snd] in W.
  assert (Wt : wf (tag_ty vs)). { split; [rewrite tag_names; exact Hv|]. clear. induction vs; cbn; auto. }
  assert (Ht : hastype (tag_ty vs) (UVar i UUnit)). { unfold tag_ty. cbn [hastype]. rewrite !nth_error_map, E. cbn. exact I. }
  destruct Hn as (N & F & S). unfold as_struct, as_value.
  destruct k; cbn [wf hastype map name_of fst snd all_list attr_of].
  { split; [split; [|auto]|cbn; auto]. inversion F; subst. split; [constructor; [intros []|constructor]|]. split; [constructor; auto|].
    unfold short, zlen in *. cbn in *. lia. }
  all: split; [split; [|auto]|cbn; auto]; split; auto.
Qed.

Theorem mp_adjacent_writable cfg fl tag content vs i n k t v : fl <> Compact \/ plain t ->
  names_ok [tag; content] -> wf (TEnum vs) -> nth_error vs i = Some (n, k, t) -> hastype t v ->
  exists out, mp_to_vec cfg fl (adjacent_trace tag content vs (UVar i v)) = Ok out.
Proof.
  intros F Hn W E H. rewrite (as_trace _ _ _ _ _ _ _ v E). destruct (as_wf _ _ _ _ _ _ _ _ Hn W E H) as [A B].
  apply (typed_succeeds {| int_to_f32 := fun z => z; int_to_f64 := fun z => z; f64_to_f32 := fun z => z; f32_to_f64 := fun z => z |}); auto. destruct F as [F|F]; auto. right. unfold as_struct. cbn [plain all_list snd attr_of fst]. split.
  - split; [reflexivity|]. unfold tag_ty. cbn [plain]. clear. induction vs; cbn; auto.
  - destruct k; cbn; auto.
Qed.
Theorem js_adjacent_writable fp enc tag content vs i n k t v : enc <> PassThroughByteEncoder -> printer_ok fp ->
  names_ok [tag; content] -> wf (TEnum vs) -> nth_error vs i = Some (n, k, t) -> hastype t v -> good_keys t ->
  exists out, js_to_string fp enc (adjacent_trace tag content vs (UVar i v)) = Ok out.
Proof.
  intros He P Hn W E H G. rewrite (as_trace _ _ _ _ _ _ _ v E). destruct (as_wf _ _ _ _ _ _ _ _ Hn W E H) as [A B].
  apply typed_writable; auto. unfold as_struct. cbn [good_keys all_list snd]. split; [|destruct k; cbn; auto].
  unfold tag_ty. cbn [good_keys]. clear. induction vs; cbn; auto.
Qed.

(** Enums read through a buffer, at the entry points (C75). *)
From Verif Require Import Prelude PreludeFacts Utf8Spec SerdeSer SerdeDe FloatOps MpSpec MpDe MpDeView MpDeTop Types TypesFacts MpTypeSpec MpTyped MpTypedTop
  Base64Spec JsonSpec JsonTypeSpec JsonAnySpec JsonDe JsonTyped JsonAny EvolveFacts Content MpContent JsonContent BufferSpec BufferFacts.

(** ** Internally tagged enums *)
Lemma is_tag_spec tag e : is_tag tag e = true <-> tag_entry tag e.
Proof.
  unfold is_tag, tag_entry, called. destruct (fst e); try (split; [discriminate|intros [?|?]; discriminate]).
  - rewrite list_eqb_Z. split; [intros ->; auto|intros [[= ->]|?]; [auto|discriminate]].
  - rewrite list_eqb_Z. split; [intros ->; auto|intros [?|[= ->]]; [discriminate|auto]].
Qed.
Lemma partition_none {A} (p : A -> bool) l : Forall (fun x => p x = false) l -> partition p l = ([], l).
Proof. induction 1 as [|x l H _ IH]; cbn; auto. rewrite IH, H. reflexivity. Qed.
Lemma partition_one {A} (p : A -> bool) a x b : p x = true -> Forall (fun x => p x = false) (a ++ b) -> partition p (a ++ x :: b) = ([x], a ++ b).
Proof.
  intros E. induction a as [|y a IH]; cbn; intros H.
  - rewrite partition_none, E by auto. reflexivity.
  - inversion H; subst. rewrite IH by auto. rewrite H2. reflexivity.
Qed.
Lemma tagged_agree fo tag vs i v c : NoDup (map fst vs) -> Forall (fun f => match snd f with Some fs => wf (TStruct fs) | None => True end) vs -> no_number_keys c ->
  tagged_as fo tag vs i v c -> tagged_pick fo tag vs c = Some (UVar i v).
Proof.
  intros D W N (n & f & x & En & C & H).
  assert (B : forall c', no_number_keys c' -> fields_as fo f v c' -> by_tag fo vs x c' = Some (UVar i v)).
  { intros c' N' F. unfold by_tag. assert (Ex : content_ident (map fst vs) x = Some (Some i)).
    { apply ident_called; auto; [destruct C as [->| ->]; discriminate|]. exists n. split; auto. rewrite nth_error_map, En. reflexivity. }
    rewrite Ex, En. destruct f as [fs|]; cbn [fields_as] in F.
    - apply (content_agree fo (TStruct fs)) in F; auto; [rewrite F; reflexivity|]. apply nth_error_In in En. rewrite Forall_forall in W. apply (W _ En).
    - destruct F as [-> [->|[es ->]]]; reflexivity. }
  destruct H as [(l & -> & F)|(a & b & k & -> & Ck & Nt & F)]; cbn [tagged_pick].
  - apply B; auto. apply N.
  - rewrite partition_one.
    + cbn [snd]. apply B; auto. cbn in N |- *. rewrite all_list_forall in *. apply Forall_app in N. destruct N as [N1 N2]. inversion N2; subst. apply Forall_app. auto.
    + apply is_tag_spec. exact Ck.
    + eapply Forall_impl; [|exact Nt]. intros e He. cbn in He. rewrite <- is_tag_spec in He. destruct (is_tag tag e); congruence.
Qed.

Lemma partition_hits {A} (p : A -> bool) l x : In x l -> p x = true -> In x (fst (partition p l)).
Proof.
  induction l as [|y l IH]; cbn; [tauto|]. intros [->|H] E; [rewrite E|]; destruct (partition p l) as [g d]; [left; reflexivity|].
  destruct (p y); cbn in *; auto.
Qed.
Lemma partition_two {A} (p : A -> bool) l1 a l2 b l3 : p a = true -> p b = true -> (2 <= length (fst (partition p (l1 ++ a :: l2 ++ b :: l3))))%nat.
Proof.
  intros Ha Hb. induction l1 as [|y l1 IH]; cbn.
  - pose proof (partition_hits p (l2 ++ b :: l3) b ltac:(apply in_or_app; right; left; reflexivity) Hb) as H.
    destruct (partition p (l2 ++ b :: l3)) as [g d]. rewrite Ha. destruct g; [destruct H|cbn; lia].
  - destruct (partition p (l1 ++ a :: l2 ++ b :: l3)) as [g d]. destruct (p y); cbn in *; lia.
Qed.
Lemma by_tag_none fo vs x c : NoDup (map fst vs) -> names_none vs x -> by_tag fo vs x c = None.
Proof.
  intros D [Hz Hn]. unfold by_tag. destruct (content_ident (map fst vs) x) as [[i|]|] eqn:E; auto.
  apply ident_called in E; auto. destruct E as (n & En & C). rewrite nth_error_map in En. destruct (nth_error vs i) as [[n' f]|] eqn:Ei; [|reflexivity].
  injection En as ->. destruct (Hn n f (nth_error_In _ _ Ei) C).
Qed.
Lemma refused_none fo tag vs c : NoDup (map fst vs) -> tag_refused tag vs c -> tagged_pick fo tag vs c = None.
Proof.
  intros D H. destruct c as [| | | | | | | | | |l|es| |]; auto; cbn [tagged_pick tag_refused] in *.
  - destruct l as [|x l]; auto. destruct H as [H|[Hl (n & Hi & C)]]; [apply by_tag_none; auto|]. unfold by_tag.
    apply In_nth_error in Hi. destruct Hi as [i Ei]. assert (Ex : content_ident (map fst vs) x = Some (Some i)).
    { apply ident_called; auto; [destruct C as [->| ->]; discriminate|]. exists n. rewrite nth_error_map, Ei. auto. }
    rewrite Ex, Ei. destruct l; [congruence|reflexivity].
  - destruct H as [H|[(l1 & l2 & l3 & a & b & -> & Ha & Hb)|(l1 & l2 & k & x & -> & Hk & Hx)]].
    + rewrite partition_none; auto. eapply Forall_impl; [|exact H]. intros e He. cbn in He. rewrite <- is_tag_spec in He. destruct (is_tag tag e); congruence.
    + apply is_tag_spec in Ha, Hb. pose proof (partition_two (is_tag tag) l1 a l2 b l3 Ha Hb) as L. destruct (partition _ _) as [[|e [|e' g]] d]; auto; cbn in L; lia.
    + pose proof (partition_hits (is_tag tag) (l1 ++ (k, x) :: l2) (k, x) ltac:(apply in_or_app; right; left; reflexivity) (proj2 (is_tag_spec tag (k, x)) Hk)) as L.
      destruct (partition _ _) as [[|e [|e' g]] d]; auto. destruct L as [->|[]]. cbn [snd]. apply by_tag_none; auto.
Qed.

(** ** MessagePack *)
Section Mp.
Context (ar : arch) (fo : float_ops) (A32 : arch32up ar).
Lemma mp_buffered_reads f m bs c tail : mp_fmt m bs -> denotes m (inl c) -> slice_of ar (bs ++ tail) ->
  exists N, forall fuel, (N <= fuel)%nat -> exists s, mp_from_slice ar fo fuel (buffered DeserializeError f) (bs ++ tail) =
    Done s (match f c with Some v => Ok (v, zlen bs) | None => Err DeserializeError end).
Proof.
  intros F D S. destruct (proj1 (any_total ar fo A32 m bs tail F S) c D) as [N HN]. exists N. intros fuel Hf. destruct (HN fuel Hf) as [s E].
  exists s. apply mp_from_buffered, E.
Qed.
Theorem mp_untagged_exact vs m bs c tail : Forall (fun f => kind_ok (fst f) (snd f) /\ wf (snd f)) vs ->
  mp_fmt m bs -> denotes m (inl c) -> no_number_keys c -> slice_of ar (bs ++ tail) ->
  exists N, forall fuel, (N <= fuel)%nat -> exists s r, mp_from_slice ar fo fuel (untagged fo DeserializeError vs) (bs ++ tail) = Done s r /\
    (forall i v, first_variant fo vs i v c -> r = Ok (UVar i v, zlen bs)) /\
    (no_variant fo vs c -> r = Err DeserializeError).
Proof.
  intros W F D N S. destruct (mp_buffered_reads (untagged_pick fo vs 0) m bs c tail F D S) as [K HK]. exists K. intros fuel Hf. destruct (HK fuel Hf) as [s E].
  exists s. eexists. split; [exact E|]. destruct (pick_agree fo vs c W N 0) as [P1 P2]. split.
  - intros i v H. rewrite (P1 i v H). reflexivity.
  - intros H. rewrite (P2 H). reflexivity.
Qed.
Theorem mp_tagged_reads tag vs m bs c i v tail : NoDup (map fst vs) -> Forall (fun f => match snd f with Some fs => wf (TStruct fs) | None => True end) vs ->
  mp_fmt m bs -> denotes m (inl c) -> no_number_keys c -> tagged_as fo tag vs i v c -> slice_of ar (bs ++ tail) ->
  exists N, forall fuel, (N <= fuel)%nat -> exists s, mp_from_slice ar fo fuel (tagged fo DeserializeError tag vs) (bs ++ tail) = Done s (Ok (UVar i v, zlen bs)).
Proof.
  intros D W F Dn N H S. destruct (mp_buffered_reads (tagged_pick fo tag vs) m bs c tail F Dn S) as [K HK]. exists K. intros fuel Hf. destruct (HK fuel Hf) as [s E].
  exists s. unfold tagged. rewrite E, (tagged_agree fo tag vs i v c); auto.
Qed.
Theorem mp_tagged_refuses tag vs m bs c tail : NoDup (map fst vs) -> mp_fmt m bs -> denotes m (inl c) -> tag_refused tag vs c -> slice_of ar (bs ++ tail) ->
  exists N, forall fuel, (N <= fuel)%nat -> exists s, mp_from_slice ar fo fuel (tagged fo DeserializeError tag vs) (bs ++ tail) = Done s (Err DeserializeError).
Proof.
  intros D F Dn H S. destruct (mp_buffered_reads (tagged_pick fo tag vs) m bs c tail F Dn S) as [K HK]. exists K. intros fuel Hf. destruct (HK fuel Hf) as [s E].
  exists s. unfold tagged. rewrite E, refused_none; auto.
Qed.
End Mp.

(** ** JSON *)
Lemma any_no_numbers any_f32 float_of : forall d c, any_as any_f32 float_of c d -> no_number_keys c.
Proof.
  induction d as [|x|tok|raw|l IH|l IH] using jv_ind'; intros c H; inversion H as [| |? ? Hn| |cs ? F|cs ? F]; subst; cbn; auto.
  - destruct Hn; cbn; auto. destruct any_f32; exact I.
  - rewrite all_list_forall. clear H. revert cs F. induction IH as [|d ds Hd _ I2]; intros cs F; inversion F; subst; constructor; auto.
  - rewrite all_list_forall. clear H. revert cs F. induction IH as [|d ds Hd _ I2]; intros cs F; inversion F as [|e ? ? ? [(s & E & _) Ha] F']; subst; constructor; auto.
    rewrite E. repeat split; auto; discriminate.
Qed.
Section Js.
Context (ar : arch) (fl : float_parser) (fo : float_ops) (any_f32 : bool) (dec : byte_decoder).
Local Notation float_of := (if any_f32 then f32_from_str fl else f64_from_str fl).
Theorem js_untagged_exact vs c d text w1 w2 : Forall (fun f => kind_ok (fst f) (snd f) /\ wf (snd f)) vs ->
  any_as any_f32 float_of c d -> raw_text d text -> any_ws w1 -> any_ws w2 ->
  (dec = Base64Decoder -> 3 * zlen (w1 ++ text ++ w2) <= usize_max ar) ->
  exists N, forall fuel, (N <= fuel)%nat -> exists s r, js_from_mut_slice ar fl any_f32 dec fuel (untagged fo JDeserializeError vs) (w1 ++ text ++ w2) = Done s r /\
    (forall i v, first_variant fo vs i v c -> r = Ok (UVar i v)) /\
    (no_variant fo vs c -> r = Err JDeserializeError).
Proof.
  intros W A T W1 W2 R. destruct (self_describing_reads ar fl any_f32 dec c d text w1 w2 A T W1 W2 R) as [K HK]. exists K. intros fuel Hf. destruct (HK fuel Hf) as [s E].
  destruct (js_from_buffered ar fl any_f32 dec fuel (untagged_pick fo vs 0) _ _ _ E) as [s' E'].
  exists s'. eexists. split; [exact E'|]. destruct (pick_agree fo vs c W (any_no_numbers _ _ _ _ A) 0) as [P1 P2]. split.
  - intros i v H. rewrite (P1 i v H). reflexivity.
  - intros H. rewrite (P2 H). reflexivity.
Qed.
Theorem js_tagged_reads tag vs c i v d text w1 w2 : NoDup (map fst vs) -> Forall (fun f => match snd f with Some fs => wf (TStruct fs) | None => True end) vs ->
  any_as any_f32 float_of c d -> raw_text d text -> any_ws w1 -> any_ws w2 -> tagged_as fo tag vs i v c ->
  (dec = Base64Decoder -> 3 * zlen (w1 ++ text ++ w2) <= usize_max ar) ->
  exists N, forall fuel, (N <= fuel)%nat -> exists s, js_from_mut_slice ar fl any_f32 dec fuel (tagged fo JDeserializeError tag vs) (w1 ++ text ++ w2) = Done s (Ok (UVar i v)).
Proof.
  intros D W A T W1 W2 H R. destruct (self_describing_reads ar fl any_f32 dec c d text w1 w2 A T W1 W2 R) as [K HK]. exists K. intros fuel Hf. destruct (HK fuel Hf) as [s E].
  destruct (js_from_buffered ar fl any_f32 dec fuel (tagged_pick fo tag vs) _ _ _ E) as [s' E'].
  exists s'. unfold tagged. rewrite E', (tagged_agree fo tag vs i v c); auto. apply (any_no_numbers _ _ _ _ A).
Qed.
Theorem js_tagged_refuses tag vs c d text w1 w2 : NoDup (map fst vs) -> any_as any_f32 float_of c d -> raw_text d text -> any_ws w1 -> any_ws w2 -> tag_refused tag vs c ->
  (dec = Base64Decoder -> 3 * zlen (w1 ++ text ++ w2) <= usize_max ar) ->
  exists N, forall fuel, (N <= fuel)%nat -> exists s, js_from_mut_slice ar fl any_f32 dec fuel (tagged fo JDeserializeError tag vs) (w1 ++ text ++ w2) = Done s (Err JDeserializeError).
Proof.
  intros D A T W1 W2 H R. destruct (self_describing_reads ar fl any_f32 dec c d text w1 w2 A T W1 W2 R) as [K HK]. exists K. intros fuel Hf. destruct (HK fuel Hf) as [s E].
  destruct (js_from_buffered ar fl any_f32 dec fuel (tagged_pick fo tag vs) _ _ _ E) as [s' E'].
  exists s'. unfold tagged. rewrite E', refused_none; auto.
Qed.
End Js.

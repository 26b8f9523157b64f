(** Decoding MessagePack into types with buffered enums inside terminates (C76). *)
From Verif Require Import Prelude PreludeFacts SerdeSer SerdeDe MpSpec MpDe MpDeView MpDeReads MpDeEat MpDeSafe MpDeTop FloatOps Types TypesFacts TypeSize MpTypeSpec MpTyped MpTypedTop
  MpAny MpSound MpFuel Content Nested NestedSize NestedReadSpec NestedRead NestedSound.
Ltac Zify.zify_post_hook ::= Z.div_mod_to_equations.

Section Ends.
Context (ar : arch) (fo : float_ops) (orig : bytes) (Wide : wide ar).
Local Notation prog := (xdenote fo DeserializeError).
Local Notation dB := (dB ar fo orig).
Local Notation sB := (sB ar fo orig).
Local Notation mB := (mB ar fo orig).
Local Notation v_all := (v_all ar fo orig).

Lemma xgot_nonempty x v bs : xgot fo x v bs -> bs <> [].
Proof.
  revert v bs. induction x as [t|vs|tag vs|x IH|x IH|xs IH|k x IH|fs IH|x IH|vs IH] using xty_ind'; unfold xgot; intros v bs H; cbn [xform] in H.
  - eapply adm_nonempty; eauto.
  - destruct H as (m & c & H & _). eapply mp_fmt_nonempty; eauto.
  - destruct H as (m & c & H & _). eapply mp_fmt_nonempty; eauto.
  - destruct v; try contradiction; [subst; discriminate|]. eapply IH. apply H.
  - destruct v; try contradiction. destruct H as (h & b & -> & H & _). eapply app_nonempty, arr_hdr_nonempty; eauto.
  - destruct v; try contradiction. destruct H as (h & b & -> & H & _). eapply app_nonempty, arr_hdr_nonempty; eauto.
  - destruct v; try contradiction. destruct H as (h & b & -> & H & _). eapply app_nonempty, map_hdr_nonempty; eauto.
  - destruct v; try contradiction. destruct H as [(h & b & -> & H & _)|(n & h & b & got & -> & H & _)]; [eapply app_nonempty, arr_hdr_nonempty|eapply app_nonempty, map_hdr_nonempty]; eauto.
  - eapply IH. exact H.
  - destruct v as [| | | | | | | | | | | |i v|]; try contradiction. destruct (nth_error _ _) as [[p|]|]; [|destruct H as [_ H]; destruct (ident_head _ _ _ H) as (c & l & -> & _)|contradiction]; try discriminate.
    destruct H as (k & b & -> & _). discriminate.
Qed.
Lemma x_reads x : xwf x -> reads1 ar fo (prog x).
Proof. intros W f. eapply sound_weaken; [apply (nested_sound ar fo Wide); auto|]. intros a b H. eapply xgot_nonempty; eauto. Qed.

(** A request within the budget of a type of size [N]. *)
Definition within (p : deser val mp_de_error) (N : nat) : Prop := (1 <= N)%nat /\ exists m v post, p = DReq m v post /\ v_all (10 * N - 1) v.
Lemma within_bound p N n B : within p N -> (10 * N <= B)%nat -> dB n B p.
Proof.
  intros (L & m & v & post & -> & H) HB. apply (dB_less ar fo orig n n B (S (10 * N - 1))); [lia|lia|]. apply (req_bound ar fo orig Wide), all_within; [lia|exact H].
Qed.
Lemma then_within p N g n B : within p N -> (10 * N <= B)%nat -> dB n B (then_ p g).
Proof. intros (L & m & v & post & -> & H) HB. apply (within_bound (then_ (DReq m v post) g) N); auto. split; auto. cbn [then_]. eauto. Qed.
Lemma any_visitor_all : v_all 9 any_visitor.
Proof.
  intros n. change (visit_seq any_visitor) with (any_seq DeserializeError []). change (visit_map any_visitor) with (any_map DeserializeError []).
  split; [|split; [|split; [|split]]].
  - intros f c Hc Hf. eapply (seq_bound ar fo orig Wide (fun p => exists acc, p = any_seq DeserializeError acc) (any DeserializeError) 6); [lia| |intros f0; apply (any_reads1 ar fo)| |eauto|auto|lia].
    + intros p (acc & ->). rewrite any_seq_eq. eexists. split; [reflexivity|]. repeat split; eauto.
    + intros. apply (any_bound ar fo orig Wide).
  - intros f c Hc Hf. eapply (map_bound ar fo orig Wide (fun p => exists acc, p = any_map DeserializeError acc) 6 n); [lia| |eauto|auto|lia].
    intros p (acc & ->). rewrite any_map_eq. exists (any DeserializeError). eexists. split; [reflexivity|].
    split; [intros; apply (any_bound ar fo orig Wide)|]. split; [intros f0; apply (any_reads1 ar fo)|]. split; [eauto|]. split; [eauto|]. intros u. right. exists (any DeserializeError). eexists. split; [reflexivity|].
    split; [intros; apply (any_bound ar fo orig Wide)|]. split; eauto.
  - eapply dB_less; [| |apply (any_bound ar fo orig Wide)]; [|apply le_n]; lia.
  - eapply dB_less; [| |apply (any_bound ar fo orig Wide)]; [|apply le_n]; lia.
  - apply eret_b; lia.
Qed.
Lemma buffered_within f : within (buffered DeserializeError f) 1.
Proof. split; [lia|]. unfold buffered. rewrite any_eq. cbn [then_]. do 3 eexists. split; [reflexivity|]. apply any_visitor_all. Qed.

Lemma progs_within {A} (pr : A -> deser val mp_de_error) (size : A -> nat) l B n acc : Forall (fun x => within (pr x) (size x)) l -> (10 * list_sum (map size l) + 2 <= B)%nat ->
  sB n B (tuple_prog DeserializeError (map (fun x => (pr x, None)) l) acc).
Proof.
  intros HF HB f c Hc Hf. eapply (tuple_b ar fo orig Wide _ (map (fun x => 10 * size x)%nat l)); [|auto|rewrite sum_scale; lia].
  clear -HF Wide. induction HF as [|x l Hx HF IH]; cbn [map]; constructor; auto. split; [destruct Hx; lia|]. intros n. apply (within_bound _ (size x)); auto.
Qed.
Ltac rets := first [apply sret_b; lia|apply mret_b; lia|apply dret_b; lia|apply eret_b; lia].
Lemma x_within x : xwf x -> within (prog x) (xsize x).
Proof.
  induction x as [t|vs|tag vs|x IH|x IH|xs IH|k x IH|fs IH|x IH|vs IH] using xty_ind'; intros W; cbn [xwf] in W; cbn [xdenote xsize].
  - split; [apply size_pos|]. apply (types_within ar fo orig Wide t W).
  - apply buffered_within.
  - apply buffered_within.
  - split; [lia|]. unfold request. do 3 eexists. split; [reflexivity|]. intros n. cbn [visit_seq visit_map visit_some visit_newtype visit_enum mk_visitor on_seq on_map on_some on_newtype on_enum v_option].
    specialize (IH W). split; [|split; [|split; [|split]]]; try rets. apply (then_within _ (xsize x)); auto. lia.
  - split; [lia|]. unfold request. do 3 eexists. split; [reflexivity|]. intros n. cbn [visit_seq visit_map visit_some visit_newtype visit_enum mk_visitor on_seq on_map on_some on_newtype on_enum v_seq].
    specialize (IH W). split; [|split; [|split; [|split]]]; try rets.
    eapply sB_less; [|apply (seq_loop_b ar fo orig Wide n (10 * xsize x)); [destruct IH; lia|apply x_reads; auto|intros; apply (within_bound _ (xsize x)); auto]]. lia.
  - assert (F : Forall (fun x => within (prog x) (xsize x)) xs).
    { clear -IH W. induction IH as [|x xs Hx _ I0]; constructor; cbn in W; [apply Hx|apply I0]; tauto. }
    split; [lia|]. unfold request. do 3 eexists. split; [reflexivity|]. intros n. cbn [visit_seq visit_map visit_some visit_newtype visit_enum mk_visitor on_seq on_map on_some on_newtype on_enum v_seq].
    split; [|split; [|split; [|split]]]; try rets. apply (progs_within prog xsize); auto. lia.
  - destruct W as [W1 W2]. specialize (IH W2). pose proof (size_pos k).
    split; [lia|]. unfold request. do 3 eexists. split; [reflexivity|]. intros n. cbn [visit_seq visit_map visit_some visit_newtype visit_enum mk_visitor on_seq on_map on_some on_newtype on_enum v_map].
    split; [|split; [|split; [|split]]]; try rets.
    eapply mB_less; [|apply (map_loop_b ar fo orig Wide n (10 * (type_size k + xsize x)));
      [lia|apply (t_reads ar fo Wide); auto|intros; apply (t_bound ar fo orig Wide); [apply (types_within ar fo orig Wide); auto|lia]|intros; apply (within_bound _ (xsize x)); auto; lia]]. lia.
  - destruct W as [_ W].
    assert (F : Forall (fun f => within (prog (snd f)) (xsize (snd f))) fs).
    { clear -IH W. induction IH as [|x xs Hx _ I0]; constructor; cbn in W; [apply Hx|apply I0]; tauto. }
    split; [lia|]. unfold request. do 3 eexists. split; [reflexivity|]. intros n. cbn [visit_seq visit_map visit_some visit_newtype visit_enum mk_visitor on_seq on_map on_some on_newtype on_enum v_struct].
    split; [|split; [|split; [|split]]]; try rets.
    + apply (progs_within (fun f => prog (snd f)) (fun f => xsize (snd f))); auto. lia.
    + eapply mB_less; [|apply (struct_loop_b ar fo orig Wide n (10 * list_sum (map (fun f => xsize (snd f)) fs) + 6)); [lia|]]; [lia|].
      intros n0 seed Hin. apply in_map_iff in Hin. destruct Hin as (f & <- & Hin). rewrite Forall_forall in F. apply (within_bound _ (xsize (snd f))); auto.
      pose proof (sum_in (fun f : bytes * xty => xsize (snd f)) fs f Hin). cbn beta in *. lia.
  - split; [lia|]. unfold request. do 3 eexists. split; [reflexivity|]. intros n. cbn [visit_seq visit_map visit_some visit_newtype visit_enum mk_visitor on_seq on_map on_some on_newtype on_enum v_newtype].
    specialize (IH W). split; [|split; [|split; [|split]]]; try rets. apply (within_bound _ (xsize x)); auto. lia.
  - destruct W as [_ W].
    set (g := fun f : bytes * option xty => match snd f with Some x => prog x | None => denote DeserializeError TUnit end).
    set (sz := fun f : bytes * option xty => match snd f with Some x => xsize x | None => 1%nat end).
    assert (F : Forall (fun f => within (g f) (sz f)) vs).
    { rewrite Forall_forall in *. intros f Hin. specialize (IH f Hin). pose proof (MpTyped.all_list_In _ _ W _ Hin) as Wi. cbn beta in Wi. unfold g, sz. destruct (snd f) as [x|]; [apply IH; exact Wi|].
      split; [lia|]. exact (types_within ar fo orig Wide TUnit I). }
    split; [lia|]. unfold request. do 3 eexists. split; [reflexivity|]. intros n. cbn [visit_seq visit_map visit_some visit_newtype visit_enum mk_visitor on_seq on_map on_some on_newtype on_enum v_enum].
    split; [|split; [|split; [|split]]]; try rets.
    eapply eB_less; [|apply (enum_b ar fo orig Wide n (10 * list_sum (map sz vs) + 6)); [lia|]]; [lia|].
    intros k c Hin. apply in_map_iff in Hin. destruct Hin as (f & [= <- <-] & Hin). rewrite Forall_forall in F.
    pose proof (sum_in sz vs f Hin) as Hs. cbn beta in Hs. specialize (F f Hin). split.
    + intros. apply (within_bound _ (sz f)); auto. lia.
    + intros m v post E. destruct F as (_ & m' & v' & post' & E' & Hv). change (g f = DReq m v post) in E. rewrite E in E'. injection E' as <- <- <-.
      eapply v_all_less; [|exact Hv]. lia.
Qed.
End Ends.

Section Top.
Context (ar : arch) (fo : float_ops) (A64 : arch64 ar).
Local Notation prog := (xdenote fo DeserializeError).
Theorem mp_nested_ends x input fuel : xwf x -> slice64 input -> (10 * xsize x + 3 * length input <= fuel)%nat ->
  exists s r, mp_from_slice ar fo fuel (prog x) input = Done s r.
Proof.
  intros W Hi Hf. eapply (ends_top ar fo A64); [auto| |exact Hf]. apply (within_bound ar fo input (arch64_wide ar A64) _ (xsize x)); auto. apply (x_within ar fo input (arch64_wide ar A64)); auto.
Qed.
Theorem mp_nested_decides x input fuel : xwf x -> slice64 input -> (10 * xsize x + 3 * length input <= fuel)%nat ->
  (exists s v bs tail, mp_from_slice ar fo fuel (prog x) input = Done s (Ok (v, zlen bs)) /\ input = bs ++ tail /\ xgot fo x v bs) \/
  (exists s e, mp_from_slice ar fo fuel (prog x) input = Done s (Err e) /\ forall v bs tail, input = bs ++ tail -> ~ xadm fo x v bs).
Proof.
  intros W Hi Hf. destruct (mp_nested_ends x input fuel W Hi Hf) as (s & [[v n]|e] & E).
  - left. destruct (mp_nested_sound ar fo (arch64_wide ar A64) A64 fuel x input s v n W Hi E) as (bs & tail & H1 & <- & H2). exists s, v, bs, tail. auto.
  - right. exists s, e. split; auto. intros v bs tail -> Ha.
    destruct (mp_nested_reads ar fo x v bs tail (arch64_up ar A64) W Ha (slice64_of ar _ A64 Hi)) as [N HN]. destruct (HN N (le_n N)) as [s' E'].
    destruct (budget_irrelevant ar fo _ _ _ _ _ _ _ _ E E') as [_ D]. discriminate D.
Qed.
End Top.

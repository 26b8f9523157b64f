(** Decoding JSON into types with buffered enums inside terminates (C76). *)
From Verif Require Import Prelude PreludeFacts SerdeSer SerdeDe FloatOps Base64Spec JsonSpec JsonTypeSpec JsonAnySpec JsonDe JsonDeSafe Types TypesFacts TypeSize MpSpec MpTypeSpec
  JsonSound JsonSoundTop JsonAny JsonFuel Content Nested NestedSize NestedReadSpec NestedRead JsonNestedSound.

Section Ends.
Context (ar : arch) (fl : float_parser) (fo : float_ops) (any_f32 : bool) (dec : byte_decoder) (orig : nat).
Context (room : dec = Base64Decoder -> 3 * Z.of_nat orig <= usize_max ar).
Local Notation prog := (xdenote fo JDeserializeError).
Local Notation dB := (dB ar fl any_f32 dec orig).
Local Notation sB := (sB ar fl any_f32 dec orig).
Local Notation mB := (mB ar fl any_f32 dec orig).
Local Notation v_all := (v_all ar fl any_f32 dec orig).

Definition within (p : deser val js_de_error) (N : nat) : Prop := (1 <= N)%nat /\ exists m v post, p = DReq m v post /\ v_all (10 * N - 1) v.
Lemma within_bound p N n B : within p N -> (10 * N <= B)%nat -> dB n B p.
Proof.
  intros (L & m & v & post & -> & H) HB. apply (dB_less ar fl any_f32 dec orig n n B (S (10 * N - 1))); [lia|lia|]. apply req_bound; auto. apply all_within. exact H.
Qed.
Lemma then_within p N g n B : within p N -> (10 * N <= B)%nat -> dB n B (then_ p g).
Proof. intros (L & m & v & post & -> & H) HB. apply (within_bound (then_ (DReq m v post) g) N); auto. split; auto. cbn [then_]. eauto. Qed.
Lemma any_visitor_all : v_all 9 j_any_visitor.
Proof.
  intros n. change (visit_seq j_any_visitor) with (any_seq JDeserializeError []). change (visit_map j_any_visitor) with (any_map JDeserializeError []).
  split; [|split; [|split; [|split]]].
  - intros f Hf. eapply seq_bound with (X := fun p => exists acc, p = any_seq JDeserializeError acc) (seed := any JDeserializeError) (B := 6%nat); [lia| | |eauto|cbn; lia].
    + intros p (acc & ->). rewrite any_seq_eq. eexists. split; [reflexivity|]. repeat split; eauto.
    + intros. apply any_bound; auto.
  - intros f Hf. eapply map_bound with (X := fun p => exists acc, p = any_map JDeserializeError acc) (B := 6%nat); [lia| |eauto|cbn; lia].
    intros p (acc & ->). rewrite any_map_eq. exists (any JDeserializeError). eexists. split; [reflexivity|].
    split; [intros; apply any_bound; auto|]. split; [eauto|]. split; [eauto|]. intros u. right. exists (any JDeserializeError). eexists. split; [reflexivity|].
    split; [intros; apply any_bound; auto|]. split; eauto.
  - eapply dB_less; [| |apply any_bound; auto]; [|apply le_n]; lia.
  - eapply dB_less; [| |apply any_bound; auto]; [|apply le_n]; lia.
  - apply eret_b; lia.
Qed.
Lemma buffered_within f : within (buffered JDeserializeError f) 1.
Proof. split; [lia|]. unfold buffered. rewrite any_eq. cbn [then_]. do 3 eexists. split; [reflexivity|]. apply any_visitor_all. Qed.
Lemma progs_within {A} (pr : A -> deser val js_de_error) (size : A -> nat) l B n acc : Forall (fun x => within (pr x) (size x)) l -> (10 * list_sum (map size l) + 2 <= B)%nat ->
  sB n B (tuple_prog JDeserializeError (map (fun x => (pr x, None)) l) acc).
Proof.
  intros HF HB f Hf. eapply tuple_b with (bs := map (fun x => 10 * size x)%nat l); [|rewrite sum_scale; lia].
  clear -HF room. induction HF as [|x l Hx HF IH]; cbn [map]; constructor; auto. split; [destruct Hx; lia|]. intros n. apply (within_bound _ (size x)); auto.
Qed.
Ltac rets := first [apply sret_b; lia|apply mret_b; lia|apply dret_b; lia|apply eret_b; lia].
Lemma x_within x : within (prog x) (xsize x).
Proof.
  induction x as [t|vs|tag vs|x IH|x IH|xs IH|k x IH|fs IH|x IH|vs IH] using xty_ind'; cbn [xdenote xsize].
  - split; [destruct t; cbn; lia|]. exact (types_within ar fl any_f32 dec orig room t).
  - apply buffered_within.
  - apply buffered_within.
  - split; [lia|]. unfold request. do 3 eexists. split; [reflexivity|]. intros n. cbn [visit_seq visit_map visit_some visit_newtype visit_enum mk_visitor on_seq on_map on_some on_newtype on_enum v_option].
    split; [|split; [|split; [|split]]]; try rets. apply (then_within _ (xsize x)); auto. lia.
  - split; [lia|]. unfold request. do 3 eexists. split; [reflexivity|]. intros n. cbn [visit_seq visit_map visit_some visit_newtype visit_enum mk_visitor on_seq on_map on_some on_newtype on_enum v_seq].
    split; [|split; [|split; [|split]]]; try rets.
    eapply sB_less with (B' := (10 * xsize x + 2)%nat); [lia|]. apply seq_loop_b; [destruct IH; lia|intros; apply (within_bound _ (xsize x)); auto].
  - split; [lia|]. unfold request. do 3 eexists. split; [reflexivity|]. intros n. cbn [visit_seq visit_map visit_some visit_newtype visit_enum mk_visitor on_seq on_map on_some on_newtype on_enum v_seq].
    split; [|split; [|split; [|split]]]; try rets. apply (progs_within prog xsize); auto. lia.
  - assert (1 <= type_size k)%nat by (destruct k; cbn; lia).
    split; [lia|]. unfold request. do 3 eexists. split; [reflexivity|]. intros n. cbn [visit_seq visit_map visit_some visit_newtype visit_enum mk_visitor on_seq on_map on_some on_newtype on_enum v_map].
    split; [|split; [|split; [|split]]]; try rets.
    eapply mB_less with (B' := (10 * (type_size k + xsize x) + 3)%nat); [lia|]. apply map_loop_b; [lia|intros; apply t_bound; auto; [exact (types_within ar fl any_f32 dec orig room k)|lia]|intros; apply (within_bound _ (xsize x)); auto; lia].
  - split; [lia|]. unfold request. do 3 eexists. split; [reflexivity|]. intros n. cbn [visit_seq visit_map visit_some visit_newtype visit_enum mk_visitor on_seq on_map on_some on_newtype on_enum v_struct].
    split; [|split; [|split; [|split]]]; try rets.
    + apply (progs_within (fun f => prog (snd f)) (fun f => xsize (snd f))); auto. lia.
    + eapply mB_less with (B' := (10 * list_sum (map (fun f => xsize (snd f)) fs) + 6 + 2)%nat); [lia|]. apply struct_loop_b; auto; [lia|].
      intros n0 seed Hin. apply in_map_iff in Hin. destruct Hin as (f & <- & Hin). rewrite Forall_forall in IH. apply (within_bound _ (xsize (snd f))); auto.
      pose proof (sum_in 0%nat (fun f : bytes * xty => xsize (snd f)) fs f Hin). cbn beta in *. lia.
  - split; [lia|]. unfold request. do 3 eexists. split; [reflexivity|]. intros n. cbn [visit_seq visit_map visit_some visit_newtype visit_enum mk_visitor on_seq on_map on_some on_newtype on_enum v_newtype].
    split; [|split; [|split; [|split]]]; try rets. apply (within_bound _ (xsize x)); auto. lia.
  - set (g := fun f : bytes * option xty => match snd f with Some x => prog x | None => denote JDeserializeError TUnit end).
    set (sz := fun f : bytes * option xty => match snd f with Some x => xsize x | None => 1%nat end).
    assert (F : Forall (fun f => within (g f) (sz f)) vs).
    { rewrite Forall_forall in *. intros f Hin. specialize (IH f Hin). unfold g, sz. destruct (snd f) as [x|]; [apply IH|].
      split; [lia|]. exact (types_within ar fl any_f32 dec orig room TUnit). }
    split; [lia|]. unfold request. do 3 eexists. split; [reflexivity|]. intros n. cbn [visit_seq visit_map visit_some visit_newtype visit_enum mk_visitor on_seq on_map on_some on_newtype on_enum v_enum].
    split; [|split; [|split; [|split]]]; try rets.
    eapply eB_less; [|apply (enum_b ar fl any_f32 dec orig room n (10 * list_sum (map sz vs) + 6)); [lia|]]; [lia|].
    intros k c Hin. apply in_map_iff in Hin. destruct Hin as (f & [= <- <-] & Hin). rewrite Forall_forall in F.
    pose proof (sum_in 0%nat sz vs f Hin) as Hs. cbn beta in Hs. specialize (F f Hin). split.
    + intros. apply (within_bound _ (sz f)); auto. lia.
    + intros m v post E. destruct F as (_ & m' & v' & post' & E' & Hv). change (g f = DReq m v post) in E. rewrite E in E'. injection E' as <- <- <-.
      eapply v_all_less; [|exact Hv]. lia.
Qed.
End Ends.

Section Top.
Context (ar : arch) (fl : float_parser) (fo : float_ops) (any_f32 : bool) (dec : byte_decoder).
Local Notation prog := (xdenote fo JDeserializeError).
Local Notation readings := (match dec with NopeDecoder => bytes_as_string | HexDecoder => hex_bytes | Base64Decoder => bytes_as_base64 end).
Theorem js_nested_ends x input fuel : (dec = Base64Decoder -> 3 * zlen input <= usize_max ar) -> (10 * xsize x + 3 * length input <= fuel)%nat ->
  exists s r, js_from_mut_slice ar fl any_f32 dec fuel (prog x) input = Done s r.
Proof.
  intros R Hf. eapply (ends_top ar fl any_f32 dec); [auto| |exact Hf]. apply (within_bound ar fl any_f32 dec (length input) R _ (xsize x)); auto. apply x_within; auto.
Qed.
Theorem js_nested_decides x input fuel : f32_from_str fl [] = None -> f64_from_str fl [] = None ->
  xwf x -> all_bytes input -> (dec = Base64Decoder -> 3 * zlen input <= usize_max ar) -> (10 * xsize x + 3 * length input <= fuel)%nat ->
  (exists s v d w1 text w2, js_from_mut_slice ar fl any_f32 dec fuel (prog x) input = Done s (Ok v) /\ input = w1 ++ text ++ w2 /\ any_ws w1 /\ any_ws w2 /\ loose_text d text /\
     xcame fo any_f32 (f32_from_str fl) (f64_from_str fl) any_ws readings x v d) \/
  (exists s e, js_from_mut_slice ar fl any_f32 dec fuel (prog x) input = Done s (Err e) /\
     forall v d w1 text w2, input = w1 ++ text ++ w2 -> any_ws w1 -> any_ws w2 -> loose_text d text ->
       ~ xreads fo any_f32 (f32_from_str fl) (f64_from_str fl) any_ws readings x v d).
Proof.
  intros F32 F64 W Hb R Hf. destruct (js_nested_ends x input fuel R Hf) as (s & [v|e] & E).
  - left. destruct (js_nested_sound ar fl fo any_f32 dec fuel x input s v F32 F64 W Hb R E) as (d & w1 & text & w2 & H). exists s, v, d, w1, text, w2. auto.
  - right. exists s, e. split; auto. intros v d w1 text w2 -> H2 H3 H4 H5. rewrite <- bytes_readings in H5.
    destruct (js_nested_reads ar fl fo any_f32 dec any_ws (fun w H => H) x v d text w1 w2 W H5 H4 H2 H3 R) as [K HK]. destruct (HK K (le_n K)) as [s' E'].
    destruct (budget_irrelevant ar fl any_f32 dec _ _ _ _ _ _ _ _ E E') as [_ D]. discriminate D.
Qed.
End Top.

(** The errors of self-describing decoding of JSON (C59). *)
From Verif Require Import Prelude PreludeFacts Utf8 Utf8Spec Utf8Facts SerdeDe SerdeSer MpSpec Base64Spec
  JsonSpec JsonTypeSpec JsonAnySpec JsonFacts JsonDe JsonDeSafe JsonStr JsonView JsonTok JsonMeth JsonEats JsonTyped
  Types TypesFacts MpTypeSpec MpTyped MpSerSim JsonSound JsonTypedTop JsonSoundTop JsonAny JsonFaultSpec JsonAnyFaultSpec JsonFaultLeaf JsonFault JsonFaultTyped JsonFaultTotal JsonFaultTop.
From Verif Require JsonFuel.
Ltac Zify.zify_post_hook ::= Z.div_mod_to_equations.

Local Notation any := (any JDeserializeError).
Local Notation any_seq := (any_seq JDeserializeError).
Local Notation any_map := (any_map JDeserializeError).

Section AnyFault.
Context (ar : arch) (fl : float_parser) (any_f32 : bool) (dec : byte_decoder).
Local Notation M := (DM jde js_de_error).
Local Notation inside := (inside ar dec).
Local Notation run := (js_run ar fl any_f32 dec).
Local Notation eats := (eats ar dec).
Local Notation fails m l e := (gives ar dec m l (failed e)).
Local Notation reading p := (fun f => jr_de (run f) false p).
Local Notation keyed p := (fun f => jr_de (run f) true p).
Local Notation seqing p first := (fun f => jr_seq (run f) p first).
Local Notation mapping p first := (fun f => jr_map (run f) p first).
Local Notation sreach := (sreach ar fl any_f32 dec).
Local Notation mreach := (mreach ar fl any_f32 dec).
Local Notation fo := (any_from_str fl any_f32).
Local Notation any_as := (any_as any_f32 fo).
Local Notation number_as := (number_as any_f32 fo).
Local Notation holds := (holds any_f32 fo).
Local Notation holds_member := (holds_member any_f32 fo).
Local Notation any_fault := (any_fault any_f32 fo).

Lemma holds_eats l k : holds l k -> exists v, eats (reading any) v l k.
Proof. intros (w & d & b & v & -> & Hw & Ht & Hs & Hk). exists v. exact (any_accepts ar fl any_f32 dec d v Hs b w k Ht Hw Hk). Qed.
Lemma any_seq_reach n : forall acc first l first' k, walk 93 first (repeat holds n) l first' k -> exists acc', sreach (any_seq acc) first l (any_seq acc') first' k.
Proof.
  induction n as [|n IH]; intros acc first l first' k H; cbn [repeat] in H; [apply walk_nil_inv in H; destruct H as [-> ->]; exists acc; apply sreach_refl|].
  apply walk_cons_inv in H. destruct H as (x & y & Hi & Hp & Hw). destruct (holds_eats _ _ Hp) as [v Hv]. destruct (IH (v :: acc) _ _ _ _ Hw) as [acc' Ha].
  exists acc'. rewrite any_seq_eq. eapply sreach_trans; [eapply snext_item; [eassumption|eassumption]|]. cbv beta iota. exact Ha.
Qed.
Lemma any_key raw s m : literal raw s -> eats (keyed any) (UStr s) (34 :: raw ++ 34 :: m) m.
Proof. intros L. rewrite any_eq. apply (key_str_eats ar fl any_f32 dec DAny j_any_visitor (fun r => r) (UStr s) (UStr s) raw s); auto. Qed.
Lemma any_map_reach n : forall acc first l first' k, walk 125 first (repeat holds_member n) l first' k -> exists acc', mreach (any_map acc) first l (any_map acc') first' k.
Proof.
  induction n as [|n IH]; intros acc first l first' k H; cbn [repeat] in H; [apply walk_nil_inv in H; destruct H as [-> ->]; exists acc; apply mreach_refl|].
  apply walk_cons_inv in H. destruct H as (x & y & Hi & (raw & s & m & r & -> & L & Hb & Hs) & Hw). destruct (holds_eats _ _ Hs) as [v Hv].
  destruct (IH ((UStr s, v) :: acc) _ _ _ _ Hw) as [acc' Ha]. exists acc'.
  rewrite any_map_eq. eapply mreach_trans; [eapply mkey_item; [exact Hi|eapply any_key; exact L]|]. cbv beta iota.
  eapply mreach_trans; [eapply mval_item; [exact Hb|exact Hv]|]. cbv beta iota. exact Ha.
Qed.

Lemma holds_tail l k : holds l k -> tail_of k l.
Proof. intros (w & d & b & v & -> & _). rewrite app_assoc. apply tail_app. Qed.
Lemma holds_member_tail l k : holds_member l k -> tail_of k l.
Proof.
  intros (raw & s & m & r & -> & _ & Hb & Hs). eapply tail_trans; [apply holds_tail; exact Hs|]. eapply tail_trans; [eapply begins_tail1; exact Hb|apply quoted_tail].
Qed.
Lemma number_none c r tok k : is_digit c \/ c = 45 -> c :: r = tok ++ k -> number_run tok -> cannot_extend (JNum tok) k -> (forall v, ~ number_as v tok) ->
  number_prefix (c :: r) = tok /\ number_val fl any_f32 tok = None.
Proof.
  intros Hc E Hr Hk Hn. rewrite E. split; [apply prefix_number; [apply run_chars; auto|eapply extend_prefix; eauto]|].
  destruct (number_val fl any_f32 tok) as [v|] eqn:Ev; auto. exfalso. apply (Hn v). apply (number_val_spec fl any_f32); auto.
  destruct tok as [|c' t]; [destruct Hr as [X _]; congruence|]. cbn in E. injection E as <- _. exists c, t. auto.
Qed.

Lemma any_fails l e : all_bytes l -> any_fault l e -> fails (reading any) l e.
Proof.
  intros B H. revert B.
  assert (W : forall l c r P, begins l c r -> gives ar dec (fun f => if c =? 110 then j_deserialize_unit j_any_visitor
    else if (c =? 116) || (c =? 102) then j_deserialize_bool j_any_visitor
    else if c =? 34 then j_deserialize_str j_any_visitor
    else if ascii_digit c || (c =? 45) then n <-- parse_float_or_int fl any_f32 c ;; dlift (visit_number any_f32 n)
    else if c =? 91 then j_deserialize_seq (run f) j_any_visitor else if c =? 123 then j_deserialize_map (run f) j_any_visitor else dfail JUnexpectedChar) (c :: r) (failed P) ->
    fails (reading any) l P).
  { intros l0 c r P Hb H0. rewrite any_eq. apply (proj1 (fails_req ar fl any_f32 dec DAny j_any_visitor l0 P)). cbn [js_method]. unfold j_deserialize_any. eapply gives_ws; [exact Hb|]. exact H0. }
  assert (HB : forall l c r, begins l c r -> begins (c :: r) c r) by (intros; eapply drop_ws_begins; eauto).
  assert (SQ : forall l r, begins l 91 r -> fails (seqing (any_seq []) true) r e -> fails (reading any) l e).
  { intros l0 r Hb H0. eapply W; [exact Hb|]. replace (ascii_digit 91) with false by reflexivity. cbn [Z.eqb Pos.eqb orb]. eapply seq_fails; [eapply HB; eauto|]. exact H0. }
  assert (SM : forall l r, begins l 123 r -> fails (mapping (any_map []) true) r e -> fails (reading any) l e).
  { intros l0 r Hb H0. eapply W; [exact Hb|]. replace (ascii_digit 123) with false by reflexivity. cbn [Z.eqb Pos.eqb orb]. eapply map_fails; [eapply HB; eauto|]. exact H0. }
  Local Ltac any_walk := match goal with Hw : walk 93 _ _ _ _ _ |- _ => let a := fresh "acc" in destruct (any_seq_reach _ [] _ _ _ _ Hw) as [a Ha]; apply Ha; rewrite any_seq_eq
    | Hw : walk 125 _ _ _ _ _ |- _ => let a := fresh "acc" in destruct (any_map_reach _ [] _ _ _ _ Hw) as [a Ha]; apply Ha; rewrite any_map_eq end.
  assert (T1 : forall l r n first k, begins l 91 r -> walk 93 true (repeat holds n) r first k -> tail_of k l).
  { intros. eapply tail_trans; [eapply walk_tail; [|eassumption]; apply repeat_Forall; apply holds_tail|eapply begins_tail1; eassumption]. }
  assert (T2 : forall l r n first k, begins l 123 r -> walk 125 true (repeat holds_member n) r first k -> tail_of k l).
  { intros. eapply tail_trans; [eapply walk_tail; [|eassumption]; apply repeat_Forall; apply holds_member_tail|eapply begins_tail1; eassumption]. }
  induction H as [l Hw|l c r Hb N|l r e Hb Hf|l r e Hb Hf|l r e Hb Hf|l r e Hb Hf|l c r tok k Hb Hc Et Hr Hk Hn|l r n first k e Hb Hw Hg|l r n first k x e Hb Hw Hi Hf IH
    |l r n first k e Hb Hw Hg|l r n first k c q Hb Hw Hi N|l r n first k q e Hb Hw Hi Hf|l r n first k raw s m e Hb Hw Hi L Hf
    |l r n first k raw s m x e Hb Hw Hi L Hc Hf IH]; intros B.
  - rewrite any_eq. apply (proj1 (fails_req ar fl any_f32 dec DAny j_any_visitor l _)). cbn [js_method]. unfold j_deserialize_any. apply fails_ws; auto.
  - eapply W; [exact Hb|]. unfold value_start, is_digit in N. replace (c =? 110) with false by lia. replace ((c =? 116) || (c =? 102)) with false by lia.
    replace (c =? 34) with false by lia. replace (ascii_digit c || (c =? 45)) with false by (unfold ascii_digit; lia). replace (c =? 91) with false by lia.
    replace (c =? 123) with false by lia. apply fails_fail.
  - eapply W; [exact Hb|]. cbn [Z.eqb Pos.eqb]. eapply fails_view; [apply view_m_unit|]. intros _. apply unit_err; [eexists; reflexivity|]. eapply NF_null; eauto.
  - eapply W; [exact Hb|]. cbn [Z.eqb Pos.eqb orb]. eapply fails_view; [apply view_m_bool|]. intros _. apply bool_err; [intros b; eexists; reflexivity|]. eapply BF_true; eauto.
  - eapply W; [exact Hb|]. cbn [Z.eqb Pos.eqb orb]. eapply fails_view; [apply view_m_bool|]. intros _. apply bool_err; [intros b; eexists; reflexivity|]. eapply BF_false; eauto.
  - eapply W; [exact Hb|]. cbn [Z.eqb Pos.eqb orb]. eapply fails_view; [apply view_m_str|].
    intros _. apply p_text_err; auto. eapply tail_bytes; [eapply begins_tail1; eauto|auto].
  - eapply W; [exact Hb|]. destruct (number_none c r tok k Hc Et Hr Hk Hn) as [Ep Ev]. assert (Hd : is_digit c \/ c = 45) by auto. unfold is_digit in Hc.
    replace (c =? 110) with false by lia. replace ((c =? 116) || (c =? 102)) with false by lia. replace (c =? 34) with false by lia.
    replace (ascii_digit c || (c =? 45)) with true by (unfold ascii_digit; lia).
    exists O. intros f _ s I0 U. rewrite (any_number_run ar fl any_f32 dec c s r); auto; [|unfold number_char, ascii_digit; lia]. rewrite Ep, Ev. exists s. reflexivity.
  - eapply SQ; [exact Hb|]. any_walk. apply snext_gap; auto.
  - eapply SQ; [exact Hb|]. any_walk. eapply snext_elem; [exact Hi| |reflexivity]. apply IH; auto.
    eapply tail_bytes; [|exact B]. eapply tail_trans; [eapply item_tail; eauto|eapply T1; eauto].
  - eapply SM; [exact Hb|]. any_walk. apply mkey_gap; auto.
  - eapply SM; [exact Hb|]. any_walk. eapply mkey_kind; [exact Hi|auto|reflexivity].
  - eapply SM; [exact Hb|]. any_walk. apply (mkey_bad ar fl any_f32 dec any _ _ _ _ _ Hi); [|reflexivity]. rewrite any_eq. apply key_text; auto; [exact I|].
    eapply tail_bytes; [|exact B]. eapply tail_trans; [apply tail_cons|]. eapply tail_trans; [eapply item_tail; eauto|eapply T2; eauto].
  - eapply SM; [exact Hb|]. any_walk. eapply mkey_item; [exact Hi|eapply any_key; exact L|]. cbv beta iota. apply mval_colon; auto.
  - eapply SM; [exact Hb|]. any_walk. eapply mkey_item; [exact Hi|eapply any_key; exact L|]. cbv beta iota. eapply mval_bad; [exact Hc| |reflexivity].
    apply IH; auto. eapply tail_bytes; [|exact B]. eapply tail_trans; [eapply begins_tail1; exact Hc|]. eapply tail_trans; [apply quoted_tail|].
    eapply tail_trans; [eapply item_tail; eauto|eapply T2; eauto].
Qed.

(** ** Every input starts with a value or has a fault *)
Lemma holds_length l k : holds l k -> (length k < length l)%nat.
Proof. intros (w & d & b & v & -> & _ & H & _). rewrite !app_length. apply text_length in H. lia. Qed.
Lemma begins_holds l c r d b k v : begins l c r -> loose_text d b -> c :: r = b ++ k -> any_as v d -> cannot_extend d k -> holds l k.
Proof. intros (w & -> & Hw & _) Ht E Hs Hk. exists w, d, b, v. rewrite E. auto. Qed.
Lemma any_elems n ds : Forall2 (fun (R : jv -> Prop) d => R d) (repeat (fun d => exists v, any_as v d) n) ds -> exists l, Forall2 any_as l ds.
Proof.
  revert ds. induction n as [|n IH]; intros ds H; inversion H as [|? d ? ds' Hv H']; subst; [exists []; constructor|].
  cbv beta in Hv. destruct Hv as [v Hv]. destruct (IH _ H') as [l Hl]. exists (v :: l). constructor; auto.
Qed.
Lemma any_entries n ms : Forall2 (fun (R : bytes * jv -> Prop) d => R d) (repeat (fun m => (exists s, literal (fst m) s) /\ exists v, any_as v (snd m)) n) ms ->
  exists l, any_members fl any_f32 l ms.
Proof.
  revert ms. induction n as [|n IH]; intros ms H; inversion H as [|? d ? ms' Hv H']; subst; [exists []; constructor|].
  cbv beta in Hv. destruct Hv as [[s Hs] [v Hv]]. destruct (IH _ H') as [l Hl]. exists ((UStr s, v) :: l). constructor; auto. cbn [fst snd]. split; eauto.
Qed.
Lemma any_cases n : forall l, (length l < n)%nat -> all_bytes l -> (exists k, holds l k) \/ (exists e, any_fault l e).
Proof.
  induction n as [|n IH]; [lia|]. intros l L B. destruct (ws_cases l) as [Hw|(c & r & Hb)]; [right; eexists; apply Y_end; auto|].
  pose proof (begins_length _ _ _ Hb) as Lr. assert (Br : all_bytes r) by (eapply tail_bytes; [eapply begins_tail1; eauto|auto]).
  destruct (Z.eq_dec c 110) as [->|N1].
  { destruct (word_cases ull r) as [(k & E)|(e & Hf)]; [left; exists k|right; eexists; eapply Y_null; eauto].
    eapply begins_holds; [exact Hb|apply T_null| |apply A_null|exact I]. rewrite E. reflexivity. }
  destruct (Z.eq_dec c 116) as [->|N2].
  { destruct (word_cases rue r) as [(k & E)|(e & Hf)]; [left; exists k|right; eexists; eapply Y_true; eauto].
    eapply begins_holds; [exact Hb|apply T_true| |apply A_bool|exact I]. rewrite E. reflexivity. }
  destruct (Z.eq_dec c 102) as [->|N3].
  { destruct (word_cases alse r) as [(k & E)|(e & Hf)]; [left; exists k|right; eexists; eapply Y_false; eauto].
    eapply begins_holds; [exact Hb|apply T_false| |apply A_bool|exact I]. rewrite E. reflexivity. }
  destruct (Z.eq_dec c 34) as [->|N4].
  { destruct (text_cases r Br) as [(raw & s & k & E & Ll)|(e & He)]; [left; exists k|right; eexists; eapply Y_str; eauto].
    eapply begins_holds; [exact Hb|apply (T_str _ _ _ _ raw (34 :: raw ++ [34])); split; [reflexivity|eapply literal_span; eauto]| |apply A_str; exact Ll|exact I].
    rewrite E. cbn [app]. rewrite <- app_assoc. reflexivity. }
  destruct (Z.eq_dec c 91) as [->|N5].
  { destruct (walk_cases (fun _ : unit => holds) (fun x => exists e, any_fault x e) 93 JLeadingArrayComma JTrailingArrayComma JExpectedArrayCommaOrEnd
      (fun l => all_bytes l /\ (length l < n)%nat) ltac:(lia)) with (n := n) (first := true) (l := r) as (s & first' & k & Hw & Tk & Hk).
    - intros k l0 T [B0 L0]. split; [eapply tail_bytes; eauto|]. pose proof (tail_length _ _ T). lia.
    - intros x [Bx Lx]. destruct (IH x Lx Bx) as [(k & Hk)|H]; [left|right; auto]. exists tt, k. split; auto. split; [apply holds_tail|apply holds_length]; auto.
    - lia.
    - split; auto. lia.
    - rewrite map_repeat in Hw. destruct Hk as [(k' & Hk)|[(e & He)|(x & Hx & e & He)]]; [left|right; eexists; eapply Y_arr_gap; eauto|right; eexists; eapply Y_arr; eauto].
      exists k'. assert (V : vals holds (fun d => exists v, any_as v d)) by (intros x y (w & d & b & v & -> & H1 & H2 & H3 & _); exists w, d, b; eauto).
      destruct (walk_arr _ _ (Forall2_const vals holds _ V (length s)) _ _ _ _ Hw) as (ds & b & E & Hd & Hs). apply any_elems in Hs. destruct Hs as [vs Hs].
      destruct Hk as (w & -> & Hws & _). eapply begins_holds; [exact Hb|eapply (arr_whole ds b w); eauto| |apply A_arr; exact Hs|exact I].
      rewrite E. cbn [app]. rewrite <- !app_assoc. reflexivity. }
  destruct (Z.eq_dec c 123) as [->|N6].
  { destruct (walk_cases (fun _ : unit => holds_member) (fun x => forall c q, x = c :: q -> c <> 34 \/ (c = 34 /\ ((exists e, text_fault q e) \/
      (exists raw s m, q = raw ++ 34 :: m /\ literal raw s /\ ((exists e, colon_fault m e) \/ (exists z e, begins m 58 z /\ any_fault z e)))))) 125 JLeadingObjectComma JTrailingObjectComma JExpectedObjectCommaOrEnd
      (fun l => all_bytes l /\ (length l < n)%nat) ltac:(lia)) with (n := n) (first := true) (l := r) as (s & first' & k & Hw & Tk & Hk).
    - intros k l0 T [B0 L0]. split; [eapply tail_bytes; eauto|]. pose proof (tail_length _ _ T). lia.
    - intros x [Bx Lx]. destruct x as [|c q]; [right; intros; discriminate|]. destruct (Z.eq_dec c 34) as [->|N]; [|right; intros c' q' [= <- <-]; auto].
      assert (Bq : all_bytes q) by (inversion Bx; auto).
      destruct (text_cases q Bq) as [(raw & s & m & -> & Lr')|(e & He)]; [|right; intros c' q' [= <- <-]; right; eauto].
      destruct (colon_cases m) as [(z & Hz)|(e & He)]; [|right; intros c' q' [= <- <-]; right; split; auto; right; exists raw, s, m; eauto].
      assert (Tz : tail_of z (34 :: raw ++ 34 :: m)) by (eapply tail_trans; [eapply begins_tail1; exact Hz|apply quoted_tail]).
      pose proof (tail_length _ _ Tz) as Lz.
      destruct (IH z ltac:(lia) (tail_bytes _ _ Tz Bx)) as [(y & Hy)|(e & He)]; [|right; intros c' q' [= <- <-]; right; split; auto; right; exists raw, s, m; eauto 8].
      left. assert (M : holds_member (34 :: raw ++ 34 :: m) y) by (exists raw, s, m, z; auto). exists tt, y. split; auto. split; [apply holds_member_tail; auto|].
      apply holds_length in Hy. lia.
    - lia.
    - split; auto. lia.
    - rewrite map_repeat in Hw. destruct Hk as [(k' & Hk)|[(e & He)|(x & Hx & He)]]; [left|right; eexists; eapply Y_obj_gap; eauto|right].
      + exists k'. assert (V : mems holds_member (fun m => (exists s, literal (fst m) s) /\ exists v, any_as v (snd m))).
        { intros x y (raw & s0 & m & z & -> & Ll & (w2 & -> & H2 & _) & (w3 & d & b & v & -> & H3 & Ht & Hs & _)).
          exists raw, w2, w3, d, b. split; auto. split; [eapply literal_key; eauto|]. split; auto. split; auto. split; auto. cbn. split; eauto. }
        destruct (walk_obj _ _ (Forall2_const mems holds_member _ V (length s)) _ _ _ _ Hw) as (ds & b & E & Hd & Hs). apply any_entries in Hs. destruct Hs as [vs Hs].
        destruct Hk as (w & -> & Hws & _). eapply begins_holds; [exact Hb|eapply (obj_whole ds b w); eauto| |apply A_obj; exact Hs|exact I].
        rewrite E. cbn [app]. rewrite <- !app_assoc. reflexivity.
      + assert (X : exists c q, x = c :: q) by (destruct Hx as (c & q & -> & _); eauto). destruct X as (c & q & ->).
        destruct (He c q eq_refl) as [N|[-> [(e & Ht)|(raw & s0 & m & -> & Ll & [(e & Hc)|(z & e & Hz & Hs)])]]].
        * eexists. eapply Y_obj_key; eauto.
        * eexists. eapply Y_obj_text; eauto.
        * eexists. eapply Y_obj_colon; eauto.
        * eexists. eapply Y_obj_value; eauto. }
  destruct (ascii_digit c || (c =? 45)) eqn:E.
  { apply digit_number in E. destruct E as [E1 E2]. destruct (number_split (c :: r) c r eq_refl E1) as (tok & k & Et & Hn & Hx & Hk).
    assert (St : number_start tok) by (destruct Hx as (r' & ->); exists c, r'; auto).
    destruct (number_val fl any_f32 tok) as [v|] eqn:Ev.
    - left. exists k. eapply begins_holds; [exact Hb|apply T_num; exact Hn|exact Et|apply A_num; apply (number_val_spec fl any_f32 v tok St); exact Ev|exact Hk].
    - right. eexists. eapply Y_num; [exact Hb|exact E2|exact Et|exact Hn|exact Hk|]. intros v Hv. apply (number_val_spec fl any_f32 v tok St) in Hv. congruence. }
  right. eexists. eapply Y_kind; [exact Hb|]. unfold value_start, is_digit. unfold ascii_digit in E. lia.
Qed.
Lemma any_total l : all_bytes l -> (exists k, holds l k) \/ (exists e, any_fault l e).
Proof. apply (any_cases (S (length l))). lia. Qed.

(** ** Whole documents *)
Local Notation from_slice := (js_from_mut_slice ar fl any_f32 dec).
Local Notation fits_input input := (dec = Base64Decoder -> 3 * zlen input <= usize_max ar).
Local Notation any_document_fault := (any_document_fault any_f32 fo).
Lemma any_named_at input e : all_bytes input -> fits_input input -> any_document_fault input e ->
  exists N, forall fuel, (N <= fuel)%nat -> exists s, from_slice fuel any input = Done s (Err e).
Proof.
  intros B R [H|[-> (k & Ht & Hk)]].
  - apply top_fails; auto. apply any_fails; auto.
  - destruct (holds_eats _ _ Ht) as [v Hv]. apply (top_trailing ar fl any_f32 dec _ _ v k); auto.
Qed.
Lemma any_decided_at input fuel : all_bytes input -> fits_input input -> (6 + 3 * length input <= fuel)%nat ->
  exists s r, from_slice fuel any input = Done s r /\
  match r with
  | Ok v => exists d w1 text w2, input = w1 ++ text ++ w2 /\ any_ws w1 /\ any_ws w2 /\ loose_text d text /\ any_as v d
  | Err e => any_document_fault input e
  end.
Proof.
  intros B R Hf. destruct (JsonFuel.any_ends ar fl any_f32 dec input fuel R Hf) as (s & r & E). exists s, r. split; auto.
  assert (G : forall e, any_document_fault input e -> r = Err e).
  { intros e D. destruct (any_named_at input _ B R D) as [N HN]. destruct (HN N (le_n N)) as [s' E'].
    destruct (JsonFuel.budget_irrelevant ar fl any_f32 dec _ _ _ _ _ _ _ _ E E') as [_ ->]. reflexivity. }
  destruct (any_total input B) as [(k & Ht)|(e & He)].
  - destruct (ws_dec k) as [Hk|Hk].
    + destruct Ht as (w & d & b & v & Ei & Hw & Hb & Hr & _).
      destruct (accepts_top ar fl any_f32 dec any d v b w k) as [N HN]; auto; [apply any_accepts; auto|rewrite <- Ei; exact R|].
      destruct (HN N (le_n N)) as [s' E']. rewrite <- Ei in E'. destruct (JsonFuel.budget_irrelevant ar fl any_f32 dec _ _ _ _ _ _ _ _ E E') as [_ ->].
      exists d, w, b, k. auto.
    + assert (D : any_document_fault input JTrailingCharacters) by (right; eauto). rewrite (G _ D). exact D.
  - assert (D : any_document_fault input e) by (left; auto). rewrite (G _ D). exact D.
Qed.
End AnyFault.

Local Notation fits_input ar dec input := (dec = Base64Decoder -> 3 * zlen input <= usize_max ar).
Theorem any_named ar fl (any_f32 : bool) dec input e : all_bytes input -> fits_input ar dec input ->
  any_document_fault any_f32 (if any_f32 then f32_from_str fl else f64_from_str fl) input e ->
  exists N, forall fuel, (N <= fuel)%nat -> exists s, js_from_mut_slice ar fl any_f32 dec fuel any input = Done s (Err e).
Proof. intros B R H. apply any_named_at; auto. destruct any_f32; exact H. Qed.
Theorem any_decided ar fl (any_f32 : bool) dec input fuel : all_bytes input -> fits_input ar dec input -> (6 + 3 * length input <= fuel)%nat ->
  exists s r, js_from_mut_slice ar fl any_f32 dec fuel any input = Done s r /\
  match r with
  | Ok v => exists d w1 text w2, input = w1 ++ text ++ w2 /\ any_ws w1 /\ any_ws w2 /\ loose_text d text /\
      any_as any_f32 (if any_f32 then f32_from_str fl else f64_from_str fl) v d
  | Err e => any_document_fault any_f32 (if any_f32 then f32_from_str fl else f64_from_str fl) input e
  end.
Proof. intros B R Hf. destruct any_f32; [exact (any_decided_at ar fl true dec input fuel B R Hf)|exact (any_decided_at ar fl false dec input fuel B R Hf)]. Qed.
Theorem any_verdict_unique (any_f32 : bool) float_of input e : all_bytes input -> any_document_fault any_f32 float_of input e ->
  (forall e', any_document_fault any_f32 float_of input e' -> e' = e) /\
  (forall v d w1 text w2, input = w1 ++ text ++ w2 -> any_ws w1 -> any_ws w2 -> loose_text d text -> ~ any_as any_f32 float_of v d).
Proof.
  intros B H. set (ar := {| usize_max := 0; overflow_checks := true |}). set (fl := {| f32_from_str := float_of; f64_from_str := float_of |}).
  assert (X : float_of = any_from_str fl any_f32) by (destruct any_f32; reflexivity). rewrite X in *.
  assert (R : forall i : bytes, fits_input ar NopeDecoder i) by (intros i; discriminate).
  destruct (any_named_at ar fl any_f32 NopeDecoder input e B (R _) H) as [N HN]. destruct (HN N (le_n N)) as [s E]. split.
  - intros e' H'. destruct (any_named_at ar fl any_f32 NopeDecoder input e' B (R _) H') as [N' HN']. destruct (HN' N' (le_n N')) as [s' E'].
    destruct (JsonFuel.budget_irrelevant ar fl any_f32 NopeDecoder _ _ _ _ _ _ _ _ E E') as [_ D]. congruence.
  - intros v d w1 text w2 Ei H1 H2 Ht Hr.
    destruct (accepts_top ar fl any_f32 NopeDecoder any d v text w1 w2) as [N' HN']; auto; [apply any_accepts; auto|].
    destruct (HN' N' (le_n N')) as [s' E']. rewrite <- Ei in E'. destruct (JsonFuel.budget_irrelevant ar fl any_f32 NopeDecoder _ _ _ _ _ _ _ _ E E') as [_ D]. discriminate.
Qed.

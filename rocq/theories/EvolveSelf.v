(** Values read by the type that wrote them, and by one with other fields (C68). *)
From Verif Require Import Prelude PreludeFacts Utf8Spec SerdeSer SerdeDe MpSpec JsonSpec FloatOps Types TypesFacts MpTypeSpec JsonTypeSpec MpTyped MpSerSim MpTypedSer EvolveSpec EvolveFacts.

Lemma fits_fields_of look (absent : bytes * fattr * ty -> val -> Prop) fs : forall (ps : list (val -> sval -> Prop)) l k, length ps = length fs -> length l = length fs ->
  (forall i f p v, nth_error fs i = Some f -> nth_error ps i = Some p -> nth_error l i = Some v ->
     match look (k + i)%nat (name_of f) with Some x => p v x | None => absent f v end) -> fits_fields look absent k fs ps l.
Proof.
  induction fs as [|f fs IH]; intros [|p ps] [|v l] k L1 L2 H; cbn in L1, L2; try discriminate; cbn; auto. split.
  - specialize (H 0%nat f p v eq_refl eq_refl eq_refl). rewrite Nat.add_0_r in H. exact H.
  - apply IH; try lia. intros i f' p' v' E1 E2 E3. specialize (H (S i) f' p' v' E1 E2 E3). replace (k + S i)%nat with (S k + i)%nat in H by lia. exact H.
Qed.
Lemma zip_nth {A B C} (g : A -> B -> C) l : forall m i, length m = length l -> nth_error (zip g l m) i =
  match nth_error l i, nth_error m i with Some a, Some b => Some (g a b) | _, _ => None end.
Proof. induction l as [|a l IH]; intros [|b m] [|i] H; cbn in *; try discriminate; auto. Qed.
Lemma zip_fst fs : forall l, length l = length fs -> map fst (zip item fs l) = map name_of fs.
Proof. induction fs as [|f fs IH]; intros [|v l] H; cbn in *; try discriminate; auto. rewrite IH; auto. Qed.
Lemma written_nodup its : NoDup (map fst its) -> NoDup (map fst (written its)).
Proof.
  unfold written. induction its as [|[n [x|]] its IH]; cbn; intros H; inversion H as [|? ? N1 N2]; subst; [constructor| |auto].
  constructor; auto. intros I. apply N1. apply in_map_iff in I. destruct I as ([m y] & E & I). cbn in E. subst m. apply written_in in I. apply (in_map fst) in I. exact I.
Qed.
Lemma written_len its : (length (written its) <= length its)%nat.
Proof. unfold written. induction its as [|[n [x|]] its IH]; cbn; lia. Qed.
Lemma nth_nodup {A} (l : list A) i j a : NoDup l -> nth_error l i = Some a -> nth_error l j = Some a -> i = j.
Proof. intros N H1 H2. rewrite NoDup_nth_error in N. apply N; [apply nth_error_Some; congruence|congruence]. Qed.

Section S.
Context (st : style) (null : sval -> bool) (f32_as f64_as : sval -> Z -> Prop) (text : sval -> option bytes) (keys : option (ty -> val -> sval -> Prop))
  (img : ty -> val -> val) (nul : ty -> val -> bool) (K : ty -> Prop).
Local Notation F := (fits st null f32_as f64_as text keys).
Context
  (Inull : forall t v, hastype t v -> null (bare (trace t v)) = nul t v)
  (Inil : null SUnit = true /\ null SUnitStruct = true /\ null SNone = true)
  (If32 : forall b, 0 <= b < 2 ^ 32 -> exists w, img TF32 (UF32 b) = UF32 w /\ f32_as (SF32 b) w)
  (If64 : forall b, 0 <= b < 2 ^ 64 -> exists w, img TF64 (UF64 b) = UF64 w /\ f64_as (SF64 b) w)
  (Istr : forall s, text (SStr s) = Some s) (Ichar : forall c, text (SChar c) = Some (utf8_char c))
  (Ileaf : forall t v, match t with TBool | TInt _ | TChar | TStr | TBytes | TUnit | TUnitStruct => True | _ => False end -> img t v = v)
  (Inone : forall t, img (TOption t) UNone = UNone)
  (Isome : forall t v, img (TOption t) (USome v) = if nul t v then UNone else USome (img t v))
  (Inewtype : forall t v, img (TNewtype t) v = img t v)
  (Iseq : forall t l, img (TSeq t) (USeq l) = USeq (map (img t) l))
  (Ituple : forall ts l, img (TTuple ts) (USeq l) = USeq (zip (fun f v => f v) (map img ts) l))
  (Itstruct : forall ts l, img (TTupleStruct ts) (USeq l) = USeq (zip (fun f v => f v) (map img ts) l))
  (Imap : forall k t l, exists h, img (TMap k t) (UMap l) = UMap (map (fun e => (h (fst e), img t (snd e))) l) /\
     (wf k -> K (TMap k t) -> (wf k -> K k -> forall v, hastype k v -> F k (img k v) (trace k v)) -> forall v, hastype k v ->
        match keys with Some p => p k (h v) (trace k v) | None => F k (h v) (trace k v) end))
  (Istruct : forall fs l, img (TStruct fs) (USeq l) = USeq (zip (fun f v => if skipped (attr_of f) v then v else img (snd f) v) fs l))
  (Ienum : forall vs i v, img (TEnum vs) (UVar i v) = match nth_error vs i with Some f => UVar i (img (snd f) v) | None => UVar i v end)
  (Kopt : forall t, K (TOption t) -> K t) (Knew : forall t, K (TNewtype t) -> K t) (Kseq : forall t, K (TSeq t) -> K t)
  (Ktup : forall ts, K (TTuple ts) -> Forall K ts) (Ktst : forall ts, K (TTupleStruct ts) -> Forall K ts)
  (Kmap : forall k t, K (TMap k t) -> K t) (Kstr : forall fs, K (TStruct fs) -> Forall (fun f => K (snd f)) fs) (Kenu : forall vs, K (TEnum vs) -> Forall (fun f => K (snd f)) vs).
Definition self t : Prop := wf t -> K t -> forall v, hastype t v -> F t (img t v) (trace t v).

(** Reading a struct written with the fields [fs] as one with the fields [fs']. *)
Lemma by_name fs fs' l l' : names_ok (map name_of fs) -> length l = length fs -> fields_by_name img fs l fs' l' ->
  (forall f v, In f fs -> In v l -> (exists i, nth_error fs i = Some f /\ nth_error l i = Some v) -> F (snd f) (img (snd f) v) (trace (snd f) v)) ->
  NoDup (map fst (written (zip item fs l))) /\
  fits_fields (field_named (written (zip item fs l))) absent_ok 0 fs' (map (fun f => F (snd f)) fs') l'.
Proof.
  intros (Hnd & _) L [L' H] Hs. pose proof (written_nodup (zip item fs l)) as Hw. rewrite zip_fst in Hw by auto. specialize (Hw Hnd). split; auto.
  apply fits_fields_of; [apply map_length|auto|]. intros i f' p v' E1 E2 E3. rewrite nth_error_map, E1 in E2. injection E2 as <-. cbn [Nat.add].
  destruct (H i f' v' E1 E3) as [(j & f & v & F1 & F2 & En & C1 & C2)|[N A]].
  - assert (I : nth_error (zip item fs l) j = Some (name_of f, if skipped (attr_of f) v then None else Some (trace (snd f) v))) by (rewrite zip_nth, F1, F2; auto).
    destruct (skipped (attr_of f) v) eqn:Sk.
    + destruct (field_named _ i (name_of f')) as [x|] eqn:Lk; auto. apply field_named_in, written_in, In_nth_error in Lk. destruct Lk as [k Lk].
      assert (j = k); [|subst k; rewrite Lk in I; discriminate I]. apply (nth_nodup (map name_of fs) j k (name_of f)); auto.
      * rewrite nth_error_map, F1. auto.
      * rewrite <- (zip_fst fs l L), nth_error_map, Lk. cbn. congruence.
    + rewrite (field_named_of _ i (name_of f') (trace (snd f) v)); auto; [|apply written_in; rewrite <- En; eapply nth_error_In; eauto].
      subst v'. rewrite C1. apply Hs; eauto using nth_error_In.
  - destruct (field_named _ i (name_of f')) as [x|] eqn:Lk; auto. apply field_named_in, written_in in Lk. destruct N. rewrite <- (zip_fst fs l L). apply (in_map fst) in Lk. exact Lk.
Qed.
Lemma by_position absent fs fs' l l' : length l = length fs -> fields_by_position img absent fs l fs' l' ->
  (forall f v, In f fs -> In v l -> (exists i, nth_error fs i = Some f /\ nth_error l i = Some v) -> F (snd f) (img (snd f) v) (trace (snd f) v)) ->
  fits_fields (field_at (zip item fs l)) absent 0 fs' (map (fun f => F (snd f)) fs') l'.
Proof.
  intros L [L' H] Hs. apply fits_fields_of; [apply map_length|auto|]. intros i f' p v' E1 E2 E3. rewrite nth_error_map, E1 in E2. injection E2 as <-. cbn [Nat.add].
  specialize (H i f' v' E1 E3). unfold field_at. rewrite zip_nth by auto. destruct (nth_error fs i) as [f|] eqn:F1; auto. destruct (nth_error l i) as [v|] eqn:F2; auto.
  destruct H as [C1 C2]. cbn [item]. destruct (skipped (attr_of f) v); auto. subst v'. rewrite C1. apply Hs; eauto using nth_error_In.
Qed.
Lemma field_self fs l : Forall (fun f => self (snd f)) fs -> wf (TStruct fs) -> K (TStruct fs) -> hastype (TStruct fs) (USeq l) ->
  forall f v, In f fs -> In v l -> (exists i, nth_error fs i = Some f /\ nth_error l i = Some v) -> F (snd f) (img (snd f) v) (trace (snd f) v).
Proof.
  intros IH [_ Hw] Hk H f v If _ (i & E1 & E2). rewrite Forall_forall in IH. apply IH; auto.
  - apply all_list_Forall in Hw. rewrite Forall_forall in Hw. apply Hw; auto.
  - apply Kstr in Hk. rewrite Forall_forall in Hk. auto.
  - cbn in H. clear - H E1 E2. revert l i H E1 E2. induction fs as [|g fs IH]; intros [|w l] [|i] H E1 E2; cbn in *; try discriminate; try tauto.
    + injection E1 as <-. injection E2 as <-. tauto.
    + eapply IH; eauto. tauto.
Qed.
Lemma struct_len fs l : hastype (TStruct fs) (USeq l) -> length l = length fs.
Proof. cbn. intros H. apply all2_length in H. rewrite map_length in H. auto. Qed.
Lemma struct_as_map fs fs' l l' : st = SNameMap -> Forall (fun f => self (snd f)) fs -> wf (TStruct fs) -> K (TStruct fs) -> hastype (TStruct fs) (USeq l) ->
  fields_by_name img fs l fs' l' -> F (TStruct fs') (USeq l') (trace (TStruct fs) (USeq l)).
Proof.
  intros Hs IH W Hk H R. pose proof (by_name fs fs' l l' (proj1 W) (struct_len fs l H) R (field_self fs l IH W Hk H)) as X.
  cbn [fits trace]. unfold struct_call. cbn [bare]. rewrite zip_map. fold item. clear - X Hs. destruct st; try discriminate. exact X.
Qed.
Lemma struct_as_array fs fs' l l' : st = SArray -> Forall (fun f => self (snd f)) fs -> wf (TStruct fs) -> K (TStruct fs) -> hastype (TStruct fs) (USeq l) ->
  (length fs <= length fs')%nat -> fields_by_position img has_default fs l fs' l' -> F (TStruct fs') (USeq l') (trace (TStruct fs) (USeq l)).
Proof.
  intros Hs IH W Hk H Hl R. pose proof (by_position has_default fs fs' l l' (struct_len fs l H) R (field_self fs l IH W Hk H)) as X.
  pose proof (written_len (zip item fs l)) as Y. pose proof (struct_len fs l H). rewrite zip_len in Y by auto.
  cbn [fits trace]. unfold struct_call. cbn [bare]. rewrite zip_map. fold item. clear - X Hs Y Hl. destruct st; try discriminate. split; [lia|exact X].
Qed.
Lemma struct_as_index fs fs' l l' : st = SIndexMap -> Forall (fun f => self (snd f)) fs -> wf (TStruct fs) -> K (TStruct fs) -> hastype (TStruct fs) (USeq l) ->
  fields_by_position img absent_ok fs l fs' l' -> F (TStruct fs') (USeq l') (trace (TStruct fs) (USeq l)).
Proof.
  intros Hs IH W Hk H R. pose proof (by_position absent_ok fs fs' l l' (struct_len fs l H) R (field_self fs l IH W Hk H)) as X.
  cbn [fits trace]. unfold struct_call. cbn [bare]. rewrite zip_map. fold item. clear - X Hs. destruct st; try discriminate. exact X.
Qed.

(** [Some] and newtypes do not matter. *)
Lemma fits_bare t : forall v x y, bare x = bare y -> F t v x -> F t v y.
Proof.
  induction t as [ |k| | | | | | | |t IH|t IH|t IH|ts IH|ts IH|kt vt IHk IHv|fs IH|vs IH] using ty_ind'; intros v x y E;
    try (destruct v; cbn [fits]; try contradiction; rewrite E; auto; fail).
  - destruct v; cbn [fits]; try contradiction; rewrite E; auto. intros [H1 H2]. split; eauto.
  - destruct v; cbn [fits]; eauto.
Qed.
Lemma variant_cases i n k ct v : kind_ok k ct -> k <> KUnit -> hastype ct v -> variant_of (bare (variant_call i n k (trace ct v))) = Some (Z.of_nat i, n, trace ct v).
Proof.
  intros A N H. unfold variant_call. destruct k; try congruence; auto.
  - destruct ct; try (cbn in A; tauto). destruct v; cbn in H; try contradiction; reflexivity.
  - destruct ct; try (cbn in A; tauto). destruct v; cbn in H; try contradiction; reflexivity.
Qed.

Theorem reads_itself t : self t.
Proof.
  unfold self. induction t as [ |k| | | | | | | |t IH|t IH|t IH|ts IH|ts IH|kt vt IHk IHv|fs IH|vs IH] using ty_ind'; intros Hw Hk v H.
  11:{ rewrite Inewtype. assert (X : F t (img t v) (trace t v)) by (apply IH; auto). apply (fits_bare t _ _ (trace (TNewtype t) v)) in X; [|reflexivity]. destruct (img t v); exact X. }
  all: destruct v; cbn [hastype] in H; try tauto.
  - rewrite Ileaf by exact I. reflexivity.
  - rewrite Ileaf by exact I. split; [exact H|]. eexists. reflexivity.
  - destruct (If32 _ H) as (w & -> & Hf). exact Hf.
  - destruct (If64 _ H) as (w & -> & Hf). exact Hf.
  - rewrite Ileaf by exact I. split; [exact H|]. apply Ichar.
  - rewrite Ileaf by exact I. apply Istr.
  - rewrite Ileaf by exact I. reflexivity.
  - rewrite Ileaf by exact I. apply Inil.
  - rewrite Ileaf by exact I. apply Inil.
  - rewrite Inone. apply Inil.
  - rewrite Isome. destruct (nul t v) eqn:N.
    + cbn [fits trace bare]. rewrite Inull; auto.
    + cbn [fits trace bare]. split; [rewrite Inull; auto|]. apply (fits_bare t _ (trace t v)); [reflexivity|]. apply IH; auto.
  - rewrite Iseq. cbn [fits trace bare items_of]. eexists. split; [reflexivity|]. destruct H as [H _]. apply Kseq in Hk. induction H; cbn [map]; constructor; auto.
  - rewrite Ituple. cbn [fits trace bare items_of]. eexists. split; [reflexivity|]. destruct Hw as [Hw _]. apply Ktup in Hk.
    revert l H. induction IH as [|t ts Ht _ IHt]; intros [|v l] H; cbn in H; try tauto; cbn; auto. inversion Hk; subst. cbn in Hw. split; [apply Ht; tauto|apply IHt; tauto].
  - rewrite Itstruct. cbn [fits trace bare items_of]. eexists. split; [reflexivity|]. destruct Hw as [Hw _]. apply Ktst in Hk.
    revert l H. induction IH as [|t ts Ht _ IHt]; intros [|v l] H; cbn in H; try tauto; cbn; auto. inversion Hk; subst. cbn in Hw. split; [apply Ht; tauto|apply IHt; tauto].
  - destruct (Imap kt vt l) as (h & -> & Hh). destruct H as [H _], Hw as [W1 W2]. specialize (Hh W1 Hk IHk). apply Kmap in Hk.
    cbn [fits trace bare]. exists (map (fun e => (trace kt (fst e), trace vt (snd e))) l). split.
    + cbn [entries_of]. clear. induction l as [|e l IH]; [reflexivity|]. cbn [flat_map app pair_up map]. rewrite IH. reflexivity.
    + induction H as [|e l [H1 H2] _ IHl]; cbn [map]; constructor; auto. cbn [fst snd]. split; [exact (Hh _ H1)|apply IHv; auto].
  - rewrite Istruct. assert (L : length l = length fs). { apply all2_length in H. rewrite map_length in H. auto. }
    assert (P : forall absent : bytes * fattr * ty -> val -> Prop, (forall f v, skipped (attr_of f) v = true -> absent f v) ->
      fields_by_position img absent fs l fs (zip (fun f v => if skipped (attr_of f) v then v else img (snd f) v) fs l)).
    { intros absent Ha. split; [rewrite zip_len; auto|]. intros i f' v' E1 E2. rewrite zip_nth, E1 in E2 by auto. rewrite E1. destruct (nth_error l i) as [v|]; [|discriminate]. injection E2 as <-.
      split; auto. destruct (skipped (attr_of f') v) eqn:Sk; auto. }
    assert (Ha : forall f v, skipped (attr_of f) v = true -> absent_ok f v) by (intros f v Sk; unfold absent_ok; rewrite (skipped_eq f v Sk); auto).
    assert (Hs : st = SArray \/ st = SIndexMap \/ st = SNameMap) by (clear; destruct st; auto). destruct Hs as [Hs|[Hs|Hs]].
    + apply struct_as_array; auto. apply P. intros f v Sk. apply skipped_eq. auto.
    + apply struct_as_index; auto.
    + apply struct_as_map; auto. destruct (P absent_ok Ha) as [P1 P2]. split; auto. intros i f' v' E1 E2. left. specialize (P2 i f' v' E1 E2). rewrite E1 in P2.
      destruct (nth_error l i) as [v|] eqn:E3; [|rewrite zip_nth, E1, E3 in E2 by auto; discriminate]. exists i, f', v. auto.
  - cbn [hastype] in H. rewrite nth_error_map in H. rewrite Ienum. destruct (nth_error vs i) as [[[n k] ct]|] eqn:E; cbn [option_map] in H; [|tauto]. cbn [snd] in *.
    destruct Hw as [_ Hw]. apply Kenu in Hk. pose proof (nth_error_In _ _ E) as Hin. assert (A : wf ct /\ kind_ok k ct) by (apply (all_list_In' _ _ Hw _ Hin)).
    assert (X : F ct (img ct v) (trace ct v)). { rewrite Forall_forall in IH, Hk. apply (IH _ Hin); [apply A|apply (Hk _ Hin)|exact H]. }
    assert (S1 : same_variant st (map name_of vs) i (Z.of_nat i) n).
    { unfold same_variant. assert ((i < length vs)%nat) by (apply nth_error_Some; congruence). destruct st; [split; [auto|rewrite map_length; auto]|split; [auto|rewrite map_length; auto]|rewrite nth_error_map, E; auto]. }
    cbn [fits trace]. rewrite !nth_error_map, E. cbn [option_map name_of attr_of fst snd].
    destruct k; [|exists (Z.of_nat i), n, (trace ct v); split; [apply variant_cases; [apply A|discriminate|exact H]|split; [exact S1|exact X]]..].
    cbn [variant_call bare]. destruct ct; cbn in A; try tauto. destruct v; cbn in H; try tauto. rewrite Ileaf by exact I. split; auto.
Qed.
End S.

(** ** MessagePack *)
Section Mp.
Context (st : style) (fo : float_ops).
Lemma mp_null_trace t : forall v, hastype t v -> mp_null (bare (trace t v)) = nullish t v.
Proof.
  induction t as [ |k| | | | | | | |t IH|t IH|t IH|ts IH|ts IH|kt vt IHk IHv|fs IH|vs IH] using ty_ind'; intros v H;
    try (destruct v; cbn [hastype] in H; try contradiction; reflexivity).
  - destruct v; cbn [hastype] in H; try contradiction; [reflexivity|]. exact (IH v H).
  - cbn [hastype] in H. assert (E : nullish (TNewtype t) v = nullish t v) by (destruct v; reflexivity). rewrite E. exact (IH v H).
  - destruct v; cbn [hastype] in H; try contradiction. cbn [trace nullish]. rewrite nth_error_map in *. destruct (nth_error vs i) as [[[n k] ct]|]; [|contradiction].
    cbn. destruct k; auto; destruct (trace ct v); auto.
Qed.

Local Notation img := (collapse nullish).
Lemma mp_map k t l : exists h, img (TMap k t) (UMap l) = UMap (map (fun e => (h (fst e), img t (snd e))) l) /\
     (wf k -> True -> (wf k -> True -> forall v, hastype k v -> mp_fits fo st k (img k v) (trace k v)) -> forall v, hastype k v -> mp_fits fo st k (h v) (trace k v)).
Proof. exists (img k). split; [reflexivity|]. auto. Qed.
Lemma mp_enum vs i v : img (TEnum vs) (UVar i v) = match nth_error vs i with Some f => UVar i (img (snd f) v) | None => UVar i v end.
Proof. cbn [collapse]. rewrite nth_error_map. destruct (nth_error vs i); reflexivity. Qed.
Lemma mp_struct fs l : img (TStruct fs) (USeq l) = USeq (zip (fun f v => if skipped (attr_of f) v then v else img (snd f) v) fs l).
Proof. cbn [collapse]. rewrite zip_map. reflexivity. Qed.
Lemma mp_new t v : img (TNewtype t) v = img t v.
Proof. destruct v; reflexivity. Qed.
Lemma mp_leaf t v : match t with TBool | TInt _ | TChar | TStr | TBytes | TUnit | TUnitStruct => True | _ => False end -> img t v = v.
Proof. destruct t; try contradiction; reflexivity. Qed.
Lemma all_true {A} (l : list A) : Forall (fun _ => True) l.
Proof. induction l; auto. Qed.

Theorem mp_self t : wf t -> forall v, hastype t v -> mp_fits fo st t (collapse nullish t v) (trace t v).
Proof.
  intros W v H. apply (reads_itself st mp_null (mp_f32_as fo) (mp_f64_as fo) (mp_text st) None img nullish (fun _ => True));
    eauto using mp_null_trace, mp_map, mp_enum, mp_struct, mp_new, mp_leaf, all_true; cbn; eauto.
Qed.
Theorem mp_by_name fs fs' l l' : st = SNameMap -> wf (TStruct fs) -> hastype (TStruct fs) (USeq l) -> fields_by_name (collapse nullish) fs l fs' l' ->
  mp_fits fo st (TStruct fs') (USeq l') (trace (TStruct fs) (USeq l)).
Proof.
  intros Hs W H R. apply (struct_as_map st mp_null (mp_f32_as fo) (mp_f64_as fo) (mp_text st) None img (fun _ => True)); auto using all_true.
  apply Forall_forall. intros f _ Wf _ v Hv. apply mp_self; auto.
Qed.
Theorem mp_by_index fs fs' l l' : st = SIndexMap -> wf (TStruct fs) -> hastype (TStruct fs) (USeq l) -> fields_by_position (collapse nullish) absent_ok fs l fs' l' ->
  mp_fits fo st (TStruct fs') (USeq l') (trace (TStruct fs) (USeq l)).
Proof.
  intros Hs W H R. apply (struct_as_index st mp_null (mp_f32_as fo) (mp_f64_as fo) (mp_text st) None img (fun _ => True)); auto using all_true.
  apply Forall_forall. intros f _ Wf _ v Hv. apply mp_self; auto.
Qed.
Theorem mp_by_position fs fs' l l' : st = SArray -> wf (TStruct fs) -> hastype (TStruct fs) (USeq l) -> (length fs <= length fs')%nat ->
  fields_by_position (collapse nullish) has_default fs l fs' l' ->
  mp_fits fo st (TStruct fs') (USeq l') (trace (TStruct fs) (USeq l)).
Proof.
  intros Hs W H L R. apply (struct_as_array st mp_null (mp_f32_as fo) (mp_f64_as fo) (mp_text st) None img (fun _ => True)); auto using all_true.
  apply Forall_forall. intros f _ Wf _ v Hv. apply mp_self; auto.
Qed.
End Mp.

(** ** JSON *)
Section Js.
Context (print32 print64 : Z -> bytes) (parse32 parse64 : bytes -> option Z)
  (L32 : forall b, 0 <= b < 2 ^ 32 -> finite32 b -> parse32 (print32 b) = Some (f32_image b))
  (L64 : forall b, 0 <= b < 2 ^ 64 -> finite64 b -> parse64 (print64 b) = Some (f64_image b)).
Local Notation JF := (js_fits print32 print64 parse32 parse64).
Local Notation a32 := (js_float_as print32 print64 parse32 0x7fc00000).
Local Notation a64 := (js_float_as print32 print64 parse64 0x7ff8000000000000).
Lemma js_null_trace t : forall v, hastype t v -> js_null (bare (trace t v)) = json_null t v.
Proof.
  induction t as [ |k| | | | | | | |t IH|t IH|t IH|ts IH|ts IH|kt vt IHk IHv|fs IH|vs IH] using ty_ind'; intros v H;
    try (destruct v; cbn [hastype] in H; try contradiction; reflexivity).
  - destruct v; cbn [hastype] in H; try contradiction; [reflexivity|]. exact (IH v H).
  - cbn [hastype] in H. assert (E : json_null (TNewtype t) v = json_null t v) by (destruct v; reflexivity). rewrite E. exact (IH v H).
  - destruct v; cbn [hastype] in H; try contradiction. cbn [trace json_null]. rewrite nth_error_map in *. destruct (nth_error vs i) as [[[n k] ct]|]; [|contradiction].
    cbn. destruct k; auto; destruct (trace ct v); auto.
Qed.
Lemma js_f32 b : 0 <= b < 2 ^ 32 -> exists w, json_image TF32 (UF32 b) = UF32 w /\ a32 (SF32 b) w.
Proof.
  intros H. exists (f32_image b). split; [reflexivity|]. unfold js_float_as. destruct (b / 2 ^ 23 mod 256 =? 255) eqn:N.
  - left. split; [exact N|]. unfold f32_image. rewrite N. reflexivity.
  - right. split; [exact N|]. eexists. split; [reflexivity|]. apply L32; auto. unfold finite32. lia.
Qed.
Lemma js_f64 b : 0 <= b < 2 ^ 64 -> exists w, json_image TF64 (UF64 b) = UF64 w /\ a64 (SF64 b) w.
Proof.
  intros H. exists (f64_image b). split; [reflexivity|]. unfold js_float_as. destruct (b / 2 ^ 52 mod 2048 =? 2047) eqn:N.
  - left. split; [exact N|]. unfold f64_image. rewrite N. reflexivity.
  - right. split; [exact N|]. eexists. split; [reflexivity|]. apply L64; auto. unfold finite64. lia.
Qed.
Lemma js_map k t l : exists h, json_image (TMap k t) (UMap l) = UMap (map (fun e => (h (fst e), json_image t (snd e))) l) /\
     (wf k -> good_keys (TMap k t) -> (wf k -> good_keys k -> forall v, hastype k v -> JF k (json_image k v) (trace k v)) -> forall v, hastype k v -> js_key_as k (h v) (trace k v)).
Proof.
  exists (fun v => v). split; [reflexivity|]. intros W [G _] _ v H. destruct k; cbn [key_type] in G; try contradiction; destruct v; cbn [hastype] in H; try contradiction; cbn [js_key_as trace key_doc]; auto.
  rewrite nth_error_map in *. destruct (nth_error vs i) as [[[n k] ct]|] eqn:E; cbn [option_map] in H; [|contradiction]. pose proof (nth_error_In _ _ E) as Hin.
  pose proof (all_list_In' _ _ G _ Hin) as Ak. cbn in Ak. subst k. destruct W as [_ W]. pose proof (all_list_In' _ _ W _ Hin) as A. cbn in A, H.
  destruct ct; try tauto. destruct v; try contradiction. split; auto. exists n. split; auto. rewrite nth_error_map, E. reflexivity.
Qed.
Lemma js_enum vs i v : json_image (TEnum vs) (UVar i v) = match nth_error vs i with Some f => UVar i (json_image (snd f) v) | None => UVar i v end.
Proof. cbn [json_image]. rewrite nth_error_map. destruct (nth_error vs i); reflexivity. Qed.
Lemma js_struct fs l : json_image (TStruct fs) (USeq l) = USeq (zip (fun f v => if skipped (attr_of f) v then v else json_image (snd f) v) fs l).
Proof. cbn [json_image]. rewrite zip_map. reflexivity. Qed.
Lemma js_new t v : json_image (TNewtype t) v = json_image t v.
Proof. destruct v; reflexivity. Qed.
Lemma js_leaf t v : match t with TBool | TInt _ | TChar | TStr | TBytes | TUnit | TUnitStruct => True | _ => False end -> json_image t v = v.
Proof. destruct t; try contradiction; reflexivity. Qed.
Lemma js_tuple_keys ts : all_list good_keys ts -> Forall good_keys ts.
Proof. apply all_list_Forall. Qed.
Lemma js_field_keys {A} (fs : list (bytes * A * ty)) : all_list (fun f => good_keys (snd f)) fs -> Forall (fun f => good_keys (snd f)) fs.
Proof. apply all_list_Forall. Qed.

Theorem js_self t : wf t -> good_keys t -> forall v, hastype t v -> JF t (json_image t v) (trace t v).
Proof.
  intros W G v H. apply (reads_itself SNameMap js_null a32 a64 js_text (Some js_key_as) json_image json_null good_keys);
    eauto using js_null_trace, js_map, js_enum, js_struct, js_new, js_leaf, js_f32, js_f64, js_tuple_keys, js_field_keys; cbn; auto; try tauto.
Qed.
Theorem js_by_name fs fs' l l' : wf (TStruct fs) -> good_keys (TStruct fs) -> hastype (TStruct fs) (USeq l) -> fields_by_name json_image fs l fs' l' ->
  JF (TStruct fs') (USeq l') (trace (TStruct fs) (USeq l)).
Proof.
  intros W G H R. apply (struct_as_map SNameMap js_null a32 a64 js_text (Some js_key_as) json_image good_keys); auto using js_field_keys.
  apply Forall_forall. intros f _ Wf Gf v Hv. apply js_self; auto.
Qed.
End Js.

(** What the MessagePack serializers output for a typed value is an admissible
    encoding of that value (C21, C49). *)
From Verif Require Import Prelude PreludeFacts Utf8 Utf8Spec Utf8Facts Writer SerMonad SerdeSer MpMagick MpSpec MpSer
  MpErrMap MpSerSim MpSerProofs FloatOps Types MpTypeSpec.
Ltac Zify.zify_post_hook ::= Z.div_mod_to_equations.

(** Equality of values is decided by [val_eqb]. *)
Lemma list_eqb_eq {A} (f : A -> A -> bool) l : (forall x, In x l -> forall y, f x y = true -> x = y) ->
  forall m, list_eqb f l m = true -> l = m.
Proof.
  induction l as [|a l IH]; intros Hf [|b m] H; cbn in H; try discriminate; auto.
  apply andb_prop in H. destruct H as [H1 H2]. f_equal; [apply Hf; [left|]; auto|].
  apply IH; auto. intros x Hx. apply Hf. right. auto.
Qed.
Fixpoint val_eqb_eq (a b : val) {struct a} : val_eqb a b = true -> a = b.
Proof.
  destruct a, b; cbn [val_eqb]; intros H; try discriminate H; try reflexivity.
  - apply Bool.eqb_prop in H. congruence.
  - apply Z.eqb_eq in H. congruence.
  - apply Z.eqb_eq in H. congruence.
  - apply Z.eqb_eq in H. congruence.
  - apply Z.eqb_eq in H. congruence.
  - f_equal. eapply list_eqb_eq; [|exact H]. intros x _ y. apply Z.eqb_eq.
  - f_equal. eapply list_eqb_eq; [|exact H]. intros x _ y. apply Z.eqb_eq.
  - f_equal. exact (val_eqb_eq a b H).
  - f_equal. revert l0 H. induction l as [|x l IH]; intros [|y m] H; cbn in H; try discriminate H; try reflexivity.
    apply andb_prop in H. destruct H as [H1 H2]. f_equal; [exact (val_eqb_eq x y H1)|exact (IH m H2)].
  - f_equal. revert l0 H. induction l as [|[x x'] l IH]; intros [|[y y'] m] H; cbn in H; try discriminate H; try reflexivity.
    apply andb_prop in H. destruct H as [H1 H2]. apply andb_prop in H1. destruct H1 as [H0 H1].
    f_equal; [|exact (IH m H2)]. f_equal; [exact (val_eqb_eq x y H0)|exact (val_eqb_eq x' y' H1)].
  - apply andb_prop in H. destruct H as [H1 H2]. apply Nat.eqb_eq in H1. f_equal; [exact H1|exact (val_eqb_eq a b H2)].
  - f_equal. destruct o, o0; cbn in H; try discriminate; auto. apply Nat.eqb_eq in H. congruence.
Qed.

Ltac tf_case k n E :=
  let H := fresh "R" in
  destruct (try_from k n) eqn:E;
    [apply try_from_some in E; destruct E as [-> H]; unfold in_ikind in H; cbn [imin imax] in H
    |apply try_from_none in E; unfold in_ikind in E; cbn [imin imax] in E].

Lemma cons_inj {A} (a b : A) l m : a :: l = b :: m -> a = b /\ l = m.
Proof. intros H. split; congruence. Qed.

Section T.
Context {E : Type} (cfg : mp_cfg) (fl : flavour) (fo : float_ops) (skips : Prop).
Local Notation X := (mp_ser_error E).
Local Notation VW := (@VecWriter E).
Local Notation ser := (mp_ser VW cfg fl).

(** [m] succeeds with an output satisfying [P]; compact mode may fail
    when fields are skipped. *)
Definition sok {A} (m : SM bytes X A) (a : A) (P : bytes -> Prop) : Prop :=
  (exists out, emits m out (Ok a) /\ P out) \/ ((fl = Compact /\ skips) /\ errs m).

Lemma sok_emits {A} (m : SM bytes X A) a out (P : bytes -> Prop) : emits m out (Ok a) -> P out -> sok m a P.
Proof. left. eauto. Qed.
Lemma sok_ext {A} (m m' : SM bytes X A) a P : (forall w, m w = m' w) -> sok m a P -> sok m' a P.
Proof.
  intros H [(out & He & Hp)|(Hc & o & e & He)]; [left; exists out|right; split; auto; exists o, e]; try split; auto;
    intros w; rewrite <- H; apply He.
Qed.
Lemma sok_bind {A B} (m : SM bytes X A) (f : A -> SM bytes X B) a b P Q (R : bytes -> Prop) :
  sok m a P -> sok (f a) b Q -> (forall x y, P x -> Q y -> R (x ++ y)) -> sok (sbind m f) b R.
Proof.
  intros [(o1 & H1 & P1)|(Hc & H1)] Hf Hr.
  - destruct Hf as [(o2 & H2 & P2)|(Hc & H2)].
    + left. exists (o1 ++ o2). split; [eapply emits_bind; eauto|auto].
    + right. split; auto. eapply errs_bind2; eauto.
  - right. split; auto. apply errs_bind1. auto.
Qed.
Definition cat (P Q : bytes -> Prop) (out : bytes) : Prop := exists x y, out = x ++ y /\ P x /\ Q y.
Lemma sok_cat {A B} (m : SM bytes X A) (f : A -> SM bytes X B) a b P Q :
  sok m a P -> sok (f a) b Q -> sok (sbind m f) b (cat P Q).
Proof. intros Hm Hf. eapply sok_bind; eauto. intros x y Hx Hy. exists x, y. auto. Qed.
Lemma sok_ret {A} (a : A) : sok (sret a) a (fun b => b = []).
Proof. apply (sok_emits _ _ []); auto using emits_ret. Qed.
Lemma sok_imp {A} (m : SM bytes X A) a (P Q : bytes -> Prop) : sok m a P -> (forall b, P b -> Q b) -> sok m a Q.
Proof. intros [(out & H1 & H2)|H] HQ; [left; eauto|right; auto]. Qed.
Lemma sok_bind_ret {A B} (m : SM bytes X A) a (f : A -> B) P : sok m a P -> sok (sbind m (fun a => sret (f a))) (f a) P.
Proof. intros H. eapply sok_bind; [exact H|apply sok_ret|]. intros x y Hx ->. rewrite app_nil_r. auto. Qed.

Lemma sok_items xs Ps : Forall2 (fun x P => sok (ser x) tt P) xs Ps -> forall n, zlen xs <= n ->
  sok (ser_items ser xs n) (n - zlen xs) (seq_enc Ps).
Proof.
  induction 1 as [|x P xs Ps Hx Hs IH]; intros n Hn; cbn [ser_items].
  - change (zlen (@nil sval)) with 0; replace (n - 0) with n by lia. exact (sok_ret n).
  - assert (zlen (x :: xs) = 1 + zlen xs) as E1 by (unfold zlen; cbn [length]; lia).
    assert (0 <= zlen xs) by (unfold zlen; lia). rewrite E1 in *.
    replace (n - (1 + zlen xs)) with (n - 1 - zlen xs) by lia.
    eapply (sok_bind _ _ (n - 1) _ P (seq_enc Ps)).
    + unfold seq_serialize_element, checked_dec. replace (n <? 1) with false by lia.
      apply (sok_ext (sbind (ser x) (fun _ => sret (n - 1)))); [reflexivity|].
      apply (sok_bind_ret (ser x) tt (fun _ => n - 1)). auto.
    + apply IH. lia.
    + intros a b Ha Hb. cbn. eauto.
Qed.

Lemma sok_array_len n : 0 <= n < 2 ^ 32 -> sok (sbind (write_array_len VW n) (fun _ => sret n)) n (arr_hdr n).
Proof.
  intros H. destruct (array_len_ok (E := E) n H) as (h & He & Hh & _).
  apply (sok_bind_ret _ tt (fun _ => n)). left. eauto.
Qed.
Lemma sok_map_len n : 0 <= n < 2 ^ 32 -> sok (sbind (write_map_len VW n) (fun _ => sret n)) n (map_hdr n).
Proof.
  intros H. destruct (map_len_ok (E := E) n H) as (h & He & Hh & _).
  apply (sok_bind_ret _ tt (fun _ => n)). left. eauto.
Qed.

Definition arr_of n (Ps : list (bytes -> Prop)) (out : bytes) : Prop :=
  exists h b, out = h ++ b /\ arr_hdr n h /\ seq_enc Ps b.
Lemma sok_array xs Ps n : Forall2 (fun x P => sok (ser x) tt P) xs Ps -> n = zlen xs -> n < 2 ^ 32 ->
  sok (sbind (sbind (write_array_len VW n) (fun _ => sret n)) (fun n => sbind (ser_items ser xs n) (fun n => seq_end n))) tt (arr_of n Ps).
Proof.
  intros H -> Hn. eapply sok_bind; [apply sok_array_len; unfold zlen in *; lia| |].
  - eapply sok_bind; [apply sok_items; [exact H|lia]| |].
    + rewrite Z.sub_diag. apply (sok_ret tt).
    + intros x y Hx ->. rewrite app_nil_r. exact Hx.
  - intros x y Hx Hy. exists x, y. auto.
Qed.

Lemma sok_entries (l : list (val * val)) (f g : val -> sval) (P Q : val -> bytes -> Prop) :
  (forall e, In e l -> sok (ser (f (fst e))) tt (P (fst e)) /\ sok (ser (g (snd e))) tt (Q (snd e))) ->
  forall n, zlen l <= n ->
  sok (ser_entries ser (flat_map (fun e => [(true, f (fst e)); (false, g (snd e))]) l) n) (n - zlen l)
    (seq_enc (map (fun e b => exists x y, b = x ++ y /\ P (fst e) x /\ Q (snd e) y) l)).
Proof.
  induction l as [|e l IH]; intros H n Hn; cbn [flat_map app ser_entries map].
  - change (zlen (@nil (val * val))) with 0; replace (n - 0) with n by lia. exact (sok_ret n).
  - assert (zlen (e :: l) = 1 + zlen l) as E1 by (unfold zlen; cbn [length]; lia).
    assert (0 <= zlen l) by (unfold zlen; lia). rewrite E1 in *. destruct (H e (or_introl eq_refl)) as [H1 H2].
    replace (n - (1 + zlen l)) with (n - 1 - zlen l) by lia.
    eapply (sok_bind _ _ (n - 1) _ (P (fst e))).
    + unfold map_serialize_key, checked_dec. replace (n <? 1) with false by lia.
      apply (sok_ext (sbind (ser (f (fst e))) (fun _ => sret (n - 1)))); [reflexivity|].
      apply (sok_bind_ret _ tt (fun _ => n - 1)). auto.
    + eapply (sok_cat _ _ (n - 1) _ (Q (snd e))).
      * apply (sok_bind_ret _ tt (fun _ => n - 1)). auto.
      * apply IH; [|lia]. intros e' He. apply H. right. auto.
    + intros x y Hx (a & b & -> & Ha & Hb). cbn. exists (x ++ a), b. rewrite <- app_assoc. eauto 8.
Qed.

Lemma sok_map (l : list (val * val)) (f g : val -> sval) (P Q : val -> bytes -> Prop) :
  (forall e, In e l -> sok (ser (f (fst e))) tt (P (fst e)) /\ sok (ser (g (snd e))) tt (Q (snd e))) -> short l ->
  sok (sbind (sbind (write_map_len VW (zlen l)) (fun _ => sret (zlen l))) (fun n =>
    sbind (ser_entries ser (flat_map (fun e => [(true, f (fst e)); (false, g (snd e))]) l) n) (fun n => map_end n))) tt
    (fun out => exists h b, out = h ++ b /\ map_hdr (zlen l) h /\
       seq_enc (map (fun e b => exists x y, b = x ++ y /\ P (fst e) x /\ Q (snd e) y) l) b).
Proof.
  intros H Hn. eapply sok_bind; [apply sok_map_len; unfold short, zlen in *; lia| |].
  - eapply sok_bind; [apply sok_entries; [exact H|lia]| |].
    + rewrite Z.sub_diag. apply (sok_ret tt).
    + intros x y Hx ->. rewrite app_nil_r. exact Hx.
  - intros x y Hx Hy. exists x, y. auto.
Qed.

(** Identifiers. *)
Lemma sok_u32 i : 0 <= i < 2 ^ 32 -> sok (write_u32 VW i) tt (ident_int i).
Proof.
  intros H. left. unfold write_u32, MAX_POSFIXINT. destruct (i <=? 0x7f) eqn:L.
  { exists [i]. split; [|constructor; lia]. unfold as_u8. rewrite Z.mod_small by lia. apply emits_wb. }
  tf_case U8 i E1. { eexists. split; [apply emits_wbwb|]. apply II_u8, uint_be_byte. unfold is_byte. lia. }
  tf_case U16 i E2. { eexists. split; [apply emits_wbw|]. apply II_u16, uint_be_bytes. cbn. lia. }
  eexists. split; [apply emits_wbw|]. apply II_u32, uint_be_bytes. cbn. lia.
Qed.
Lemma sok_str s : short s -> sok (write_str VW s) tt (str_enc s).
Proof.
  intros H. destruct (str_len_ok (E := E) (zlen s)) as (h & He & Hh & _); [unfold short, zlen in *; lia|].
  left. exists (h ++ s). split; [|exists h; auto]. eapply emits_bind; [exact He|apply emits_ws].
Qed.
Lemma sok_variant ns i s : names_ok ns -> nth_error ns i = Some s ->
  sok (serialize_variant VW fl (Z.of_nat i) s) tt (ident_enc ns i).
Proof.
  intros (_ & Hu & Hs) Hn.
  assert (Hi : (i < length ns)%nat) by (apply nth_error_Some; congruence).
  assert (Hz : 0 <= Z.of_nat i < 2 ^ 32) by (unfold short, zlen in Hs; lia).
  assert (Hss : short s). { rewrite Forall_forall in Hu. apply Hu. eapply nth_error_In; eauto. }
  unfold serialize_variant. destruct fl; [eapply sok_imp; [apply sok_u32; auto|]|eapply sok_imp; [apply sok_u32; auto|]|eapply sok_imp; [apply sok_str; auto|]];
    intros b Hb; unfold ident_enc; eauto.
Qed.
Lemma sok_variant_map ns i s (m : SM bytes X unit) (P : bytes -> Prop) : names_ok ns -> nth_error ns i = Some s -> sok m tt P ->
  sok (sbind (write_byte VW (Z.lor FIXMAP 1)) (fun _ => sbind (serialize_variant VW fl (Z.of_nat i) s) (fun _ => m))) tt
   (fun out => exists k b, out = 0x81 :: k ++ b /\ ident_enc ns i k /\ P b).
Proof.
  intros Hn Hs Hm. eapply sok_bind with (P := fun b => b = [0x81]).
  - left. eexists. split; [apply emits_wb|reflexivity].
  - eapply sok_cat; [eapply sok_variant; eauto|exact Hm].
  - intros x y -> (k & b & -> & Hk & Hb). exists k, b. auto.
Qed.

(** ** Structs *)
Local Notation coll := (collapse nullish).
Definition item (f : bytes * fattr * ty) (v : val) : bytes * option sval :=
  (name_of f, if skipped (attr_of f) v then None else Some (trace (snd f) v)).
Definition cval (f : bytes * fattr * ty) (v : val) : val := if skipped (attr_of f) v then v else coll (snd f) v.
Definition gval (f : bytes * fattr * ty) (v : val) : option val := if skipped (attr_of f) v then None else Some (coll (snd f) v).
Definition field_sok (f : bytes * fattr * ty) (v : val) : Prop :=
  skipped (attr_of f) v = false -> sok (ser (trace (snd f) v)) tt (adm fo (snd f) (coll (snd f) v)).

Lemma skipped_eq f v : skipped (attr_of f) v = true -> attr_of (A:=fattr) (B:=ty) f = FDefault v.
Proof. unfold skipped. destruct (attr_of f); [discriminate|]. intros H. apply val_eqb_eq in H. congruence. Qed.

Lemma count_cons_some (nm : bytes) (x : sval) its : count_some ((nm, Some x) :: its) = 1 + count_some its.
Proof. unfold count_some, zlen. cbn [filter snd length]. lia. Qed.
Lemma count_cons_none (nm : bytes) (its : list (bytes * option sval)) : count_some ((nm, None) :: its) = count_some its.
Proof. reflexivity. Qed.
Lemma count_nonneg {A B} (its : list (A * option B)) : 0 <= count_some its <= zlen its.
Proof.
  unfold count_some, zlen. induction its as [|[a [b|]] its IH]; cbn [filter snd length]; lia.
Qed.

Lemma sok_fields_arr : fl = Compact -> forall fs l idx, Forall (fun f => skips \/ attr_of f = FPlain) fs -> all2 field_sok fs l ->
  sok (ser_fields VW fl ser (zip item fs l) (count_some (zip item fs l), idx)) (0, idx)
   (fun b => exists k, (k <= length fs)%nat /\ Z.of_nat k = count_some (zip item fs l) /\
      seq_enc (zip (fun p v => p v) (firstn k (map (fun f => adm fo (snd f)) fs)) (firstn k (zip cval fs l))) b /\
      all2 (fun f v => attr_of f = FDefault v) (skipn k fs) (skipn k (zip cval fs l))).
Proof.
  intros Hfl. induction fs as [|f fs IH]; intros [|v l] idx Hq H; cbn [all2] in H; try tauto.
  - left. exists []. split; [apply emits_ret|]. exists 0%nat. cbn. auto.
  - destruct H as [Hf H]. specialize (IH l). inversion Hq as [|? ? Hq1 Hq2]; subst. cbn [zip]. unfold item at 1 3 5, cval at 1 3.
    unfold field_sok in Hf. destruct (skipped (attr_of f) v) eqn:Es.
    + rewrite count_cons_none. cbn [ser_fields]. set (n := count_some (zip item fs l)) in *.
      assert (Hsk : @struct_skip_field bytes E fl (n, idx) = if n =? 0 then sret (n, idx) else sfail MFieldSkipped) by (rewrite Hfl; reflexivity).
      rewrite Hsk. destruct (n =? 0) eqn:En.
      * eapply sok_bind with (a := (n, idx)) (P := fun b => b = []); [apply sok_ret|apply IH; auto|].
        intros x y -> (k & Hk & Hn & Hs & Ha). exists 0%nat. assert (k = 0%nat) as -> by lia.
        cbn [firstn zip seq_enc skipn all2 app] in *. repeat split; auto; try lia. apply skipped_eq; auto.
      * right. split; [split; auto|apply errs_bind1; apply errs_fail].
        destruct Hq1 as [Hq1|Hq1]; auto. unfold skipped in Es. rewrite Hq1 in Es. discriminate.
    + specialize (Hf eq_refl). rewrite count_cons_some. cbn [ser_fields]. pose proof (count_nonneg (zip item fs l)) as Hc.
      set (n := count_some (zip item fs l)) in *.
      eapply sok_bind with (a := (n, idx)) (P := adm fo (snd f) (coll (snd f) v)); [|apply IH; auto|].
      * apply (sok_ext (sbind (ser (trace (snd f) v)) (fun _ => sret (1 + n - 1, idx)))).
        { unfold struct_serialize_field, checked_dec. rewrite Hfl. replace (1 + n <? 1) with false by lia. reflexivity. }
        replace (n, idx) with (1 + n - 1, idx) by (f_equal; lia). apply (sok_bind_ret _ tt (fun _ => (1 + n - 1, idx))). auto.
      * intros x y Hx (k & Hk & Hn & Hs & Ha). exists (S k). cbn [firstn zip seq_enc skipn all2 map length] in *.
        repeat split; auto; try lia. exists x, y. auto.
Qed.

Lemma set_nth_app {A} (a b : list A) x y : set_nth (a ++ x :: b) (length a) y = (a ++ [y]) ++ b.
Proof. induction a as [|z a IH]; cbn; auto. rewrite IH. auto. Qed.
Lemma nth_error_mid {A} (a b : list A) x : nth_error (a ++ x :: b) (length a) = Some x.
Proof. rewrite nth_error_app2, Nat.sub_diag by lia. auto. Qed.

Lemma sok_fields_map : fl <> Compact -> forall fs, names_ok (map name_of fs) -> forall fs2 fs1 l g1 idx, fs = fs1 ++ fs2 ->
  length g1 = length fs1 -> (fl = StructMapIdx -> idx = Z.of_nat (length fs1)) -> all2 field_sok fs2 l ->
  exists idx', sok (ser_fields VW fl ser (zip item fs2 l) (count_some (zip item fs2 l), idx)) (0, idx')
   (fun b => entries (map name_of fs) (map (fun f => adm fo (snd f)) fs) (g1 ++ map (fun _ => None) fs2)
      (count_some (zip item fs2 l)) b (g1 ++ zip gval fs2 l)).
Proof.
  intros Hfl fs Hn. induction fs2 as [|f fs2 IH]; intros fs1 [|v l] g1 idx Hfs Hg Hidx H; cbn [all2] in H; try tauto.
  - exists idx. left. exists []. split; [apply emits_ret|]. cbn. constructor.
  - destruct H as [Hf H]. cbn [zip map]. unfold item at 1 3 5, gval at 1.
    assert (Hshort : Z.of_nat (length fs1) + 1 < 2 ^ 32).
    { destruct Hn as (_ & _ & Hn). unfold short, zlen in Hn. rewrite map_length, Hfs, app_length in Hn. cbn [length] in Hn. lia. }
    unfold field_sok in Hf. destruct (skipped (attr_of f) v) eqn:Es.
    + rewrite count_cons_none. set (n := count_some (zip item fs2 l)) in *.
      destruct (IH (fs1 ++ [f]) l (g1 ++ [None]) (match fl with StructMapIdx => idx + 1 | _ => idx end)) as (idx' & HI); auto.
      { rewrite <- app_assoc. auto. }
      { rewrite !app_length. cbn. lia. }
      { intros E1. rewrite E1, app_length. cbn. rewrite Hidx by auto. lia. }
      exists idx'. cbn [ser_fields]. eapply sok_bind with (P := fun b => b = []); [|exact HI|].
      * left. exists []. split; auto. unfold struct_skip_field. destruct fl; try congruence; [|apply emits_ret].
        rewrite Hidx by auto. rewrite Z.mod_small by lia. apply emits_ret.
      * intros x y -> Hy. rewrite <- !app_assoc in Hy. cbn [app] in *. auto.
    + specialize (Hf eq_refl). rewrite count_cons_some. pose proof (count_nonneg (zip item fs2 l)) as Hc.
      set (n := count_some (zip item fs2 l)) in *.
      destruct (IH (fs1 ++ [f]) l (g1 ++ [Some (coll (snd f) v)]) (match fl with StructMapIdx => idx + 1 | _ => idx end)) as (idx' & HI); auto.
      { rewrite <- app_assoc. auto. }
      { rewrite !app_length. cbn. lia. }
      { intros E1. rewrite E1, app_length. cbn. rewrite Hidx by auto. lia. }
      assert (Hnm : nth_error (map name_of fs) (length fs1) = Some (name_of f)).
      { rewrite nth_error_map, Hfs, nth_error_mid. auto. }
      assert (Hk : sok (match fl with StructMapIdx => serialize_u32 VW idx | _ => serialize_str VW (name_of f) end) tt
          (ident_enc (map name_of fs) (length fs1))).
      { assert (Hi : (length fs1 < length (map name_of fs))%nat) by (apply nth_error_Some; congruence).
        destruct fl; try congruence.
        - rewrite Hidx by auto. eapply sok_imp; [apply sok_u32; lia|]. intros b Hb. right. auto.
        - eapply sok_imp; [apply sok_str|].
          + destruct Hn as (_ & Hu & _). rewrite Forall_forall in Hu. apply Hu. eapply nth_error_In; eauto.
          + intros b Hb. left. eauto. }
      exists idx'. cbn [ser_fields]. eapply sok_bind with (P := cat (ident_enc (map name_of fs) (length fs1)) (adm fo (snd f) (coll (snd f) v))); [|exact HI|].
      * unfold struct_serialize_field, checked_dec. replace (1 + n <? 1) with false by lia.
        apply (sok_ext (sbind (match fl with StructMapIdx => serialize_u32 VW idx | _ => serialize_str VW (name_of f) end) (fun _ => 
           sbind (ser (trace (snd f) v)) (fun _ => sret (n, match fl with StructMapIdx => idx + 1 | _ => idx end))))).
        { intros w. destruct fl; try congruence; unfold sbind, sret; replace (1 + n - 1) with n by lia; auto.
          rewrite Hidx by auto. rewrite Z.mod_small by lia. auto. }
        eapply sok_cat; [exact Hk|]. apply (sok_bind_ret _ tt (fun _ => (n, _))). auto.
      * intros x y (k & b & -> & Hx & Hb) Hy. rewrite <- !app_assoc in *. cbn [app] in Hy.
        eapply EN_field; [|  | exact Hx | exact Hb |].
        -- rewrite <- Hg. apply nth_error_mid.
        -- rewrite nth_error_map, Hfs, nth_error_mid. auto.
        -- rewrite <- Hg, set_nth_app, <- app_assoc. exact Hy.
Qed.

Lemma all_fields_gval fs : forall l, length fs = length l -> all_fields fs (zip gval fs l) (zip cval fs l).
Proof.
  induction fs as [|f fs IH]; intros [|v l] H; cbn in H; try discriminate; cbn; auto. split; [|apply IH; lia].
  unfold gval, cval. destruct (skipped (attr_of f) v) eqn:Es; auto. unfold absent_ok.
  rewrite (skipped_eq f v Es). auto.
Qed.
Lemma all2_length {A B} (P : A -> B -> Prop) l : forall m, all2 P l m -> length l = length m.
Proof. induction l as [|a l IH]; intros [|b m] H; cbn in *; try tauto. destruct H. f_equal. auto. Qed.
Lemma zip_len {A B C} (f : A -> B -> C) l : forall m, length l = length m -> length (zip f l m) = length l.
Proof. induction l as [|a l IH]; intros [|b m] H; cbn in *; try discriminate; auto. Qed.

Lemma sok_struct fs l : names_ok (map name_of fs) -> Forall (fun f => skips \/ attr_of f = FPlain) fs -> all2 field_sok fs l ->
  sok (sbind (inherent_serialize_struct VW fl (count_some (zip item fs l))) (fun s =>
    sbind (ser_fields VW fl ser (zip item fs l) s) (fun s => struct_end fl s))) tt
    (struct_enc fs (map (fun f => adm fo (snd f)) fs) (zip cval fs l)).
Proof.
  intros Hn Hq H. pose proof (all2_length _ _ _ H) as Hl.
  assert (Hc : 0 <= count_some (zip item fs l) < 2 ^ 32).
  { pose proof (count_nonneg (zip item fs l)) as Hc. unfold zlen in Hc. rewrite zip_len in Hc by auto.
    destruct Hn as (_ & _ & Hn). unfold short, zlen in Hn. rewrite map_length in Hn. lia. }
  assert (Hcase : fl = Compact \/ fl <> Compact) by (destruct fl; auto; right; discriminate).
  destruct Hcase as [Hfl|Hfl].
  - pose proof (sok_fields_arr Hfl fs l 0 Hq H) as HF. set (n := count_some (zip item fs l)) in *.
    eapply sok_bind with (a := (n, 0)) (P := arr_hdr n).
    + destruct (array_len_ok (E := E) n Hc) as (h & He & Hh & _).
      apply (sok_ext (sbind (write_array_len VW n) (fun _ => sret (n, 0)))).
      { unfold inherent_serialize_struct. rewrite Hfl. reflexivity. }
      apply (sok_bind_ret _ tt (fun _ => (n, 0))). left. eauto.
    + eapply sok_bind with (Q := fun b => b = []); [exact HF| |].
      * apply (sok_ext (sret tt)); [|apply sok_ret]. unfold struct_end. rewrite Hfl. reflexivity.
      * intros x y Hx ->. rewrite app_nil_r. exact Hx.
    + intros x y Hx (k & Hk & Hn' & Hs & Ha). left. exists k, x, y. rewrite Hn'. rewrite zip_len by auto. auto 8.
  - destruct (sok_fields_map Hfl fs Hn fs [] l [] 0 eq_refl eq_refl (fun _ => eq_refl) H) as (idx' & HF).
    set (n := count_some (zip item fs l)) in *. cbn [app] in HF.
    eapply sok_bind with (a := (n, 0)) (P := map_hdr n).
    + unfold inherent_serialize_struct. destruct (map_len_ok (E := E) n Hc) as (h & He & Hh & _).
      destruct fl; try congruence; apply (sok_bind_ret _ tt (fun _ => (n, 0))); left; eauto.
    + eapply sok_bind with (Q := fun b => b = []); [exact HF| |].
      * unfold struct_end. destruct fl; try congruence; apply sok_ret.
      * intros x y Hx ->. rewrite app_nil_r. exact Hx.
    + intros x y Hx Hy. right. exists n, x, y, (zip gval fs l). split; auto. split; auto. split; auto.
      apply all_fields_gval; auto.
Qed.

(** ** Values *)
Lemma arr_not_nil n h b : arr_hdr n h -> h ++ b <> [0xc0].
Proof. intros H E1. inversion H; subst; cbn [app] in E1; apply cons_inj in E1; destruct E1; lia. Qed.
Lemma map_not_nil n h b : map_hdr n h -> h ++ b <> [0xc0].
Proof. intros H E1. inversion H; subst; cbn [app] in E1; apply cons_inj in E1; destruct E1; lia. Qed.
Lemma str_not_nil n h b : str_hdr n h -> h ++ b <> [0xc0].
Proof. intros H E1. inversion H; subst; cbn [app] in E1; apply cons_inj in E1; destruct E1; lia. Qed.
Lemma int_not_nil z b : int_fmt z b -> b <> [0xc0].
Proof. intros H E1. inversion H; subst; match goal with X : _ :: _ = _ :: _ |- _ => apply cons_inj in X; destruct X; lia end. Qed.
Lemma ident_not_nil ns i b : ident_enc ns i b -> b <> [0xc0].
Proof.
  intros [(s & _ & (h & Hh & ->))|(_ & H)]; [eapply str_not_nil; eauto|].
  intros E1. inversion H; subst; match goal with X : _ :: _ = _ :: _ |- _ => apply cons_inj in X; destruct X; lia end.
Qed.

Definition outp t v (out : bytes) : Prop :=
  adm fo t (coll t v) out /\ (if nullish t v then out = [0xc0] else out <> [0xc0]).

Lemma hd_of (P Q : bytes -> Prop) {A} (m : SM bytes X A) a : sok m a P -> (forall b, P b -> Q b) -> sok m a Q.
Proof. apply sok_imp. Qed.

Lemma all_list_In' {A} (P : A -> Prop) l : all_list P l -> forall x, In x l -> P x.
Proof. induction l as [|a l IH]; cbn; [tauto|]. intros [H1 H2] x [<-|H]; auto. Qed.

Lemma Forall2_zip ts l : Forall (fun t => wf t -> skips \/ plain t -> forall v, hastype t v -> sok (ser (trace t v)) tt (outp t v)) ts -> all_list wf ts ->
  skips \/ all_list plain ts ->
  all2 (fun h v => h v) (map hastype ts) l ->
  length l = length ts /\
  Forall2 (fun x P => sok (ser x) tt P) (zip (fun f v => f v) (map trace ts) l)
    (zip (fun p v => p v) (map (adm fo) ts) (zip (fun f v => f v) (map (collapse nullish) ts) l)).
Proof.
  intros IH. revert l. induction IH as [|t ts Ht IH IHH]; intros [|v l] Hw Hq H; cbn in *; try tauto; [split; constructor|].
  destruct Hw as [Hw1 Hw2], H as [H1 H2]. destruct (IHH l Hw2 ltac:(tauto) H2) as [H3 H4]. split; [lia|]. constructor; auto.
  eapply sok_imp; [apply Ht; auto; tauto|]. intros b [Hb _]. exact Hb.
Qed.
Lemma zip_map {A B C D} (g : D -> A) (f : A -> B -> C) l : forall m, zip f (map g l) m = zip (fun d b => f (g d) b) l m.
Proof. induction l as [|a l IH]; intros [|b m]; cbn; auto. rewrite IH. auto. Qed.

Lemma struct_sok fs l :
  Forall (fun f => wf (snd f) -> skips \/ plain (snd f) -> forall v, hastype (snd f) v -> sok (ser (trace (snd f) v)) tt (outp (snd f) v)) fs ->
  wf (TStruct fs) -> skips \/ plain (TStruct fs) -> hastype (TStruct fs) (USeq l) ->
  sok (ser (trace (TStruct fs) (USeq l))) tt (outp (TStruct fs) (USeq l)).
Proof.
  intros IH [Hn Hw] Hq H. cbn [hastype] in H. cbn [plain] in Hq. cbn [trace]. unfold struct_call. rewrite zip_map. fold item.
  eapply sok_imp; [apply (sok_struct fs l)|].
  - auto.
  - destruct Hq as [Hq|Hq]; [apply Forall_forall; auto|]. clear - Hq. induction fs; constructor; cbn in Hq; tauto.
  - clear Hn. revert l H. induction IH as [|f fs Hf IH IHH]; intros [|v l] H; cbn in *; try tauto.
    destruct Hw as [[Hw1 Hw1'] Hw2], H as [H1 H2]. split; [|apply IHH; tauto].
    intros _. eapply sok_imp; [apply Hf; auto; tauto|]. intros b [Hb _]. exact Hb.
  - intros b Hb. unfold outp. cbn [collapse adm nullish]. rewrite zip_map. split; [exact Hb|].
    destruct Hb as [(n & h & c & -> & _ & Hh & _)|(n & h & c & got & -> & Hh & _)];
      [eapply arr_not_nil|eapply map_not_nil]; eauto.
Qed.

Theorem trace_sok t : wf t -> skips \/ plain t -> forall v, hastype t v -> sok (ser (trace t v)) tt (outp t v).
Proof.
  induction t as [ |k| | | | | | | |t IH|t IH|t IH|l IH|l IH|k v IHk IHv|fs IH|vs IH] using ty_ind'; intros Hw Hq v0 H;
    [..| |]; try (destruct v0; cbn [hastype] in H; tauto); try match goal with |- _ => destruct v0; cbn [hastype] in H; try tauto; [idtac] end;
    cbn [trace mp_ser]; unfold outp.
  - left. exists [if b then 0xc3 else 0xc2]. split; [destruct b; apply emits_wb|]. cbn. split; auto. destruct b; discriminate.
  - destruct (int_ok (E := E) k z H) as (b & He & Hb & _). left. exists b. split; auto. cbn. split; auto. eapply int_not_nil; eauto.
  - left. eexists. split; [apply emits_wbw|]. cbn [collapse adm nullish]. split; [|discriminate].
    left. eexists. split; [reflexivity|]. apply uint_be_bytes. change (256 ^ Z.of_nat 4) with (2 ^ 32). lia.
  - left. eexists. split; [apply emits_wbw|]. cbn [collapse adm nullish]. split; [|discriminate].
    left. eexists. split; [reflexivity|]. apply uint_be_bytes. change (256 ^ Z.of_nat 8) with (2 ^ 64). lia.
  - unfold serialize_char, serialize_str. rewrite encode_utf8_spec by auto.
    eapply sok_imp; [apply sok_str|].
    { unfold short, zlen, utf8_char. repeat match goal with |- context [if ?b then _ else _] => destruct b end; cbn [length]; lia. }
    intros b Hb. cbn. split; auto. destruct Hb as (h & Hh & ->). eapply str_not_nil; eauto.
  - destruct H as [Hu Hs]. unfold serialize_str. eapply sok_imp; [apply sok_str; auto|].
    intros b Hb. cbn. split; auto. destruct Hb as (h & Hh & ->). eapply str_not_nil; eauto.
  - destruct H as [Hb Hs]. unfold short in Hs. unfold serialize_bytes. assert (0 <= zlen b) by (unfold zlen; lia).
    eapply sok_bind with (P := bin_hdr (zlen b)) (Q := fun x => x = b).
    + set (n := zlen b) in *. left.
      tf_case U8 n E1. { eexists. split; [apply emits_wbwb|]. apply BH_8, uint_be_byte. unfold is_byte. lia. }
      tf_case U16 n E2. { eexists. split; [apply emits_wbw|]. apply BH_16, uint_be_bytes. cbn. lia. }
      tf_case U32 n E3; [|lia]. eexists. split; [apply emits_wbw|]. apply BH_32, uint_be_bytes. cbn. lia.
    + left. eexists. split; [apply emits_w|auto].
    + intros x y Hx ->. cbn [collapse adm nullish]. split; eauto.
      intros E1. inversion Hx; subst; discriminate.
  - left. exists [0xc0]. split; [apply emits_wb|]. cbn. auto.
  - left. exists [0xc0]. split; [apply emits_wb|]. cbn. auto.
  - destruct v0; cbn [hastype] in H; try tauto.
    + left. exists [0xc0]. split; [apply emits_wb|]. cbn. auto.
    + cbn [mp_ser]. eapply sok_imp; [apply (IH Hw Hq v0 H)|]. intros b [Hb Hn]. cbn [collapse nullish].
      destruct (nullish t v0); cbn [adm]; auto.
  - eapply sok_imp; [apply (IH Hw Hq v0 H)|]. intros b Hb. exact Hb.
  - destruct H as [H Hs]. eapply sok_imp; [apply (sok_array (map (trace t) l) (map (adm fo t) (map (coll t) l)) (zlen l))|].
    + clear Hs. induction H as [|v l Hv H IHl]; cbn; constructor; auto. eapply sok_imp; [apply IH; auto|]. intros b [Hb _]. exact Hb.
    + unfold zlen. rewrite map_length. auto.
    + exact Hs.
    + intros x (h & b & -> & Hh & Hb). cbn [collapse adm nullish]. split; [|eapply arr_not_nil; eauto].
      exists h, b. unfold zlen in *. rewrite map_length. auto.
  - destruct Hw as [Hw Hs]. destruct (Forall2_zip l l0 IH Hw Hq H) as [Hl HF].
    assert (Hz : length (zip (fun f v => f v) (map (collapse nullish) l) l0) = length l) by (rewrite zip_len; rewrite map_length; auto).
    eapply sok_imp; [apply (sok_array _ _ (zlen l) HF)|].
    + unfold zlen. rewrite zip_len; rewrite map_length; auto.
    + exact Hs.
    + intros x (h & b & -> & Hh & Hb). cbn [collapse adm nullish]. split; [|eapply arr_not_nil; eauto]. exists h, b. auto.
  - destruct Hw as [Hw Hs]. destruct (Forall2_zip l l0 IH Hw Hq H) as [Hl HF].
    assert (Hz : length (zip (fun f v => f v) (map (collapse nullish) l) l0) = length l) by (rewrite zip_len; rewrite map_length; auto).
    eapply sok_imp; [apply (sok_array _ _ (zlen l) HF)|].
    + unfold zlen. rewrite zip_len; rewrite map_length; auto.
    + exact Hs.
    + intros x (h & b & -> & Hh & Hb). cbn [collapse adm nullish]. split; [|eapply arr_not_nil; eauto]. exists h, b. auto.
  - destruct H as [H Hs], Hw as [Hw1 Hw2]. rewrite Forall_forall in H.
    eapply sok_imp; [apply (sok_map l (trace k) (trace v) (fun x => adm fo k (coll k x)) (fun x => adm fo v (coll v x)))|].
    + intros e He. destruct (H e He) as [H1 H2]. split; (eapply sok_imp; [first [apply IHk|apply IHv]; auto; cbn in Hq; tauto|]; intros b [Hb _]; exact Hb).
    + exact Hs.
    + intros x (h & b & -> & Hh & Hb). cbn [collapse adm nullish]. split; [|eapply map_not_nil; eauto].
      exists h, b. unfold zlen in *. rewrite map_length, map_map. auto.
  - apply struct_sok; auto.
  - destruct Hw as [Hn Hw]. rewrite Forall_forall in IH. rewrite nth_error_map in *.
    cbn [collapse adm nullish]. rewrite !nth_error_map in *.
    destruct (nth_error vs i) as [[[nm kd] t]|] eqn:Ei; [|cbn in H; tauto].
    cbn [option_map attr_of name_of snd fst] in *. rewrite ?nth_error_map, ?Ei. cbn [option_map attr_of name_of snd fst] in *.
    pose proof (nth_error_In _ _ Ei) as Hi. destruct (all_list_In' _ _ Hw _ Hi) as [Hwt Hk]. cbn [attr_of snd fst] in *.
    specialize (IH _ Hi Hwt).
    assert (Hq' : skips \/ plain t) by (destruct Hq as [Hq|Hq]; auto; right; apply (all_list_In' _ _ Hq _ Hi)).
    specialize (IH Hq' v0 H). cbn [snd] in IH.
    assert (Hnm : nth_error (map name_of vs) i = Some nm) by (rewrite nth_error_map, Ei; auto).
    assert (HD : forall m, sok m tt (outp t v0) ->
        sok (sbind (write_byte VW (Z.lor FIXMAP 1)) (fun _ => sbind (serialize_variant VW fl (Z.of_nat i) nm) (fun _ => m))) tt
         (fun out => (exists k b, out = 0x81 :: k ++ b /\ ident_enc (map name_of vs) i k /\ adm fo t (coll t v0) b) /\ out <> [0xc0])).
    { intros m Hm. eapply sok_imp; [apply (sok_variant_map (map name_of vs) i nm m _ Hn Hnm Hm)|].
      intros b (k & c & -> & H1 & H2 & _). split; [eauto|discriminate]. }
    destruct kd; cbn [variant_call].
    + destruct t; cbn in Hk; try tauto. destruct v0; cbn in H; try tauto. cbn [mp_ser].
      eapply sok_imp; [apply (sok_variant _ _ _ Hn Hnm)|]. intros b Hb. split; [auto|]. eapply ident_not_nil; eauto.
    + apply HD. exact IH.
    + destruct t; cbn in Hk; try tauto. destruct v0; cbn in H; try tauto. cbn [trace mp_ser].
      apply HD in IH. cbn [trace mp_ser] in IH. eapply sok_ext; [|exact IH].
      intros w. unfold serialize_tuple_variant, sbind. destruct (write_byte _ _ w) as [? []]; auto.
      destruct (serialize_variant _ _ _ _ _) as [? []]; auto.
    + destruct t; cbn in Hk; try tauto. destruct v0; cbn in H; try tauto. cbn [trace mp_ser].
      apply HD in IH. cbn [trace mp_ser] in IH. eapply sok_ext; [|exact IH].
      intros w. unfold struct_call. cbn [mp_ser]. unfold serialize_struct_variant, sbind. destruct (write_byte _ _ w) as [? []]; auto.
      destruct (serialize_variant _ _ _ _ _) as [? []]; auto.
Qed.
End T.

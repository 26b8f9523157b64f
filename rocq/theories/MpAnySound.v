(** Whatever [deserialize_any] returns is what a message at the front of the input denotes (C27). *)
From Verif Require Import Prelude PreludeFacts Utf8 Utf8Spec Utf8Facts SerdeSer SerdeDe MpMagick MpSpec MpDe MpDeView MpDeReads MpDeEat
  MpDeTop FloatOps Types TypesFacts MpTypeSpec MpTyped MpAny MpSound.
Ltac Zify.zify_post_hook ::= Z.div_mod_to_equations.

Section AnySound.
Context (ar : arch) (fo : float_ops).
Local Notation M := (DM mpde mp_de_error).
Local Notation run := (@mp_run ar fo val).
Local Notation sound := (sound ar).
Local Notation any := (any DeserializeError).
Local Notation any_seq := (any_seq DeserializeError).
Local Notation any_map := (any_map DeserializeError).

Definition any_post (v : val) (bs : bytes) : Prop := exists m, mp_fmt m bs /\ denotes m (inl v).

Lemma any_int k : sound (deserialize_int ar k any_visitor) any_post.
Proof.
  eapply sound_bind; [apply sound_integer|]. intros z x [_ Hz] _. apply sound_lift. cbn. intros a [= <-]. rewrite app_nil_r.
  exists (VInt z). split; constructor; auto.
Qed.
Lemma any_handed {b x} {r : result val mp_de_error} (P : val -> bytes -> Prop) : (forall a, r = Ok a -> P a []) ->
  sound (dbind (handed b x) (fun _ => dlift r)) P.
Proof.
  intros H. eapply sound_bind with (P := fun _ b => b = []).
  { intros s s' a Hs' Hb D. injection D as <- <-. exists []. split; auto. split; auto. apply adv_refl in Hs'. auto. }
  intros _ y -> _. apply sound_lift. cbn [app]. auto.
Qed.
Lemma any_str : sound (deserialize_str ar any_visitor) any_post.
Proof.
  eapply sound_bind; [apply sound_str|]. intros x bs [Hu (h & Hh & ->)] Hb. apply any_handed. intros a [= <-]. rewrite app_nil_r.
  exists (VStr (sl_data x)). split; [|constructor; auto]. constructor; auto. apply Forall_app in Hb. apply Hb.
Qed.
Lemma any_bytes : sound (deserialize_bytes ar any_visitor) any_post.
Proof.
  eapply sound_bind; [apply sound_bin|]. intros x bs [Hu (h & Hh & ->)] Hb. apply any_handed. intros a [= <-]. rewrite app_nil_r.
  exists (VBin (sl_data x)). split; [|constructor]. constructor; auto.
Qed.
Lemma any_unit : sound (deserialize_unit ar any_visitor) any_post.
Proof.
  apply sound_byte. intros c Hc. apply sound_if; intros E; [|apply sound_fail]. apply sound_lift. intros a [= <-].
  consts. replace c with 0xc0 by lia. exists VNil. split; constructor.
Qed.
Lemma any_bool : sound (deserialize_bool ar any_visitor) any_post.
Proof.
  apply sound_byte. intros c Hc. consts. apply sound_if; intros E; [|apply sound_if; intros E2; [|apply sound_fail]]; apply sound_lift; intros a [= <-].
  - replace c with 0xc3 by lia. exists (VBool true). split; constructor.
  - replace c with 0xc2 by lia. exists (VBool false). split; constructor.
Qed.
Lemma int_not_float z c l : int_fmt z (c :: l) -> c <> 0xca /\ c <> 0xcb.
Proof. remember (c :: l) as b eqn:E. intros H. destruct H; apply cons_inj in E; destruct E as [<- _]; lia. Qed.
Lemma any_f32 : soundc ar 0xca (deserialize_f32 ar fo any_visitor) any_post.
Proof.
  eapply soundc_of with (P := fun v bs => exists x, v = UF32 x /\ adm fo TF32 (UF32 x) bs).
  - apply sound_byte. intros c Hc.
    apply sound_bind with (P := fun x y => adm fo TF32 (UF32 x) (c :: y)).
    + apply sound_if; intros E. { assert (c = 0xca) as -> by (consts; lia). eapply sound_weaken; [apply sound_unsigned; lia|]. intros; left; eauto. }
      apply sound_if; intros E1. { assert (c = 0xcb) as -> by (consts; lia). eapply sound_bind; [apply sound_unsigned; lia|]. intros y h Hy _. apply sound_ret. right; left. rewrite app_nil_r. eauto. }
      apply sound_if; intros E2. { assert (c = 0xc0) as -> by (consts; lia). apply sound_ret. right; right; right. auto. }
      eapply sound_weaken; [apply sound_fetch_num; auto|]. intros x y (z & Hz & ->). right; right; left. eauto.
    + intros x y Hx _. apply sound_lift. intros a [= <-]. rewrite app_nil_r. eauto.
  - intros v bs (x & -> & H) Hb. cbn in H. destruct H as [(h & -> & U)|[(y & h & -> & _)|[(z & Hz & _)|(-> & _)]]].
    + exists (VF32 x). split; constructor; auto.
    + destruct Hb as [|[l Hb]]; discriminate.
    + destruct Hb as [->|[l ->]]; [inversion Hz|]. apply int_not_float in Hz. lia.
    + destruct Hb as [|[l Hb]]; discriminate.
Qed.
Lemma any_f64 : soundc ar 0xcb (deserialize_f64 ar fo any_visitor) any_post.
Proof.
  eapply soundc_of with (P := fun v bs => exists x, v = UF64 x /\ adm fo TF64 (UF64 x) bs).
  - apply sound_byte. intros c Hc.
    apply sound_bind with (P := fun x y => adm fo TF64 (UF64 x) (c :: y)).
    + apply sound_if; intros E. { assert (c = 0xcb) as -> by (consts; lia). eapply sound_weaken; [apply sound_unsigned; lia|]. intros; left; eauto. }
      apply sound_if; intros E1. { assert (c = 0xca) as -> by (consts; lia). eapply sound_bind; [apply sound_unsigned; lia|]. intros y h Hy _. apply sound_ret. right; left. rewrite app_nil_r. eauto. }
      apply sound_if; intros E2. { assert (c = 0xc0) as -> by (consts; lia). apply sound_ret. right; right; right. auto. }
      eapply sound_weaken; [apply sound_fetch_num; auto|]. intros x y (z & Hz & ->). right; right; left. eauto.
    + intros x y Hx _. apply sound_lift. intros a [= <-]. rewrite app_nil_r. eauto.
  - intros v bs (x & -> & H) Hb. cbn in H. destruct H as [(h & -> & U)|[(y & h & -> & _)|[(z & Hz & _)|(-> & _)]]].
    + exists (VF64 x). split; constructor; auto.
    + destruct Hb as [|[l Hb]]; discriminate.
    + destruct Hb as [->|[l ->]]; [inversion Hz|]. apply int_not_float in Hz. lia.
    + destruct Hb as [|[l Hb]]; discriminate.
Qed.

Definition seq_post (acc : list val) (n : Z) (r : val * Z) (b : bytes) : Prop :=
  snd r = 0 /\ exists l ms, fst r = USeq (rev acc ++ l) /\ zlen ms = n /\ mp_fmt_list ms b /\ denotes_list ms (inl l).
Definition map_post (acc : list (val * val)) (n : Z) (r : val * Z) (b : bytes) : Prop :=
  snd r = 0 /\ exists l ms, fst r = UMap (rev acc ++ l) /\ zlen ms = n /\ mp_fmt_pairs ms b /\ denotes_pairs ms (inl l).

Lemma any_sound f : sound (r_de (run f) any) any_post /\
  (forall acc n, 0 <= n -> sound (r_seq (run f) (any_seq acc) n) (seq_post acc n)) /\
  (forall acc n, 0 <= n -> sound (r_map (run f) (any_map acc) n) (map_post acc n)).
Proof.
  induction f as [f IH] using (well_founded_induction lt_wf). destruct f as [|f]; [split; [|split]; intros; apply sound_fuel|].
  assert (IHd : forall g, (g < S f)%nat -> sound (r_de (run g) any) any_post) by (intros g Hg; apply (IH g Hg)).
  assert (IHs : forall g, (g < S f)%nat -> forall acc n, 0 <= n -> sound (r_seq (run g) (any_seq acc) n) (seq_post acc n)) by (intros g Hg; apply (IH g Hg)).
  assert (IHm : forall g, (g < S f)%nat -> forall acc n, 0 <= n -> sound (r_map (run g) (any_map acc) n) (map_post acc n)) by (intros g Hg; apply (IH g Hg)).
  clear IH. split; [|split].
  - rewrite any_eq. cbn [mp_run r_de step_de mp_method]. eapply sound_post; [|discriminate|intros a b x Px [= ->]; exact Px].
    assert (Sq : sound (deserialize_seq ar (run f) any_visitor) any_post).
    { eapply sound_seq; [intros n Hn; exact (IHs f ltac:(lia) [] n Hn)|]. intros n u h b Hh (_ & l & ms & Hu & <- & Hf & Hd). cbn [fst rev app] in Hu. subst u.
      exists (VArr ms). split; constructor; auto. }
    assert (Sm : sound (deserialize_map ar (run f) any_visitor) any_post).
    { eapply sound_map; [intros n Hn; exact (IHm f ltac:(lia) [] n Hn)|]. intros n u h b Hh (_ & l & ms & Hu & <- & Hf & Hd). cbn [fst rev app] in Hu. subst u.
      exists (VMap ms). split; constructor; auto. }
    unfold deserialize_any. apply sound_peek. intros c Hc.
    assert (G : forall m, sound m any_post -> soundc ar c m any_post) by (intros m Hm; eapply soundc_of; [exact Hm|auto]).
    repeat (apply soundc_if; intros ?);
      first [apply G; first [apply any_int|exact Sm|exact Sq|apply any_str|apply any_unit|apply any_bool|apply any_bytes|apply sound_fail]|idtac].
    + assert (c = 0xca) as -> by (consts; lia). apply any_f32.
    + assert (c = 0xcb) as -> by (consts; lia). apply any_f64.
  - intros acc n Hn. rewrite (sfrob_eq (any_seq acc)). cbn [sfrob Types.any_seq]. cbn [mp_run r_seq step_seq]. apply sound_if; intros E.
    + assert (n = 0) as -> by lia. destruct f; [apply sound_fuel|]. apply sound_ret. split; auto. exists [], []. rewrite app_nil_r.
      split; [reflexivity|]. split; [reflexivity|]. split; constructor.
    + eapply sound_try; [apply IHd; lia|intros e; apply never_seq_err|]. intros v x (m & Hm & Hv). cbn [res_some].
      eapply sound_weaken; [apply IHs; lia|]. intros [u k] b (Hk & l & ms & Hu & Ll & Hf & Hd). split; auto.
      exists (v :: l), (m :: ms). cbn [fst snd rev] in *. rewrite <- app_assoc in Hu. split; auto. split; [rewrite zlen_cons; lia|]. split; constructor; auto.
  - intros acc n Hn. rewrite (mfrob_eq (any_map acc)). cbn [mfrob Types.any_map]. cbn [mp_run r_map step_map]. apply sound_if; intros E.
    + assert (n = 0) as -> by lia. destruct f; [apply sound_fuel|]. apply sound_ret. split; auto. exists [], []. rewrite app_nil_r.
      split; [reflexivity|]. split; [reflexivity|]. split; constructor.
    + eapply sound_try; [apply IHd; lia|intros e; apply never_map_err|]. intros k x (mk & Hmk & Hk). cbn [res_some].
      destruct f as [|f]; [apply sound_fuel|]. cbn [mp_run r_map step_map].
      eapply sound_try; [apply IHd; lia|intros e; apply never_map_err|]. intros v y (m & Hm & Hv).
      eapply sound_weaken; [apply IHm; lia|]. intros [u j] b (Hj & l & ms & Hu & Ll & Hf & Hd). split; auto.
      exists ((k, v) :: l), ((mk, m) :: ms). cbn [fst snd rev] in *. rewrite <- app_assoc in Hu. split; auto. split; [rewrite zlen_cons; lia|].
      split; constructor; auto.
Qed.
Lemma any_sound_top fuel input s v n : arch32up ar -> slice_of ar input ->
  mp_from_slice ar fo fuel any input = Done s (Ok (v, n)) ->
  exists m bs tail, input = bs ++ tail /\ zlen bs = n /\ mp_fmt m bs /\ denotes m (inl v).
Proof.
  intros A Hs E. unfold mp_from_slice, dbind in E.
  assert (Hr : ready ar (de_from_slice input)) by (apply init_ready; auto).
  destruct (r_de (run fuel) any (de_from_slice input)) as [s1 [a|e]| |] eqn:E1; try discriminate.
  assert (Hb : all_bytes (rest (de_from_slice input))) by apply Hs.
  destruct (proj1 (any_sound fuel) _ _ _ Hr Hb E1) as (bs & A1 & m & P1 & P2).
  pose proof (ate_ready _ _ _ _ A1) as R1. unfold de_end in E. pose proof (rest_length _ _ R1) as L1.
  destruct (d_index s1 <=? zlen (sl_data (d_input s1))) eqn:E2; [|discriminate].
  destruct A1 as [_ A1]. change (rest (de_from_slice input)) with input in A1.
  assert (L : zlen input = zlen bs + zlen (rest s1)) by (rewrite A1 at 1; apply zlen_app).
  match type of E with (if ?b then _ else _) _ = _ => destruct b end; [|discriminate].
  injection E as _ <- <-. exists m, bs, (rest s1). split; auto. split; [lia|auto].
Qed.
End AnySound.

(** MessagePack decoding on a bounded stack (C60): how much is enough, and inputs for
    which it is not. *)
From Verif Require Import Prelude PreludeFacts SerdeSer SerdeDe FloatOps MpMagick MpSpec MpDe MpDeView MpDeReads MpDeEat MpDeSafe MpDeTop
  Types TypesFacts TypeDepth MpDepth Nesting MpTypeSpec MpTyped MpAny MpNesting.
From Verif Require MpTypedTop.
Ltac Zify.zify_post_hook ::= Z.div_mod_to_equations.

Section Room.
Context (ar : arch) (fo : float_ops) (orig : bytes) (W : wide ar).
Local Notation M := (DM mpde mp_de_error).
Local Notation deep := (@mp_deep ar fo val).
Local Notation run := (@mp_run ar fo val).
Local Notation inv := (inv ar orig).

(** Inside the input, with [k] calls more than bytes left. *)
Definition room (k : Z) (d : nat) (s : mpde) : Prop := inv s /\ zlen orig - pos s + k <= Z.of_nat d.
Lemma room_pos k d s : room k d s -> k <= Z.of_nat d.
Proof.
  intros [I H]. destruct I as ((I & _) & _ & Ho & Hd & _). unfold pos in H.
  assert (zlen (sl_data (d_input s)) = zlen orig - sl_off (d_input s)); [|lia].
  rewrite Hd. unfold zlen in *. rewrite skipn_length. lia.
Qed.
Lemma safeq_moves {A} (m : M A) Q k d : safeq ar orig m Q -> moves (room k d) m (room k d).
Proof.
  intros H s s' r [I L] E. specialize (H s I). rewrite E in H. destruct r as [a|e]; (split; [apply H|]); destruct H as (_ & [L' _] & _) || destruct H as (_ & [L' _]); specialize (L' W); lia.
Qed.
Lemma fetch_moves k d s s' c : room k d s -> fetch ar s = Done s' (Ok c) -> room (k + 1) d s'.
Proof.
  intros [I L] E. pose proof (safe_fetch ar orig s I) as H. rewrite E in H. split; [apply H|].
  unfold fetch, dbind in E. rewrite peek_run in E by apply I. destruct (rest s) as [|x l]; [discriminate|].
  rewrite eat_some_run in E by (try apply I; lia). injection E as <- _. unfold pos in *. cbn. lia.
Qed.
Lemma eat1_moves k d s c s' r : room k d s -> peek s = Done s (Ok c) -> eat_some ar 1 s = Done s' r -> room k d s'.
Proof.
  intros H Ep E. rewrite eat_some_run in E by (try apply H; lia). injection E as <- _.
  assert (Ef : fetch ar s = Done {| d_input := d_input s; d_index := d_index s + 1; d_log := d_log s |} (Ok c)).
  { unfold fetch, dbind. rewrite Ep. rewrite eat_some_run by (try apply H; lia). reflexivity. }
  pose proof (fetch_moves _ _ _ _ _ H Ef) as [H1 H2]. split; [exact H1|lia].
Qed.
Lemma header_moves k d s s' t : room k d s -> eat_header ar s = Done s' (Ok t) -> room (k + 1) d s'.
Proof.
  intros Hr E. unfold eat_header, dbind at 1 in E. destruct (fetch ar s) as [s1 [c|e]| |] eqn:Ef; try discriminate.
  pose proof (fetch_moves _ _ _ _ _ Hr Ef) as H1. revert E.
  assert (M1 : moves (room (k + 1) d) (fetch_u8 ar) (room (k + 1) d)) by (eapply safeq_moves, safe_u8).
  assert (M2 : moves (room (k + 1) d) (fetch_u16 ar) (room (k + 1) d)) by (eapply safeq_moves, safe_u16).
  assert (M4 : moves (room (k + 1) d) (fetch_u32 ar) (room (k + 1) d)) by (eapply safeq_moves, safe_u32).
  assert (Mu : forall x, moves (room (k + 1) d) (try_usize ar x) (room (k + 1) d)).
  { intros x. unfold try_usize. destruct (_ <=? _); apply moves_ret. }
  assert (Ma : forall x y, moves (room (k + 1) d) (uadd ar x y) (room (k + 1) d)).
  { intros x y. unfold uadd. destruct (_ <=? _); [apply moves_ret|]. destruct (overflow_checks ar); [|apply moves_ret]. intros ? ? ? _ E; discriminate. }
  repeat match goal with |- (if ?b then _ else _) _ = _ -> _ => destruct b end; intros E;
  lazymatch type of E with
  | dret _ _ = _ => injection E as <- _; exact H1
  | dfail _ _ = _ => discriminate
  | ?m _ = _ => assert (Mm : moves (room (k + 1) d) m (room (k + 1) d));
      [repeat (apply moves_bind; [first [exact M1|exact M2|exact M4|apply Mu|apply Ma]|intros]); apply moves_ret|exact (Mm _ _ _ H1 E)]
  end.
Qed.

Lemma eat_items_deep_S f d p n : n <=? 0 = false -> eat_items_deep ar (S f) d p n =
  dbind (eat_deep ar f d) (fun _ => dbind (if p then eat_deep ar f d else dret tt) (fun _ => eat_items_deep ar f d p (n - 1))).
Proof. intros H. change (eat_items_deep ar (S f) d p n) with (if n <=? 0 then dret tt else
  dbind (eat_deep ar f d) (fun _ => dbind (if p then eat_deep ar f d else dret tt) (fun _ => eat_items_deep ar f d p (n - 1)))). rewrite H. reflexivity. Qed.
Lemma eat_eq f : (forall d s, room 1 d s -> eat_deep ar f d s = eat_message ar f s) /\
  (forall d p n s, room 1 d s -> eat_items_deep ar f d p n s = eat_items ar f p n s).
Proof.
  induction f as [|f [IH1 IH2]]; split.
  - reflexivity.
  - intros d p n s H. cbn. destruct (n <=? 0); reflexivity.
  - intros d s H. pose proof (room_pos _ _ _ H). destruct d as [|d]; [lia|]. cbn [eat_deep eat_message].
    apply bind_eq. intros t s1 E. assert (H1 : room 1 d s1).
    { apply (header_moves 0 d s s1 t); [|exact E]. destruct H as [I H]. split; [exact I|lia]. }
    destruct t; [reflexivity|apply IH2, H1|apply IH2, H1].
  - intros d p n s H. destruct (n <=? 0) eqn:Hn; [cbn; rewrite Hn; reflexivity|].
    assert (Me : moves (room 1 d) (eat_message ar f) (room 1 d)) by (eapply safeq_moves, safe_eat_wide, W).
    rewrite eat_items_deep_S by exact Hn. rewrite eat_items_S by lia. unfold dbind at 1 3. rewrite (IH1 d s H). destruct (eat_message ar f s) as [s1 [u|e]| |] eqn:E; try reflexivity.
    pose proof (Me _ _ _ H E) as H1. destruct p.
    + unfold dbind. rewrite (IH1 d s1 H1). destruct (eat_message ar f s1) as [s2 [u2|e]| |] eqn:E2; try reflexivity. apply IH2. exact (Me _ _ _ H1 E2).
    + unfold dbind. cbn. apply IH2, H1.
Qed.

(** [any] needs as many calls as bytes are left, [IgnoredAny] one more. *)
Lemma greedy_eq f : forall d,
  (forall p s, gd f p -> room 1 d s -> r_de (deep f d) p s = r_de (run f) p s) /\
  (forall p n s, gs f p -> room 2 d s -> r_seq (deep f d) p n s = r_seq (run f) p n s) /\
  (forall p n s, gm f p -> room 2 d s -> r_map (deep f d) p n s = r_map (run f) p n s).
Proof.
  induction f as [|f IH]; intros d; [repeat split; reflexivity|].
  set (R := frame (deep f d) (match d with O => None | S d => Some (deep f d) end)).
  assert (Hn : forall p s, room 2 d s -> gd f p -> r_de R p s = r_de (run f) p s).
  { intros p s Hs Hp. pose proof (room_pos _ _ _ Hs). destruct d as [|d]; [lia|]. apply (proj1 (IH d) p s Hp). destruct Hs as [I Hs]. split; [exact I|lia]. }
  assert (Kr : forall p, moves (room 2 d) (r_de (run f) p) (room 2 d)).
  { intros p. eapply safeq_moves. apply (sr_de ar orig _ (safe_run ar fo orig (or_introl W) f) p). }
  destruct (IH d) as (_ & I2 & I3). split; [|split].
  - intros p s (m & v & post & -> & Hm & H1 & H2) Hs.
    change (dpost post (mp_method ar fo R m v) s = dpost post (mp_method ar fo (run f) m v) s). apply try_eql; [|reflexivity].
    apply (eq_method ar fo R (run f) v (room 1 d) (room 2 d)); try exact Hs; try (destruct Hm as [-> | ->]; discriminate).
    + intros s0 s1 c H0 E. exact (fetch_moves 1 d s0 s1 c H0 E).
    + intros s0 c s1 r H0 Ep E. exact (eat1_moves 1 d _ _ _ _ H0 Ep E).
    + eapply safeq_moves, safe_u16.
    + eapply safeq_moves, safe_u32.
    + intros n s1 Hs1. apply I2; [exact H1|exact Hs1].
    + intros n s1 Hs1. apply I3; [exact H2|exact Hs1].
    + intros _. change (r_eat (deep f d) s = r_eat (run f) s). destruct f as [|f]; [reflexivity|]. apply (proj1 (eat_eq (S f)) d s Hs).
  - intros p n s H Hs. change (step_seq R p n s = step_seq (run f) p n s). destruct p as [r|seed k|k]; cbn [step_seq]; [reflexivity| |apply I2; [apply H|exact Hs]].
    destruct H as [H1 H2]. destruct (n =? 0); [apply I2; [apply H2|exact Hs]|]. apply try_eql; [apply Hn; [exact Hs|exact H1]|]. intros r s1 E. apply I2; [apply H2|]. exact (Kr _ _ _ _ Hs E).
  - intros p n s H Hs. change (step_map R p n s = step_map (run f) p n s). destruct p as [r|seed k|seed k|k]; cbn [step_map]; [reflexivity| | |apply I3; [apply H|exact Hs]].
    + destruct H as [H1 H2]. destruct (n =? 0); [apply I3; [apply H2|exact Hs]|]. apply try_eql; [apply Hn; [exact Hs|exact H1]|]. intros r s1 E. apply I3; [apply H2|]. exact (Kr _ _ _ _ Hs E).
    + destruct H as [H1 H2]. apply try_eql; [apply Hn; [exact Hs|exact H1]|]. intros r s1 E. apply I3; [apply H2|]. exact (Kr _ _ _ _ Hs E).
Qed.
End Room.

(** ** Enough *)
Section Enough.
Context (ar : arch) (fo : float_ops).
Local Notation deep := (@mp_deep ar fo val).
Local Notation run := (@mp_run ar fo val).

Lemma from_slice_eq f d (p : deser val mp_de_error) input :
  r_de (deep f d) p (de_from_slice input) = r_de (run f) p (de_from_slice input) ->
  mp_from_slice_deep ar fo f d p input = mp_from_slice ar fo f p input.
Proof. intros H. unfold mp_from_slice_deep, mp_from_slice. apply bind_eql, H. Qed.

(** Types that skip nothing: the type alone. *)
Lemma typed_depth t fuel d input : skips_nothing t -> (type_depth t <= d)%nat ->
  mp_from_slice_deep ar fo fuel d (denote DeserializeError t) input = mp_from_slice ar fo fuel (denote DeserializeError t) input.
Proof.
  intros Hs Hd. apply from_slice_eq. apply (typed_eq ar fo (fun _ => False) 0 (fun _ => True)); try (intros; exact I); try (intros ? ? ? ? ?; exact I); try (intros ? ? ? ? ? ? ?; exact I); try (intros ? ? ? ? []).
  apply denote_dd; [right; exact Hs|lia].
Qed.

Context (A : arch32up ar) (W : wide ar).
Lemma room_0 input : slice_of ar input -> forall k d, zlen input + k <= Z.of_nat d -> room ar input k d (de_from_slice input).
Proof. intros Hi k d H. split; [apply init_inv; auto|]. unfold pos. cbn. lia. Qed.
Lemma greedy_depth p fuel d input : slice_of ar input -> (forall n, gd n p) -> (length input + 1 <= d)%nat ->
  mp_from_slice_deep ar fo fuel d p input = mp_from_slice ar fo fuel p input.
Proof.
  intros Hi Hp Hd. apply from_slice_eq. apply (proj1 (greedy_eq ar fo input W fuel d) p); [apply Hp|].
  apply room_0; auto. unfold zlen. lia.
Qed.
Lemma skipping_depth t fuel d input : slice_of ar input -> (type_depth t + length input + 1 <= d)%nat ->
  mp_from_slice_deep ar fo fuel d (denote DeserializeError t) input = mp_from_slice ar fo fuel (denote DeserializeError t) input.
Proof.
  intros Hi Hd. apply from_slice_eq.
  apply (typed_eq ar fo (fun p => forall n, gd n p) (length input + 1) (inv ar input)).
  - intros s s' c Hs E. pose proof (safe_fetch ar input s Hs) as H. rewrite E in H. apply H.
  - intros s c s' r Hs Ep E. eapply (eat1_moves ar input 0 (Z.to_nat (zlen input - pos s)) s c s' r); [split; [exact Hs|lia]|exact Ep|exact E].
  - intros s s' r Hs E. pose proof (safe_u16 ar input s Hs) as H. rewrite E in H. destruct r; apply H.
  - intros s s' r Hs E. pose proof (safe_u32 ar input s Hs) as H. rewrite E in H. destruct r; apply H.
  - intros f p s s' r Hs E. pose proof (sr_de ar input _ (safe_run ar fo input (or_introl W) f) p s Hs) as H. rewrite E in H. destruct r; apply H.
  - intros f e p s Hp He Hs. apply (proj1 (greedy_eq ar fo input W f e) p); [apply Hp|]. split; [exact Hs|].
    assert (0 <= pos s); [|unfold zlen in *; lia]. destruct Hs as ((H1 & _) & _ & H2 & _). unfold pos. lia.
  - apply init_inv; auto.
  - apply denote_dd; [left; intros n; apply gd_ignored|lia].
Qed.
End Enough.

(** ** Not enough *)
Section Deep.
Context (ar : arch) (fo : float_ops) (A : arch32up ar).
Local Notation deep := (@mp_deep ar fo val).
Local Notation run := (@mp_run ar fo val).
Local Notation any := (any DeserializeError).

Lemma fetch_cons s c l : ready ar s -> rest s = c :: l -> exists s', fetch ar s = Done s' (Ok c) /\ ready ar s' /\ rest s' = l.
Proof.
  intros Hr E. destruct (reads_fetch ar c s Hr) as [H _]. { apply (ready_fits_app ar s [c] l); auto. }
  destruct (H l E) as (s' & E' & Ad). exists s'. split; [exact E'|]. split; [apply Ad|]. apply (adv_rest ar s s' 1 [c] l Ad E eq_refl).
Qed.
Lemma peek_cons s c l : ready ar s -> rest s = c :: l -> peek s = Done s (Ok c).
Proof. intros Hr E. rewrite peek_run by apply Hr. rewrite E. reflexivity. Qed.

Lemma eat_over : forall d f s t, ready ar s -> rest s = repeat 145 d ++ t -> (2 * d + 1 <= f)%nat -> eat_deep ar f d s = Panic.
Proof.
  induction d as [|d IH]; intros f s t Hr E Hf; (destruct f as [|f]; [lia|]); [reflexivity|].
  cbn [repeat app] in E. destruct (fetch_cons _ _ _ Hr E) as (s1 & E1 & R1 & E1').
  assert (Eh : eat_header ar s = Done s1 (Ok (Array 1))). { unfold eat_header, dbind at 1. rewrite E1. reflexivity. }
  cbn [eat_deep]. unfold dbind at 1. rewrite Eh. destruct f as [|f]; [lia|]. change (eat_items_deep ar (S f) d false 1 s1 = Panic).
  rewrite eat_items_deep_S by reflexivity. unfold dbind. rewrite (IH f s1 t R1 E1') by lia. reflexivity.
Qed.
Lemma any_arr (R : @runner val) v s s1 l : ready ar s -> rest s = 145 :: l -> fetch ar s = Done s1 (Ok 145) ->
  mp_method ar fo R DAny v s = dbind (r_seq R (visit_seq v) 1) (fun p => check_count p) s1.
Proof.
  intros Hr E E1. cbn [mp_method]. unfold deserialize_any, dbind at 1. rewrite (peek_cons _ _ _ Hr E).
  change (deserialize_seq ar R v s = dbind (r_seq R (visit_seq v) 1) (fun p => check_count p) s1).
  unfold deserialize_seq, dbind at 1. rewrite E1. reflexivity.
Qed.
Lemma any_over : forall d f s t, ready ar s -> rest s = repeat 145 (S d) ++ t -> (2 * d + 2 <= f)%nat -> r_de (deep f d) any s = Panic.
Proof.
  induction d as [|d IH]; intros f s t Hr E Hf; (destruct f as [|[|f]]; [lia|lia|]); rewrite any_eq;
    cbn [repeat app] in E; destruct (fetch_cons _ _ _ Hr E) as (s1 & E1 & R1 & E1').
  - change (dpost (fun r => r) (mp_method ar fo (frame (deep (S f) 0) None) DAny any_visitor) s = Panic). unfold dpost, dtry.
    rewrite (any_arr _ _ _ _ _ Hr E E1). unfold dbind.
    change (r_seq (frame (deep (S f) 0) None) (visit_seq any_visitor) 1 s1) with (step_seq (frame (deep f 0) None) (any_seq DeserializeError []) 1 s1).
    rewrite (sfrob_eq (any_seq DeserializeError [])). reflexivity.
  - change (dpost (fun r => r) (mp_method ar fo (frame (deep (S f) (S d)) (Some (deep (S f) d))) DAny any_visitor) s = Panic). unfold dpost, dtry.
    rewrite (any_arr _ _ _ _ _ Hr E E1). unfold dbind.
    change (r_seq (frame (deep (S f) (S d)) (Some (deep (S f) d))) (visit_seq any_visitor) 1 s1)
      with (step_seq (frame (deep f (S d)) (Some (deep f d))) (any_seq DeserializeError []) 1 s1).
    rewrite any_seq_eq. cbn [step_seq]. change (1 =? 0) with false. cbv iota. unfold dtry.
    change (r_de (frame (deep f (S d)) (Some (deep f d))) any s1) with (r_de (deep f d) any s1).
    rewrite (IH f s1 t R1 E1') by lia. reflexivity.
Qed.

(** Arrays of one element in one another, with nil in the middle. *)
Definition nested (n : nat) : bytes := repeat 145 n ++ [192].
Fixpoint nested_msg (n : nat) : mpv := match n with O => VNil | S n => VArr [nested_msg n] end.
Fixpoint nested_val (n : nat) : val := match n with O => UUnit | S n => USeq [nested_val n] end.
Lemma nested_fmt n : mp_fmt (nested_msg n) (nested n).
Proof.
  induction n as [|n IH]; [constructor|]. change (mp_fmt (VArr [nested_msg n]) ([0x90 + 1] ++ nested n)). apply MF_arr; [apply AH_fix; cbn; lia|].
  rewrite <- (app_nil_r (nested n)). apply ML_cons; [exact IH|constructor].
Qed.
Lemma nested_denotes n : denotes (nested_msg n) (inl (nested_val n)).
Proof. induction n as [|n IH]; [constructor|]. cbn. apply DN_arr. apply DL_cons; [exact IH|constructor]. Qed.
Lemma nested_len n : zlen (nested n) = Z.of_nat n + 1.
Proof. unfold nested, zlen. rewrite app_length, repeat_length. cbn. lia. Qed.
Lemma nested_bytes n : all_bytes (nested n).
Proof. unfold nested. apply Forall_app. split; [apply Forall_forall; intros x Hx; apply repeat_spec in Hx; subst; unfold is_byte; lia|]. repeat constructor; unfold is_byte; lia. Qed.

Lemma any_overflows d : Z.of_nat d + 2 <= usize_max ar / 2 -> exists input, slice_of ar input /\ zlen input = Z.of_nat d + 2 /\
  exists N, forall fuel, (N <= fuel)%nat ->
    (exists s, mp_from_slice ar fo fuel any input = Done s (Ok (nested_val (S d), zlen input))) /\
    mp_from_slice_deep ar fo fuel d any input = Panic.
Proof.
  intros Hd. assert (Hs : slice_of ar (nested (S d))). { split; [apply nested_bytes|rewrite nested_len; lia]. }
  exists (nested (S d)). split; [exact Hs|]. split; [rewrite nested_len; lia|].
  destruct (MpTypedTop.any_total ar fo A (nested_msg (S d)) (nested (S d)) []) as [H _]; [apply nested_fmt|rewrite app_nil_r; exact Hs|].
  destruct (H _ (nested_denotes (S d))) as (N & HN). exists (N + 2 * d + 2)%nat. intros fuel Hf. split.
  - destruct (HN fuel) as (s & E); [lia|]. rewrite app_nil_r in E. exists s. exact E.
  - unfold mp_from_slice_deep, dbind. rewrite (any_over d fuel (de_from_slice (nested (S d))) [192]); [reflexivity| |reflexivity|lia].
    apply init_ready; auto.
Qed.
Lemma ignored_overflows d : Z.of_nat d + 1 <= usize_max ar / 2 -> exists input, slice_of ar input /\ zlen input = Z.of_nat d + 1 /\
  exists N, forall fuel, (N <= fuel)%nat ->
    (exists s, mp_from_slice ar fo fuel ignored input = Done s (Ok (UUnit, zlen input))) /\
    mp_from_slice_deep ar fo fuel d ignored input = Panic.
Proof.
  intros Hd. assert (Hs : slice_of ar (nested d)). { split; [apply nested_bytes|rewrite nested_len; lia]. }
  exists (nested d). split; [exact Hs|]. split; [rewrite nested_len; lia|].
  destruct (rde_ignored ar fo _ _ (nested_fmt d)) as (N & HN). exists (N + 2 * d + 3)%nat. intros fuel Hf. split.
  - destruct (from_slice_reads ar fo A ignored (nested d) UUnit [] fuel) as (s & E); [rewrite app_nil_r; exact Hs|apply HN; lia|].
    rewrite app_nil_r in E. exists s. exact E.
  - unfold mp_from_slice_deep, dbind. assert (E : r_de (deep fuel d) ignored (de_from_slice (nested d)) = Panic); [|rewrite E; reflexivity].
    destruct (@ignored_req mp_de_error) as (v & -> & _). destruct fuel as [|[|fuel]]; [lia|lia|].
    change (dpost (fun r => r) (deserialize_ignored_any (frame (deep (S fuel) d) (match d with O => None | S d => Some (deep (S fuel) d) end)) v) (de_from_slice (nested d)) = Panic).
    unfold deserialize_ignored_any, dpost, dtry, dbind.
    change (r_eat (frame (deep (S fuel) d) (match d with O => None | S d => Some (deep (S fuel) d) end)) (de_from_slice (nested d))) with (eat_deep ar (S fuel) d (de_from_slice (nested d))).
    rewrite (eat_over d (S fuel) _ [192]); [reflexivity|apply init_ready; auto|reflexivity|lia].
Qed.

(** A struct that does not know the only field of the input. *)
Definition unknown_field (n : nat) : bytes := [0x81; 0xce; 255; 255; 255; 255] ++ nested n.
Lemma struct_overflows fs d : quiet ar -> zlen fs < 2 ^ 32 - 1 -> Z.of_nat d + 7 <= usize_max ar / 2 -> exists input, slice_of ar input /\ zlen input = Z.of_nat d + 7 /\
  exists N, forall fuel, (N <= fuel)%nat ->
    mp_from_slice ar fo fuel (denote DeserializeError (TStruct fs)) input <> Panic /\
    mp_from_slice_deep ar fo fuel d (denote DeserializeError (TStruct fs)) input = Panic.
Proof.
  intros Q Hfs Hd. assert (Hs : slice_of ar (unknown_field d)).
  { unfold unknown_field. split; [apply Forall_app; split; [repeat (apply Forall_cons; [unfold is_byte; lia|]); apply Forall_nil|apply nested_bytes]|].
    unfold zlen. rewrite app_length. pose proof (nested_len d) as L. unfold zlen in L. cbn [length]. lia. }
  exists (unknown_field d). split; [exact Hs|]. split. { unfold unknown_field, zlen. rewrite app_length. pose proof (nested_len d) as L. unfold zlen in L. cbn [length]. lia. }
  assert (Hu : unknown_enc (map name_of fs) [0xce; 255; 255; 255; 255]).
  { right. exists (2 ^ 32 - 1). split; [unfold zlen in *; rewrite map_length; lia|]. apply II_u32. repeat split; try reflexivity; repeat constructor; unfold is_byte; lia. }
  destruct (rde_unknown ar fo _ _ Hu) as (N & HN). exists (N + 2 * d + 8)%nat. intros fuel Hf. split.
  { pose proof (from_slice_safe ar fo A Q fuel (denote DeserializeError (TStruct fs)) _ Hs) as H. intros E. rewrite E in H. exact H. }
  unfold mp_from_slice_deep, dbind. assert (E : r_de (deep fuel d) (denote DeserializeError (TStruct fs)) (de_from_slice (unknown_field d)) = Panic); [|rewrite E; reflexivity].
  pose proof (init_ready ar _ A Hs) as R0.
  destruct (fetch_cons _ 0x81 ([0xce; 255; 255; 255; 255] ++ nested d) R0 eq_refl) as (s1 & E1 & R1 & E1').
  destruct fuel as [|[|[|fuel]]]; [lia|lia|lia|]. set (f2 := S fuel) in *.
  cbn [denote]. unfold request. set (mp := struct_loop DeserializeError _ _ _ _). set (v := mk_visitor _).
  assert (Step : forall (R : @runner val) s2, r_map R mp 1 s1 = Panic -> dpost (fun r => r) (mp_method ar fo R DStruct v) (de_from_slice (unknown_field d)) = s2 -> s2 = Panic).
  { intros R s2 Hm <-. unfold dpost, dtry. cbn [mp_method]. unfold deserialize_struct, dbind at 1. rewrite E1.
    change (match dbind (r_map R mp 1) (fun p => check_count p) s1 with Done s' r => dlift r s' | Panic => Panic | OutOfFuel => OutOfFuel end = Panic).
    unfold dbind. rewrite Hm. reflexivity. }
  set (R1' := frame (deep (S f2) d) (match d with O => None | S d => Some (deep (S f2) d) end)).
  apply (Step R1'); [|reflexivity]. change (step_map (frame (deep f2 d) (match d with O => None | S d => Some (deep f2 d) end)) mp 1 s1 = Panic).
  unfold mp. rewrite (mfrob_eq (struct_loop _ _ _ _ _)). cbn [step_map mfrob struct_loop]. change (1 =? 0) with false. cbv iota. unfold dtry at 1.
  destruct d as [|d]; [reflexivity|].
  change (r_de (frame (deep f2 (S d)) (Some (deep f2 d))) (ident DeserializeError false (map name_of fs)) s1)
    with (r_de (deep f2 d) (ident DeserializeError false (map name_of fs)) s1).
  assert (Ei : r_de (deep f2 d) (ident DeserializeError false (map name_of fs)) s1 = r_de (run f2) (ident DeserializeError false (map name_of fs)) s1).
  { apply (typed_eq ar fo (fun _ => False) 0 (fun _ => True)); try (intros; exact I); try (intros ? ? ? ? ?; exact I); try (intros ? ? ? ? ? ? ?; exact I); try (intros ? ? ? ? []). apply dd_ident. }
  rewrite Ei. destruct (HN f2 ltac:(unfold f2; lia) s1 R1) as [H _]. { eapply ready_fits_app; [exact R1|exact E1']. }
  destruct (H (nested (S d)) E1') as (s2 & E2 & Ad). rewrite E2. cbn [res_some].
  change (step_map (frame (deep fuel (S d)) (Some (deep fuel d))) (MVal ignored (fun r => match r with Ok _ => mp | Err e => MRet (Err e) end)) 0 s2 = Panic).
  cbn [step_map]. unfold dtry at 1. change (r_de (frame (deep fuel (S d)) (Some (deep fuel d))) ignored s2) with (r_de (deep fuel d) ignored s2).
  assert (Ex : r_de (deep fuel d) ignored s2 = Panic); [|rewrite Ex; reflexivity].
  destruct (@ignored_req mp_de_error) as (vi & -> & _). destruct fuel as [|[|fuel]]; [lia|lia|].
  set (R3 := frame (deep (S fuel) d) (match d with O => None | S d => Some (deep (S fuel) d) end)).
  change (dpost (fun r => r) (deserialize_ignored_any R3 vi) s2 = Panic). unfold deserialize_ignored_any, dpost, dtry, dbind.
  change (r_eat R3 s2) with (eat_deep ar (S fuel) d s2). rewrite (eat_over d (S fuel) s2 [145; 192]); [reflexivity|apply Ad| |lia].
  rewrite (adv_rest ar s1 s2 5 [0xce; 255; 255; 255; 255] (nested (S d)) Ad E1' eq_refl). unfold nested. cbn [repeat]. rewrite repeat_cons, <- app_assoc. reflexivity.
Qed.
End Deep.

(** Consequences for the entry points; independence of the model's step budget. *)
From Verif Require Import Prelude PreludeFacts Utf8 Utf8Spec Utf8Facts SerdeSer SerdeDe MpMagick MpSpec MpDe MpDeView MpDeReads MpDeEat MpDeSafe.
Ltac Zify.zify_post_hook ::= Z.div_mod_to_equations.

(** ** A larger budget changes nothing once the run ends *)
Section Mono.
Context (ar : arch) (fo : float_ops).
Local Notation M := (DM mpde mp_de_error).

Definition mle {A} (m m' : M A) : Prop := forall s, m s = OutOfFuel \/ m s = m' s.

Lemma mle_refl {A} (m : M A) : mle m m.
Proof. right. reflexivity. Qed.
Lemma mle_oof {A} (m : M A) : mle (fun _ => OutOfFuel) m.
Proof. left. reflexivity. Qed.
Lemma mle_bind {A B} (m m' : M A) (k k' : A -> M B) : mle m m' -> (forall a, mle (k a) (k' a)) -> mle (dbind m k) (dbind m' k').
Proof.
  intros Hm Hk s. unfold dbind. destruct (Hm s) as [->|E]; [left; auto|]. rewrite <- E.
  destruct (m s) as [s1 [a|e]| |]; auto. apply Hk.
Qed.
Lemma mle_try {A B} (m m' : M A) (k k' : result A mp_de_error -> M B) : mle m m' -> (forall a, mle (k a) (k' a)) -> mle (dtry m k) (dtry m' k').
Proof.
  intros Hm Hk s. unfold dtry. destruct (Hm s) as [->|E]; [left; auto|]. rewrite <- E.
  destruct (m s) as [s1 a| |]; auto. apply Hk.
Qed.
Lemma mle_post {A B} (f : result A mp_de_error -> result B mp_de_error) m m' : mle m m' -> mle (dpost f m) (dpost f m').
Proof. intros. apply mle_try; auto. intros. apply mle_refl. Qed.
Lemma mle_if {A} (b : bool) (m n m' n' : M A) : mle m m' -> mle n n' -> mle (if b then m else n) (if b then m' else n').
Proof. destruct b; auto. Qed.

Lemma mle_eat f : mle (eat_message ar f) (eat_message ar (S f)) /\ forall p n, mle (eat_items ar f p n) (eat_items ar (S f) p n).
Proof.
  induction f as [|f [IH1 IH2]]; split.
  - apply mle_oof.
  - intros p n. destruct (Z_le_gt_dec n 0).
    + rewrite !eat_items_le by lia. apply mle_refl.
    + cbn [eat_items]. destruct (n <=? 0) eqn:E; [lia|]. apply mle_oof.
  - rewrite !eat_message_S. apply mle_bind; [apply mle_refl|]. intros [n|n|n]; [apply mle_refl|apply IH2..].
  - intros p n. destruct (Z_le_gt_dec n 0).
    + rewrite !eat_items_le by lia. apply mle_refl.
    + rewrite !eat_items_S by lia. apply mle_bind; [auto|]. intros _. apply mle_bind; [|intros; apply IH2].
      apply mle_if; [auto|apply mle_refl].
Qed.

Section Methods.
Context {U : Type} (R R' : @runner U).
Record rle : Prop := {
  le_de : forall p, mle (r_de R p) (r_de R' p);
  le_seq : forall p n, mle (r_seq R p n) (r_seq R' p n);
  le_map : forall p n, mle (r_map R p n) (r_map R' p n);
  le_enum : forall u p, mle (r_enum R u p) (r_enum R' u p);
  le_eat : mle (r_eat R) (r_eat R')
}.
Context (L : rle).

Lemma mle_seq v : mle (deserialize_seq ar R v) (deserialize_seq ar R' v).
Proof. repeat (apply mle_bind; [apply mle_refl|intros]). apply mle_bind; [apply (le_seq L)|intros; apply mle_refl]. Qed.
Lemma mle_map v : mle (deserialize_map ar R v) (deserialize_map ar R' v).
Proof. repeat (apply mle_bind; [apply mle_refl|intros]). apply mle_bind; [apply (le_map L)|intros; apply mle_refl]. Qed.
Lemma mle_struct v : mle (deserialize_struct ar R v) (deserialize_struct ar R' v).
Proof.
  repeat (apply mle_bind; [apply mle_refl|intros]). apply mle_bind; [apply mle_if; [apply (le_map L)|apply (le_seq L)]|intros; apply mle_refl].
Qed.
Lemma mle_any v : mle (deserialize_any ar fo R v) (deserialize_any ar fo R' v).
Proof.
  apply mle_bind; [apply mle_refl|]. intros c.
  repeat lazymatch goal with
  | |- mle ?m ?m => apply mle_refl
  | |- mle (deserialize_seq _ _ _) _ => apply mle_seq
  | |- mle (deserialize_map _ _ _) _ => apply mle_map
  | |- mle (if _ then _ else _) (if _ then _ else _) => apply mle_if
  end.
Qed.
Lemma mle_method m v : mle (mp_method ar fo R m v) (mp_method ar fo R' m v).
Proof.
  destruct m; cbn [mp_method];
  lazymatch goal with
  | |- mle ?m ?m => apply mle_refl
  | |- mle (deserialize_seq _ _ _) _ => apply mle_seq
  | |- mle (deserialize_map _ _ _) _ => apply mle_map
  | |- mle (deserialize_struct _ _ _) _ => apply mle_struct
  | |- mle (deserialize_any _ _ _ _) _ => apply mle_any
  | |- mle (deserialize_newtype_struct _ _) _ => apply (le_de L)
  | |- _ => idtac
  end.
  - apply mle_bind; [apply mle_refl|]. intros c. apply mle_if; [apply mle_refl|apply (le_de L)].
  - apply mle_bind; [apply mle_refl|]. intros c. apply mle_if; [apply mle_bind; [apply mle_refl|intros]|]; apply (le_enum L).
  - apply mle_bind; [apply (le_eat L)|intros; apply mle_refl].
Qed.
Lemma mle_variant u p : mle (run_variant ar R u p) (run_variant ar R' u p).
Proof.
  destruct p; cbn [run_variant]; [apply mle_refl|apply mle_refl|..]; (apply mle_post, mle_if; [apply mle_refl|]);
    [apply (le_de L)|apply mle_seq|apply mle_struct].
Qed.
End Methods.

Lemma mle_run {U} f : @rle U (mp_run ar fo f) (mp_run ar fo (S f)).
Proof.
  induction f as [|f IH].
  - split; intros; apply mle_oof.
  - remember (S f) as f' eqn:Ef.
    assert (E1 : @mp_run ar fo U f' = let R := mp_run ar fo f in
           {| r_de := step_de ar fo R; r_seq := step_seq R; r_map := step_map R; r_enum := step_enum ar R; r_eat := eat_message ar f' |})
      by (subst; reflexivity).
    assert (E2 : @mp_run ar fo U (S f') = let R := mp_run ar fo f' in
           {| r_de := step_de ar fo R; r_seq := step_seq R; r_map := step_map R; r_enum := step_enum ar R; r_eat := eat_message ar (S f') |})
      by reflexivity.
    rewrite E2. set (R' := @mp_run ar fo U f') in *. rewrite E1 at 1. clear E1 E2. cbv zeta.
    set (R := mp_run ar fo f) in *. split; cbn [r_de r_seq r_map r_enum r_eat].
    + intros [r|k|m v post]; cbn [step_de]; [apply mle_refl|apply IH|apply mle_post, mle_method, IH].
    + intros [r|seed k|k] n; cbn [step_seq]; [apply mle_refl| |apply IH].
      apply mle_if; [apply IH|]. apply mle_try; [apply IH|]. intros. apply IH.
    + intros [r|seed k|seed k|k] n; cbn [step_map]; [apply mle_refl| | |apply IH].
      * apply mle_if; [apply IH|]. apply mle_try; [apply IH|]. intros. apply IH.
      * apply mle_try; [apply IH|]. intros. apply IH.
    + intros u [r|seed kerr kok]; cbn [step_enum]; [apply mle_refl|].
      apply mle_try; [apply IH|]. intros [a|e]; [apply mle_variant, IH|apply mle_refl].
    + apply mle_eat.
Qed.

Lemma mle_from_slice {U} f (p : deser U mp_de_error) input :
  mp_from_slice ar fo f p input = OutOfFuel \/ mp_from_slice ar fo f p input = mp_from_slice ar fo (S f) p input.
Proof.
  unfold mp_from_slice.
  refine (mle_bind _ _ _ _ _ _ _); [apply mle_run|intros; apply mle_refl].
Qed.

Lemma from_slice_mono {U} f g (p : deser U mp_de_error) input : (f <= g)%nat ->
  mp_from_slice ar fo f p input <> OutOfFuel -> mp_from_slice ar fo g p input = mp_from_slice ar fo f p input.
Proof.
  intros H Hne. induction H as [|g H IH]; auto. destruct (mle_from_slice g p input) as [E|E]; congruence.
Qed.

Lemma eat_mono f g s : (f <= g)%nat -> eat_message ar f s <> OutOfFuel -> eat_message ar g s = eat_message ar f s.
Proof.
  intros H Hne. induction H as [|g H IH]; auto. destruct (mle_eat g) as [E _]. destruct (E s); congruence.
Qed.
End Mono.

(** ** Targets *)
(** A 32-bit target, a 64-bit target, or a larger one. *)
Definition arch32up (ar : arch) : Prop := 2 ^ 32 - 1 <= usize_max ar.
Definition arch64 (ar : arch) : Prop := usize_max ar = 2 ^ 64 - 1.
(** The length of any Rust slice is at most [isize::MAX]. *)
Definition slice_of (ar : arch) (input : bytes) : Prop := all_bytes input /\ zlen input <= usize_max ar / 2.
Definition slice64 (input : bytes) : Prop := all_bytes input /\ zlen input < 2 ^ 63.

Lemma arch64_up ar : arch64 ar -> arch32up ar.
Proof. unfold arch64, arch32up. lia. Qed.
Lemma arch64_wide ar : arch64 ar -> wide ar.
Proof. unfold arch64, wide. lia. Qed.
Lemma arch64_quiet ar : arch64 ar -> quiet ar.
Proof. intros H. left. apply arch64_wide, H. Qed.
Lemma slice64_of ar input : arch64 ar -> slice64 input -> slice_of ar input.
Proof. unfold arch64, slice64, slice_of. intros -> [H1 H2]. split; auto. lia. Qed.
Lemma slice_of_app_l ar a b : slice_of ar (a ++ b) -> slice_of ar a.
Proof. intros [H1 H2]. apply Forall_app in H1. rewrite zlen_app in H2. pose proof (zlen_nonneg b). split; [apply H1|lia]. Qed.
Lemma slice_of_app_r ar a b : slice_of ar (a ++ b) -> slice_of ar b.
Proof. intros [H1 H2]. apply Forall_app in H1. rewrite zlen_app in H2. pose proof (zlen_nonneg a). split; [apply H1|lia]. Qed.
Lemma slice_fits ar bs : slice_of ar bs -> fits ar bs.
Proof. intros [_ H]. right. exact H. Qed.

Lemma ready_of ar s : arch32up ar -> slice_of ar (sl_data (d_input s)) -> 0 <= d_index s <= zlen (sl_data (d_input s)) -> ready ar s.
Proof. unfold arch32up, slice_of, ready. intros Ha [_ H] Hi. split; [exact Hi|]. split; lia. Qed.

Lemma ready64 ar s : arch64 ar -> slice64 (sl_data (d_input s)) -> 0 <= d_index s <= zlen (sl_data (d_input s)) -> ready ar s.
Proof. intros Ha Hs. apply ready_of; [apply arch64_up|apply slice64_of]; auto. Qed.

(** ** eat_message with the explicit budget *)
Section Eat.
Context (ar : arch).

Lemma eat_exact s m bs t fuel : ready ar s -> mp_fmt m bs -> rest s = bs ++ t ->
  (2 * length bs <= fuel)%nat ->
  exists s', eat_message ar fuel s = Done s' (Ok tt) /\ pos s' = pos s + zlen bs /\ rest s' = t.
Proof.
  intros Hs Hm Hr Hf. destruct (eat_complete_budget ar) as [C _].
  destruct (C _ _ Hm fuel Hf s Hs (ready_fits_app ar s bs t Hs Hr)) as [HN _].
  destruct (HN t Hr) as (s' & E & A).
  exists s'. split; auto. split; [apply A|]. eapply adv_rest; eauto.
Qed.

Lemma eat_truncated s m bs c q fuel : ready ar s -> fits ar bs -> mp_fmt m bs -> bs = rest s ++ c :: q ->
  (2 * length bs <= fuel)%nat ->
  exists s', eat_message ar fuel s = Done s' (Err UnexpectedEof).
Proof.
  intros Hs Fb Hm Hr Hf. destruct (eat_complete_budget ar) as [C _].
  destruct (C _ _ Hm fuel Hf s Hs Fb) as [_ HN]. destruct (HN c q Hr) as (s' & E & A). eauto.
Qed.

(** Where the arithmetic cannot overflow, what has been read bounds the steps. *)
Lemma eat_truncated_wide s m bs c q fuel : ready ar s -> wide ar -> all_bytes (rest s) -> mp_fmt m bs -> bs = rest s ++ c :: q ->
  (2 * length (rest s) + 1 <= fuel)%nat ->
  exists s', eat_message ar fuel s = Done s' (Err UnexpectedEof).
Proof.
  intros Hs W Hb Hm Hr Hf.
  destruct (eat_truncated s m bs c q (Nat.max (2 * length bs) fuel) Hs (or_introl W) Hm Hr (Nat.le_max_l _ _)) as (s' & E).
  destruct (eat_sound ar W fuel) as [S _]. specialize (S s Hs Hb).
  assert (Ne : eat_message ar fuel s <> OutOfFuel).
  { intros Eo. rewrite Eo in S. cbn in S. lia. }
  rewrite (eat_mono ar fuel _ s (Nat.le_max_r _ fuel) Ne) in E. eauto.
Qed.

Lemma eat_sound_top s fuel : ready ar s -> wide ar -> all_bytes (rest s) -> (2 * length (rest s) + 1 <= fuel)%nat ->
  exists s' r, eat_message ar fuel s = Done s' r /\
    exists bs, rest s = bs ++ rest s' /\ pos s' = pos s + zlen bs /\
    match r with
    | Ok _ => exists m, mp_fmt m bs
    | Err e => e = UnexpectedEof \/ e = ReservedCode
    end.
Proof.
  intros Hs W Hb Hf. destruct (eat_sound ar W fuel) as [S _]. specialize (S s Hs Hb).
  destruct (eat_message ar fuel s) as [s' [u|e]| |]; cbn in S.
  - destruct S as (bs & [A E] & Hm). exists s', (Ok u). split; auto. exists bs. split; auto. split; [apply A|auto].
  - destruct S as ((n & A) & He). exists s', (Err e). split; auto.
    destruct (adv_ate _ _ _ _ A) as (bs & [A' E] & L). exists bs. split; auto. split; [apply A'|auto].
  - contradiction.
  - lia.
Qed.

(** Two complete messages at the front of the same bytes are the same bytes. *)
Lemma mp_fmt_prefix_free m m' a b t u : mp_fmt m a -> mp_fmt m' b -> a ++ t = b ++ u -> a = b.
Proof.
  set (ar0 := {| usize_max := 2 * zlen (a ++ t) + 2 ^ 33; overflow_checks := false |}).
  intros H1 H2 E. destruct (eat_complete ar0) as [C _].
  destruct (C _ _ H1) as [N1 R1]. destruct (C _ _ H2) as [N2 R2].
  specialize (R1 (N1 + N2)%nat ltac:(lia)). specialize (R2 (N1 + N2)%nat ltac:(lia)).
  set (s := de_from_slice (a ++ t)).
  assert (Hs : ready ar0 s). { pose proof (zlen_nonneg (a ++ t)). split; [cbn; lia|]. split; cbn [usize_max ar0 s de_from_slice d_input sl_data]; lia. }
  assert (W : wide ar0) by (unfold wide; cbn [usize_max ar0]; pose proof (zlen_nonneg (a ++ t)); lia).
  destruct (R1 s Hs (or_introl W)) as [R1' _]. destruct (R2 s Hs (or_introl W)) as [R2' _].
  destruct (R1' t) as (s1 & E1 & A1); [reflexivity|]. destruct (R2' u) as (s2 & E2 & A2); [exact E|].
  assert (s1 = s2) by congruence. subst s2. destruct A1 as (_ & P1 & _), A2 as (_ & P2 & _).
  assert (L : length a = length b) by (unfold zlen in *; lia).
  apply (f_equal (firstn (length a))) in E. rewrite firstn_app, firstn_all, Nat.sub_diag, firstn_O, app_nil_r in E.
  rewrite L, firstn_app, firstn_all, Nat.sub_diag, firstn_O, app_nil_r in E. auto.
Qed.
End Eat.

(** ** The entry points *)
Lemma init_inv ar input : arch32up ar -> slice_of ar input -> inv ar input (de_from_slice input).
Proof.
  intros Ha [Hb Hl]. split.
  - apply ready_of; auto; [split; auto|]. cbn. pose proof (zlen_nonneg input). lia.
  - split; auto. cbn. pose proof (zlen_nonneg input). split; [lia|]. auto.
Qed.
Lemma init_ready ar input : arch32up ar -> slice_of ar input -> ready ar (de_from_slice input).
Proof. intros Ha Hi. exact (inv_ready _ _ _ (init_inv ar input Ha Hi)). Qed.

Section Top.
Context (ar : arch) (fo : float_ops) (A32 : arch32up ar) (Q : quiet ar).

(** The final state of [from_slice], when it ends. *)
Lemma from_slice_safe {U} fuel (p : deser U mp_de_error) input : slice_of ar input ->
  match mp_from_slice ar fo fuel p input with
  | Done s r => inv ar input s /\
      match r with Ok (_, n) => n = pos s /\ 0 <= n <= zlen input | Err _ => True end
  | Panic => False
  | OutOfFuel => True
  end.
Proof.
  intros Hi. pose proof (init_inv ar _ A32 Hi) as I0. unfold mp_from_slice, dbind.
  pose proof (sr_de ar input _ (safe_run ar fo input Q fuel) p _ I0) as H.
  destruct (r_de (mp_run ar fo fuel) p (de_from_slice input)) as [s [v|e]| |]; auto.
  - destruct H as (I & L & _). unfold de_end. pose proof (inv_ready _ _ _ I) as Hr.
    destruct (d_index s <=? zlen (sl_data (d_input s))) eqn:E; [|destruct Hr; lia].
    destruct I as (R & B & O & D & G).
    assert (Ld : zlen (sl_data (d_input s)) = zlen input - sl_off (d_input s)).
    { rewrite D. unfold zlen in *. rewrite skipn_length. lia. }
    destruct Hr as [Hr _].
    match goal with |- context [?x <=? zlen input] => destruct (x <=? zlen input) eqn:E' end; [|lia].
    cbn. split; [split; auto|]. unfold pos. lia.
  - split; auto. apply H.
Qed.

Lemma split_tail_spec {U} fuel (p : deser U mp_de_error) input : slice_of ar input ->
  mp_from_slice_split_tail ar fo fuel p input =
  match mp_from_slice ar fo fuel p input with
  | Done s (Ok (v, n)) => Done s (Ok (v, skipn (Z.to_nat n) input))
  | Done s (Err e) => Done s (Err e)
  | Panic => Panic
  | OutOfFuel => OutOfFuel
  end.
Proof.
  intros Hi. pose proof (from_slice_safe fuel p input Hi) as H. unfold mp_from_slice_split_tail.
  destruct (mp_from_slice ar fo fuel p input) as [s [[v n]|e]| |]; auto.
  destruct H as (_ & _ & Hn). destruct ((0 <=? n) && (n <=? zlen input)) eqn:E; auto. lia.
Qed.

End Top.

Section Reads.
Context (ar : arch) (fo : float_ops) (A32 : arch32up ar).

(** A program that reads [bs], run on [bs] and anything, returns and reports [bs]'s length. *)
Lemma from_slice_reads {U} (p : deser U mp_de_error) bs v t fuel : slice_of ar (bs ++ t) ->
  reads ar (r_de (mp_run ar fo fuel) p) bs (Ok v) ->
  exists s, mp_from_slice ar fo fuel p (bs ++ t) = Done s (Ok (v, zlen bs)).
Proof.
  intros Hi H. pose proof (init_ready ar _ A32 Hi) as I0.
  destruct (H _ I0 (slice_fits _ _ (slice_of_app_l _ _ _ Hi))) as [H1 _]. destruct (H1 t eq_refl) as (s & E & A).
  unfold mp_from_slice, dbind. rewrite E. unfold de_end.
  pose proof (adv_rest _ _ _ _ bs t A eq_refl eq_refl) as Er. destruct A as (R & P & _).
  change (pos (de_from_slice (bs ++ t))) with 0 in P. destruct R as (R & _).
  destruct (d_index s <=? zlen (sl_data (d_input s))) eqn:E1; [|lia].
  assert (Lt : zlen (sl_data (d_input s)) - d_index s = zlen t).
  { unfold rest in Er. rewrite <- Er. unfold zlen in *. rewrite skipn_length. lia. }
  match goal with |- context [?x <=? zlen (bs ++ t)] => destruct (x <=? zlen (bs ++ t)) eqn:E2 end;
    rewrite zlen_app in *; [|pose proof (zlen_nonneg bs); lia].
  exists s. unfold dret. replace (zlen bs + zlen t - (zlen (sl_data (d_input s)) - d_index s)) with (zlen bs) by lia. reflexivity.
Qed.

Lemma from_slice_truncated {U} (p : deser U mp_de_error) bs r c q fuel : slice_of ar (bs ++ c :: q) ->
  reads ar (r_de (mp_run ar fo fuel) p) (bs ++ c :: q) r ->
  exists s, mp_from_slice ar fo fuel p bs = Done s (Err UnexpectedEof).
Proof.
  intros Hi H. pose proof (init_ready ar _ A32 (slice_of_app_l _ _ _ Hi)) as I0.
  destruct (H _ I0 (slice_fits _ _ Hi)) as [_ H1].
  destruct (H1 c q eq_refl) as (s & E & _). exists s. unfold mp_from_slice, dbind. rewrite E. auto.
Qed.
End Reads.

(** ** The forms used in the property files *)
Lemma skipn_bytes (l : bytes) n : all_bytes l -> all_bytes (skipn n l).
Proof. intros H. rewrite <- (firstn_skipn n l) in H. apply Forall_app in H. apply H. Qed.

Lemma mp_fmt_prefix_free_both m m' a b t u : mp_fmt m a -> mp_fmt m' b -> a ++ t = b ++ u -> a = b /\ t = u.
Proof.
  intros H1 H2 E. pose proof (mp_fmt_prefix_free _ _ _ _ _ _ H1 H2 E). subst b. split; auto.
  apply app_inv_head in E. auto.
Qed.

Lemma from_slice_budget ar fo U (p : deser U mp_de_error) input f g : (f <= g)%nat ->
  mp_from_slice ar fo f p input <> OutOfFuel ->
  mp_from_slice ar fo g p input = mp_from_slice ar fo f p input.
Proof. apply from_slice_mono. Qed.

Lemma from_slice_no_panic ar fo U fuel (p : deser U mp_de_error) input : arch32up ar -> quiet ar -> slice_of ar input ->
  mp_from_slice ar fo fuel p input <> Panic /\ mp_from_slice_split_tail ar fo fuel p input <> Panic /\
  forall s r, mp_from_slice ar fo fuel p input = Done s r ->
    0 <= pos s <= zlen input /\ 0 <= d_index s <= zlen (sl_data (d_input s)) /\
    rest s = skipn (Z.to_nat (pos s)) input.
Proof.
  intros Ha Q Hi. pose proof (from_slice_safe ar fo Ha Q fuel p input Hi) as H.
  rewrite (split_tail_spec ar fo Ha Q fuel p input Hi).
  destruct (mp_from_slice ar fo fuel p input) as [s r| |].
  - split; [discriminate|]. split; [destruct r as [[v n]|e]; discriminate|].
    intros s0 r0 [= <- <-]. destruct H as [I _]. pose proof (inv_ready _ _ _ I) as [Hr _].
    destruct I as (_ & _ & O & D & _).
    assert (Ld : zlen (sl_data (d_input s)) = zlen input - sl_off (d_input s)).
    { rewrite D. unfold zlen in *. rewrite skipn_length. lia. }
    unfold pos, rest. split; [lia|]. split; [lia|]. rewrite D, skipn_add. f_equal. lia.
  - contradiction.
  - split; [discriminate|]. split; discriminate.
Qed.

Lemma from_slice_consumed ar fo U fuel (p : deser U mp_de_error) input s v n :
  arch32up ar -> quiet ar -> slice_of ar input -> mp_from_slice ar fo fuel p input = Done s (Ok (v, n)) ->
  0 <= n <= zlen input /\ n = pos s /\
  mp_from_slice_split_tail ar fo fuel p input = Done s (Ok (v, skipn (Z.to_nat n) input)).
Proof.
  intros Ha Q Hi E. pose proof (from_slice_safe ar fo Ha Q fuel p input Hi) as H.
  rewrite (split_tail_spec ar fo Ha Q fuel p input Hi), E in *. tauto.
Qed.

Lemma from_slice_borrows ar fo U fuel (p : deser U mp_de_error) input s r is_str x :
  arch32up ar -> quiet ar -> slice_of ar input -> mp_from_slice ar fo fuel p input = Done s r -> In (is_str, x) (d_log s) ->
  0 <= sl_off x /\ sl_off x + zlen (sl_data x) <= zlen input /\
  sl_data x = firstn (length (sl_data x)) (skipn (Z.to_nat (sl_off x)) input) /\
  (is_str = true -> valid_utf8 (sl_data x)).
Proof.
  intros Ha Q Hi E Hx. pose proof (from_slice_safe ar fo Ha Q fuel p input Hi) as H. rewrite E in H.
  destruct H as [(_ & _ & _ & _ & L) _]. rewrite Forall_forall in L. apply (L _ Hx).
Qed.

(** 32-bit overflow. *)
Lemma eat32_accepts : let input := [0xc6; 0xff; 0xff; 0xff; 0xfb] in
  let s := {| d_input := {| sl_off := 0; sl_data := input |}; d_index := 0; d_log := [] |} in
  (forall fuel, eat_message {| usize_max := 2 ^ 32 - 1; overflow_checks := false |} (S fuel) s = Done s (Ok tt)) /\
  (forall m bs t, mp_fmt m bs -> input <> bs ++ t).
Proof.
  intros input s. split.
  - reflexivity.
  - intros m bs t H E. set (ar := {| usize_max := 2 ^ 64 - 1; overflow_checks := false |}).
    destruct (eat_complete ar) as [C _]. destruct (C _ _ H) as [N R]. specialize (R (S N) ltac:(lia)).
    assert (Hs : ready ar s) by (split; cbn; unfold zlen; cbn; lia).
    assert (W : wide ar) by (unfold wide; cbn; lia).
    destruct (R s Hs (or_introl W)) as [R' _]. destruct (R' t E) as (s' & E' & _). discriminate E'.
Qed.
Lemma eat32_panics fuel :
  let s i := {| d_input := {| sl_off := 0; sl_data := i |}; d_index := 0; d_log := [] |} in
  eat_message {| usize_max := 2 ^ 32 - 1; overflow_checks := true |} (S fuel) (s [0xc6; 0xff; 0xff; 0xff; 0xfb]) = Panic /\
  eat_message {| usize_max := 2 ^ 32 - 1; overflow_checks := true |} (S fuel) (s [0xc9; 0xff; 0xff; 0xff; 0xff]) = Panic.
Proof. split; reflexivity. Qed.
Lemma eat32_diverges fuel :
  eat_message {| usize_max := 2 ^ 32 - 1; overflow_checks := false |} fuel
    {| d_input := {| sl_off := 0; sl_data := [0x92; 0xc6; 0xff; 0xff; 0xff; 0xfa] |}; d_index := 0; d_log := [] |} = OutOfFuel.
Proof.
  induction fuel as [fuel IH] using (well_founded_induction lt_wf).
  destruct fuel as [|[|[|f]]]; try reflexivity.
  set (ar := {| usize_max := 2 ^ 32 - 1; overflow_checks := false |}) in *. set (s := {| d_input := _ |}) in *.
  change (eat_message ar (S (S (S f))) s) with (dbind (eat_message ar f) (fun _ => dbind (dret tt) (fun _ => eat_items ar f false 0)) s).
  unfold dbind. rewrite IH by lia. reflexivity.
Qed.

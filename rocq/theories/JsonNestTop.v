(** JSON decoding on a bounded stack (C60): how much is enough, and inputs for which it
    is not. *)
From Verif Require Import Prelude PreludeFacts Utf8Spec SerdeSer SerdeDe JsonSpec JsonTypeSpec JsonAnySpec JsonDe JsonDeSafe JsonView JsonMeth JsonEats JsonTyped JsonTypedTop
  Types TypesFacts TypeDepth JsonDepth Nesting JsonNesting JsonAny.
Ltac Zify.zify_post_hook ::= Z.div_mod_to_equations.

Section Room.
Context (ar : arch) (fl : float_parser) (any_f32 : bool) (dec : byte_decoder) (total : nat).
Context (fit : dec = Base64Decoder -> 3 * Z.of_nat total <= usize_max ar).
Local Notation M := (DM jde js_de_error).
Local Notation deep := (@js_deep ar fl any_f32 dec val).
Local Notation run := (@js_run ar fl any_f32 dec val).
Local Notation jinv := (jinv total).

(** Inside the input, with [k] calls more than bytes left. *)
Definition room (k d : nat) (s : jde) : Prop := jinv s /\ (total + k <= jpos s + d)%nat.
Lemma room_pos k d s : room k d s -> (k <= d)%nat.
Proof. intros [(H1 & H2 & _) H]. unfold jpos in H. lia. Qed.
Lemma tri_moves {A} oof P (m : M A) Q k d : tri total oof P m Q -> jmoves (fun s => room k d s /\ P s) m (room k d).
Proof. intros H s s' r [[I L] Ps] E. specialize (H s I Ps). rewrite E in H. destruct r; destruct H as (H1 & [H2 _] & _) || destruct H as (H1 & H2 & _); (split; [exact H1|lia]). Qed.
Lemma tri_moves' {A} oof (m : M A) Q k d : tri total oof any_st m Q -> jmoves (room k d) m (room k d).
Proof. intros H s s' r Hs E. exact (tri_moves oof any_st m Q k d H s s' r (conj Hs I) E). Qed.
Lemma ws_moves k d : jmoves (room k d) eat_whitespace (room k d).
Proof. exact (tri_moves' False _ _ k d (tri_whitespace total False)). Qed.
Lemma eat1_moves k d s s1 s2 c r : room k d s -> eat_whitespace s = Done s1 (Ok c) -> j_eat_some 1 s1 = Done s2 r -> room (k + 1) d s2.
Proof.
  intros Hs E E2. pose proof (ws_moves _ _ _ _ _ Hs E) as [I1 L1]. destruct Hs as [I L].
  pose proof (tri_whitespace total False s I Logic.I) as W. rewrite E in W. destruct W as (_ & _ & W).
  pose proof (tri_eat1 total False c s1 I1 W) as T. rewrite E2 in T. unfold j_eat_some in E2. injection E2 as <- <-.
  destruct T as (T & _). split; [exact T|]. unfold jpos in *. cbn in *. lia.
Qed.

Lemma greedy_eq f : forall d,
  (forall key p s, gd f p -> room 0 d s -> jr_de (deep f d) key p s = jr_de (run f) key p s) /\
  (forall p n s, gs f p -> room 1 d s -> jr_seq (deep f d) p n s = jr_seq (run f) p n s) /\
  (forall p n s, gm f p -> room 1 d s -> jr_map (deep f d) p n s = jr_map (run f) p n s).
Proof.
  induction f as [|f IH]; intros d; [repeat split; reflexivity|].
  set (R := jframe (deep f d) (match d with O => None | S d => Some (deep f d) end)).
  assert (Hn : forall key p s, room 1 d s -> gd f p -> jr_de R key p s = jr_de (run f) key p s).
  { intros key p s Hs Hp. pose proof (room_pos _ _ _ Hs). destruct d as [|d]; [lia|]. apply (proj1 (IH d) key p s Hp). destruct Hs as [I Hs]. split; [exact I|lia]. }
  destruct (@run_safe ar fl any_f32 dec total fit val f) as (Sd & _).
  assert (Kr : forall p, jmoves (room 1 d) (jr_de (run f) false p) (room 1 d)) by (intros p; exact (tri_moves' True _ _ 1 d (Sd false p))).
  assert (Kk : forall p, jmoves (fun s => room 1 d s /\ at_char 34 s) (jr_de (run f) true p) (room 1 d)) by (intros p; exact (tri_moves True _ _ _ 1 d (Sd true p))).
  assert (Kn : forall close e1 e2 e3 first, jmoves (room 1 d) (next_item close e1 e2 e3 first) (room 1 d)) by (intros; exact (tri_moves' False _ _ 1 d (tri_next total False _ _ _ _ _))).
  assert (Kc : jmoves (room 1 d) parse_key_colon (room 1 d)) by exact (tri_moves' False _ _ 1 d (tri_colon total False)).
  destruct (IH d) as (_ & I2 & I3). split; [|split].
  - intros key p s (m & v & post & -> & Hm & H1 & H2) Hs.
    change (dpost post (if key then key_method R m v else js_method ar fl any_f32 dec R m v) s = dpost post (if key then key_method (run f) m v else js_method ar fl any_f32 dec (run f) m v) s).
    apply try_eql; [|reflexivity]. destruct key; [destruct Hm as [-> | ->]; reflexivity|].
    apply (eq_method ar fl any_f32 dec R (run f) v (room 0 d) (room 1 d)); try exact Hs; try (destruct Hm as [-> | ->]; discriminate).
    + intros s1 [I1 L1]. split; [exact I1|lia].
    + apply ws_moves.
    + intros s0 s1 s2 c r H0 E E2. exact (eat1_moves 0 d _ _ _ _ _ H0 E E2).
    + intros n s1 Hs1. apply I2; [exact H1|exact Hs1].
    + intros n s1 Hs1. apply I3; [exact H2|exact Hs1].
  - intros p n s H Hs. change (j_step_seq R p n s = j_step_seq (run f) p n s). destruct p as [r|seed k|k]; cbn [j_step_seq]; [reflexivity| |apply I2; [apply H|exact Hs]].
    destruct H as [H1 H2]. apply try_eq. intros r s1 E. pose proof (Kn _ _ _ _ _ _ _ _ Hs E) as Hs1. destruct r as [[[c n']|]|e]; [|apply I2; [apply H2|exact Hs1]|apply I2; [apply H2|exact Hs1]].
    apply try_eql; [apply Hn; [exact Hs1|exact H1]|]. intros r s2 E2. apply I2; [apply H2|exact (Kr _ _ _ _ Hs1 E2)].
  - intros p n s H Hs. change (j_step_map R p n s = j_step_map (run f) p n s). destruct p as [r|seed k|seed k|k]; cbn [j_step_map]; [reflexivity| | |apply I3; [apply H|exact Hs]].
    + destruct H as [H1 H2]. apply try_eq. intros r s1 E. pose proof (Kn _ _ _ _ _ _ _ _ Hs E) as Hs1. destruct r as [[[c n']|]|e]; [|apply I3; [apply H2|exact Hs1]|apply I3; [apply H2|exact Hs1]].
      destruct (c =? 34) eqn:Ec; [|apply I3; [apply H2|exact Hs1]].
      apply try_eql; [apply Hn; [exact Hs1|exact H1]|]. intros r s2 E2. apply I3; [apply H2|].
      apply Z.eqb_eq in Ec. subst c. refine (Kk _ _ _ _ (conj Hs1 _) E2).
      match type of E with next_item ?a ?b ?c ?e ?g _ = _ => pose proof (tri_next total False a b c e g s (proj1 Hs) I) as T end. rewrite E in T. apply T.
    + destruct H as [H1 H2]. apply try_eql.
      * apply bind_eq. intros u s1 E. apply Hn; [exact (Kc _ _ _ Hs E)|exact H1].
      * intros r s2 E2. apply I3; [apply H2|]. exact (jmoves_bind _ _ _ _ Kc (fun _ => Kr seed) _ _ _ Hs E2).
Qed.
End Room.

(** ** Enough *)
Section Enough.
Context (ar : arch) (fl : float_parser) (any_f32 : bool) (dec : byte_decoder).
Local Notation deep := (@js_deep ar fl any_f32 dec val).
Local Notation run := (@js_run ar fl any_f32 dec val).

Lemma from_slice_eq f d (p : deser val js_de_error) input :
  jr_de (deep f d) false p (j_from_mut_slice input) = jr_de (run f) false p (j_from_mut_slice input) ->
  js_from_mut_slice_deep ar fl any_f32 dec f d p input = js_from_mut_slice ar fl any_f32 dec f p input.
Proof. intros H. unfold js_from_mut_slice_deep, js_from_mut_slice. apply bind_eql, H. Qed.

Lemma typed_run f d key p s : (forall n, dd (fun _ => False) 0 n d p) -> jr_de (deep f d) key p s = jr_de (run f) key p s.
Proof.
  intros Hp. apply (typed_eq ar fl any_f32 dec (fun _ => False) 0 (fun _ => True) (fun _ => True));
    try exact I; try (intros ? ? ? ? ?; exact I); try (intros ? ? ? ? ? ? ?; exact I); try (intros ? ? ? ? ? ? ? ?; exact I); try (intros ? ? ? ? ? ? ? ? ? ?; exact I); try (intros ? ? ? ? ? []; fail).
  apply Hp.
Qed.
(** Types that skip nothing: the type alone. *)
Lemma typed_depth t fuel d input : skips_nothing t -> (type_depth t <= d)%nat ->
  js_from_mut_slice_deep ar fl any_f32 dec fuel d (denote JDeserializeError t) input = js_from_mut_slice ar fl any_f32 dec fuel (denote JDeserializeError t) input.
Proof. intros Hs Hd. apply from_slice_eq, typed_run. intros n. apply denote_dd; [right; exact Hs|lia]. Qed.

Lemma init_jinv input : jinv (length input) (j_from_mut_slice input).
Proof. split; [cbn; lia|]. split; [reflexivity|]. split; [constructor|exact I]. Qed.
Lemma greedy_depth p fuel d input : (dec = Base64Decoder -> 3 * zlen input <= usize_max ar) -> (forall n, gd n p) -> (length input <= d)%nat ->
  js_from_mut_slice_deep ar fl any_f32 dec fuel d p input = js_from_mut_slice ar fl any_f32 dec fuel p input.
Proof.
  intros Hi Hp Hd. apply from_slice_eq. apply (proj1 (greedy_eq ar fl any_f32 dec (length input) Hi fuel d) false p); [apply Hp|].
  split; [apply init_jinv|]. cbn. lia.
Qed.
Lemma skipping_depth t fuel d input : (dec = Base64Decoder -> 3 * zlen input <= usize_max ar) -> (type_depth t + length input <= d)%nat ->
  js_from_mut_slice_deep ar fl any_f32 dec fuel d (denote JDeserializeError t) input = js_from_mut_slice ar fl any_f32 dec fuel (denote JDeserializeError t) input.
Proof.
  intros Hi Hd. apply from_slice_eq.
  assert (W : forall s, jinv (length input) s -> room (length input) 0 (length input) s) by (intros s Hs; split; [exact Hs|lia]).
  assert (Sd := fun f => proj1 (@run_safe ar fl any_f32 dec (length input) Hi val f)).
  apply (typed_eq ar fl any_f32 dec (fun p => forall n, gd n p) (length input) (jinv (length input)) (at_char 34)).
  - intros s s' r Hs E. apply (ws_moves (length input) 0 (length input) s s' r (W s Hs) E).
  - intros s s1 s2 c r Hs E E2. apply (eat1_moves (length input) 0 (length input) s s1 s2 c r (W s Hs) E E2).
  - intros close e1 e2 e3 first s s' r Hs E. apply (tri_moves' (length input) False _ _ 0 (length input) (tri_next (length input) False close e1 e2 e3 first) s s' r (W s Hs) E).
  - intros close e1 e2 e3 first s s' f Hs E. pose proof (tri_next (length input) False close e1 e2 e3 first s Hs I) as T. rewrite E in T. apply T.
  - intros s s' r Hs E. apply (tri_moves' (length input) False _ _ 0 (length input) (tri_colon (length input) False) s s' r (W s Hs) E).
  - intros f p s s' r Hs E. apply (tri_moves' (length input) True _ _ 0 (length input) (Sd f false p) s s' r (W s Hs) E).
  - intros f p s s' r [Hs Ha] E. apply (tri_moves (length input) True _ _ _ 0 (length input) (Sd f true p) s s' r (conj (W s Hs) Ha) E).
  - intros f e key p s Hp He Hs. apply (proj1 (greedy_eq ar fl any_f32 dec (length input) Hi f e) key p); [apply Hp|]. split; [exact Hs|lia].
  - apply init_jinv.
  - apply denote_dd; [left; intros n; apply gd_ignored|lia].
Qed.
End Enough.

(** ** Not enough *)
Section Deep.
Context (ar : arch) (fl : float_parser) (any_f32 : bool) (dec : byte_decoder).
Local Notation deep := (@js_deep ar fl any_f32 dec val).
Local Notation run := (@js_run ar fl any_f32 dec val).
Local Notation inside := (JsonView.inside ar dec).
Local Notation any := (any JDeserializeError).

(** Programs that read every element of an array the way they started. *)
Definition greedy (p : deser val js_de_error) : Prop :=
  exists m v k, p = DReq m v (fun r => r) /\ (m = DAny \/ m = DIgnoredAny) /\ visit_seq v = SNext p k.
Lemma any_greedy : greedy any.
Proof.
  eexists _, _, _. split; [rewrite (dfrob_eq any) at 1; reflexivity|]. split; [left; reflexivity|].
  exact (sfrob_eq (any_seq JDeserializeError [])).
Qed.
Lemma ignored_greedy : greedy ignored.
Proof.
  destruct (@ignored_req js_de_error) as (v & E & _ & _ & _ & V & _). eexists _, v, _. split; [exact E|]. split; [right; reflexivity|].
  rewrite V, (sfrob_eq ignored_seq). reflexivity.
Qed.

Lemma ws_at s c l : inside s -> unparsed s = c :: l -> is_space c = false -> exists s', eat_whitespace s = Done s' (Ok c) /\ inside s' /\ unparsed s' = c :: l.
Proof.
  intros Hi E Hc. pose proof (ws_state ar dec s Hi) as W. rewrite E in W. cbn [drop_ws] in W. rewrite Hc in W.
  destruct W as (s' & E' & I' & U' & _). eauto.
Qed.
Lemma eat_at s c l : inside s -> unparsed s = c :: l -> exists s', j_eat_some 1 s = Done s' (Ok tt) /\ inside s' /\ unparsed s' = l.
Proof. intros Hi E. destruct (eat_state ar dec s [c] l Hi E) as [I' U']. eexists. split; [reflexivity|]. auto. Qed.
Lemma seq_opens (R : @jrunner val) m v s l : (m = DAny \/ m = DIgnoredAny) -> inside s -> unparsed s = 91 :: l ->
  exists s1, inside s1 /\ unparsed s1 = l /\ (jr_seq R (visit_seq v) true s1 = Panic -> js_method ar fl any_f32 dec R m v s = Panic).
Proof.
  intros Hm Hi E. destruct (ws_at s _ _ Hi E eq_refl) as (s1 & W1 & I1 & U1). destruct (ws_at s1 _ _ I1 U1 eq_refl) as (s2 & W2 & I2 & U2).
  destruct (eat_at s2 _ _ I2 U2) as (s3 & W3 & I3 & U3). exists s3. split; [exact I3|]. split; [exact U3|]. intros HP.
  assert (Q : j_deserialize_seq R v s1 = Panic).
  { unfold j_deserialize_seq, dbind at 1. rewrite W2. change (91 =? 91) with true. cbv iota. unfold dbind at 1. rewrite W3. unfold dbind at 1. rewrite HP. reflexivity. }
  destruct Hm as [-> | ->]; cbn [js_method]; [unfold j_deserialize_any|unfold j_deserialize_ignored_any]; unfold dbind at 1; rewrite W1; exact Q.
Qed.
Lemma item_at close e1 e2 e3 s c l : close <> 44 -> inside s -> unparsed s = c :: l -> is_space c = false -> c <> close -> c <> 44 -> exists s',
  next_item close e1 e2 e3 true s = Done s' (Ok (Some (c, false))) /\ inside s' /\ unparsed s' = c :: l.
Proof.
  intros Hcl Hi E Hc Hn H4. destruct (item_next ar dec close e1 e2 e3 Hcl true [] [] c l) as [N H]; try assumption; try constructor.
  exact (H N (Nat.le_refl _) s Hi E).
Qed.
Lemma over p : greedy p -> forall d f s t, inside s -> unparsed s = repeat 91 (S (S d)) ++ t -> (2 * d + 4 <= f)%nat -> jr_de (deep f d) false p s = Panic.
Proof.
  intros (m & v & k & Ep & Hm & Hv). induction d as [|d IH]; intros f s t Hi E Hf; (destruct f as [|[|f]]; [lia|lia|]).
  - rewrite Ep. set (R := jframe (deep (S f) 0) None). change (dpost (fun r => r) (js_method ar fl any_f32 dec R m v) s = Panic).
    destruct (seq_opens R m v s _ Hm Hi E) as (s1 & I1 & U1 & H). unfold dpost, dtry. rewrite H; [reflexivity|].
    change (j_step_seq (jframe (deep f 0) None) (visit_seq v) true s1 = Panic). rewrite Hv. cbn [j_step_seq]. unfold dtry at 1.
    destruct (item_at 93 JLeadingArrayComma JTrailingArrayComma JExpectedArrayCommaOrEnd s1 91 _ ltac:(lia) I1 U1 eq_refl ltac:(lia) ltac:(lia)) as (s2 & -> & I2 & U2). reflexivity.
  - rewrite Ep. set (R := jframe (deep (S f) (S d)) (Some (deep (S f) d))). change (dpost (fun r => r) (js_method ar fl any_f32 dec R m v) s = Panic).
    destruct (seq_opens R m v s _ Hm Hi E) as (s1 & I1 & U1 & H). unfold dpost, dtry. rewrite H; [reflexivity|].
    change (j_step_seq (jframe (deep f (S d)) (Some (deep f d))) (visit_seq v) true s1 = Panic). rewrite Hv. cbn [j_step_seq]. unfold dtry at 1.
    destruct (item_at 93 JLeadingArrayComma JTrailingArrayComma JExpectedArrayCommaOrEnd s1 91 _ ltac:(lia) I1 U1 eq_refl ltac:(lia) ltac:(lia)) as (s2 & -> & I2 & U2).
    unfold dtry at 1. change (jr_de (jframe (deep f (S d)) (Some (deep f d))) false p s2) with (jr_de (deep f d) false p s2).
    rewrite (IH f s2 t I2 U2) by lia. reflexivity.
Qed.

(** Arrays in one another, the innermost empty. *)
Definition nested (n : nat) : bytes := repeat 91 n ++ repeat 93 n.
Fixpoint nested_doc (n : nat) : jv := match n with O => JArr [] | S n => JArr [nested_doc n] end.
Fixpoint nested_val (n : nat) : val := match n with O => USeq [] | S n => USeq [nested_val n] end.
Lemma nested_raw n : raw_text (nested_doc n) (nested (S n)).
Proof.
  induction n as [|n IH]; [apply (T_arr0 any_ws quoted quoted json_number []); constructor|].
  replace (nested (S (S n))) with (91 :: ([] ++ nested (S n) ++ []) ++ [93]).
  - apply T_arr. apply L_one; [constructor|exact IH|constructor].
  - cbn [app]. rewrite app_nil_r. unfold nested. cbn [repeat app]. do 2 f_equal. rewrite <- app_assoc. do 2 f_equal.
    symmetry. exact (repeat_cons (S n) 93).
Qed.
Lemma nested_as float_of n : any_as any_f32 float_of (nested_val n) (nested_doc n).
Proof. induction n as [|n IH]; cbn; apply A_arr; [constructor|]. constructor; [exact IH|constructor]. Qed.
Lemma nested_skippable n : skippable (nested_doc n).
Proof. induction n as [|n IH]; [exact I|]. split; [exact IH|exact I]. Qed.
Lemma nested_len n : zlen (nested n) = 2 * Z.of_nat n.
Proof. unfold nested, zlen. rewrite app_length, !repeat_length. lia. Qed.
Lemma init_inside input : (dec = Base64Decoder -> 3 * zlen input <= usize_max ar) -> inside (j_from_mut_slice input).
Proof. intros H. split; [cbn; lia|exact H]. Qed.

Lemma any_overflows d : (dec = Base64Decoder -> 3 * (2 * Z.of_nat d + 4) <= usize_max ar) -> 
  exists N, forall fuel, (N <= fuel)%nat ->
    (exists s, js_from_mut_slice ar fl any_f32 dec fuel any (nested (S (S d))) = Done s (Ok (nested_val (S d)))) /\
    js_from_mut_slice_deep ar fl any_f32 dec fuel d any (nested (S (S d))) = Panic.
Proof.
  intros Hd. assert (Hi : dec = Base64Decoder -> 3 * zlen (nested (S (S d))) <= usize_max ar) by (intros Ed; rewrite nested_len; specialize (Hd Ed); lia).
  destruct (self_describing_reads ar fl any_f32 dec (nested_val (S d)) (nested_doc (S d)) (nested (S (S d))) [] []) as [N HN];
    [apply nested_as|apply nested_raw|constructor|constructor|rewrite app_nil_r; exact Hi|].
  exists (N + 2 * d + 4)%nat. intros fuel Hf. split; [destruct (HN fuel) as (s & E); [lia|]; cbn [app] in E; rewrite app_nil_r in E; eauto|].
  unfold js_from_mut_slice_deep, dbind. rewrite (over any any_greedy d fuel _ (repeat 93 (S (S d)))); [reflexivity|apply init_inside; exact Hi|reflexivity|lia].
Qed.
Lemma ignored_overflows d : (dec = Base64Decoder -> 3 * (2 * Z.of_nat d + 4) <= usize_max ar) -> 
  exists N, forall fuel, (N <= fuel)%nat ->
    (exists s, js_from_mut_slice ar fl any_f32 dec fuel ignored (nested (S (S d))) = Done s (Ok UUnit)) /\
    js_from_mut_slice_deep ar fl any_f32 dec fuel d ignored (nested (S (S d))) = Panic.
Proof.
  intros Hd. assert (Hi : dec = Base64Decoder -> 3 * zlen (nested (S (S d))) <= usize_max ar) by (intros Ed; rewrite nested_len; specialize (Hd Ed); lia).
  destruct (accepts_top ar fl any_f32 dec ignored (nested_doc (S d)) UUnit (nested (S (S d))) [] []) as [N HN];
    [apply ignored_accepts, nested_skippable|apply raw_loose, nested_raw|constructor|constructor|rewrite app_nil_r; exact Hi|].
  exists (N + 2 * d + 4)%nat. intros fuel Hf. split; [destruct (HN fuel) as (s & E); [lia|]; cbn [app] in E; rewrite app_nil_r in E; eauto|].
  unfold js_from_mut_slice_deep, dbind. rewrite (over ignored ignored_greedy d fuel _ (repeat 93 (S (S d)))); [reflexivity|apply init_inside; exact Hi|reflexivity|lia].
Qed.

(** A struct that does not know the only field of the input. *)
Definition unknown_field (raw : bytes) (n : nat) : bytes := 123 :: 34 :: raw ++ 34 :: 58 :: nested n ++ [125].
Lemma struct_overflows fs raw k d : literal raw k -> ~ In k (map name_of fs) -> (dec = Base64Decoder -> 3 * (2 * Z.of_nat d + zlen raw + 7) <= usize_max ar) ->
  exists N, forall fuel, (N <= fuel)%nat ->
    js_from_mut_slice ar fl any_f32 dec fuel (denote JDeserializeError (TStruct fs)) (unknown_field raw (S d)) <> Panic /\
    js_from_mut_slice_deep ar fl any_f32 dec fuel d (denote JDeserializeError (TStruct fs)) (unknown_field raw (S d)) = Panic.
Proof.
  intros L Hk Hd. assert (Hi : dec = Base64Decoder -> 3 * zlen (unknown_field raw (S d)) <= usize_max ar).
  { intros Ed. specialize (Hd Ed). unfold unknown_field, zlen in *. cbn [length]. rewrite app_length. cbn [length]. rewrite app_length. pose proof (nested_len (S d)) as Ln. unfold zlen in Ln. cbn [length]. lia. }
  pose proof (unknown_key ar fl any_f32 dec (map name_of fs) k raw Hk L (58 :: nested (S d) ++ [125])) as [N HN].
  exists (N + 2 * d + 10)%nat. intros fuel Hf. split; [apply from_mut_slice_no_panic; exact Hi|].
  unfold js_from_mut_slice_deep, dbind. set (s := j_from_mut_slice (unknown_field raw (S d))).
  assert (E : jr_de (deep fuel d) false (denote JDeserializeError (TStruct fs)) s = Panic); [|rewrite E; reflexivity].
  destruct fuel as [|[|[|fuel]]]; [lia|lia|lia|]. set (f2 := S fuel) in *.
  cbn [denote]. unfold request. set (mp := struct_loop JDeserializeError _ _ _ _). set (v := mk_visitor _).
  destruct (ws_at s 123 _ (init_inside _ Hi) eq_refl eq_refl) as (s1 & W1 & I1 & U1). destruct (ws_at s1 _ _ I1 U1 eq_refl) as (s2 & W2 & I2 & U2).
  destruct (eat_at s2 _ _ I2 U2) as (s3 & W3 & I3 & U3).
  assert (Step : forall (R : @jrunner val) o, jr_map R mp true s3 = Panic -> dpost (fun r => r) (js_method ar fl any_f32 dec R DStruct v) s = o -> o = Panic).
  { intros R o HP <-. unfold dpost, dtry. cbn [js_method]. unfold j_deserialize_struct, dbind at 1. rewrite W1. change (123 =? 123) with true. cbv iota.
    unfold j_deserialize_map, dbind at 1. rewrite W2. change (123 =? 123) with true. cbv iota. unfold dbind at 1. rewrite W3. unfold dbind at 1.
    change (visit_map v) with mp. rewrite HP. reflexivity. }
  set (R1 := jframe (deep (S f2) d) (match d with O => None | S d => Some (deep (S f2) d) end)).
  apply (Step R1); [|reflexivity]. change (j_step_map (jframe (deep f2 d) (match d with O => None | S d => Some (deep f2 d) end)) mp true s3 = Panic).
  unfold mp. rewrite (mfrob_eq (struct_loop _ _ _ _ _)). cbn [j_step_map mfrob struct_loop]. unfold dtry at 1.
  destruct (item_at 125 JLeadingObjectComma JTrailingObjectComma JExpectedObjectCommaOrEnd s3 34 _ ltac:(lia) I3 U3 eq_refl ltac:(lia) ltac:(lia)) as (s4 & -> & I4 & U4).
  change (34 =? 34) with true. cbv iota. unfold dtry at 1. destruct d as [|d]; [reflexivity|].
  change (jr_de (jframe (deep f2 (S d)) (Some (deep f2 d))) true (ident JDeserializeError false (map name_of fs)) s4)
    with (jr_de (deep f2 d) true (ident JDeserializeError false (map name_of fs)) s4).
  rewrite typed_run by (intros n; apply dd_ident).
  destruct (HN f2 ltac:(unfold f2; lia) s4 I4 U4) as (s5 & -> & I5 & U5). cbn [jres_some].
  change (j_step_map (jframe (deep fuel (S d)) (Some (deep fuel d))) (MVal ignored (fun r => match r with Ok _ => mp | Err e => MRet (Err e) end)) false s5 = Panic).
  cbn [j_step_map]. unfold dtry at 1, dbind.
  destruct (eats_colon ar dec [] (nested (S (S d)) ++ [125])) as [N' HC]; [constructor|].
  destruct (HC N' (Nat.le_refl _) s5 I5 U5) as (s6 & -> & I6 & U6).
  change (jr_de (jframe (deep fuel (S d)) (Some (deep fuel d))) false ignored s6) with (jr_de (deep fuel d) false ignored s6).
  rewrite (over ignored ignored_greedy d fuel s6 (repeat 93 (S (S d)) ++ [125])); [reflexivity|exact I6| |lia].
  rewrite U6. unfold nested. rewrite <- app_assoc. reflexivity.
Qed.
End Deep.

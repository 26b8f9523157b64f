(** Every fault of a JSON input gives the error it should. *)
From Verif Require Import Prelude PreludeFacts Utf8 Utf8Spec Utf8Facts SerdeDe SerdeSer MpSpec Base64Spec
  JsonSpec JsonTypeSpec JsonFacts JsonDe JsonDeSafe JsonStr JsonView JsonTok JsonMeth JsonEats JsonTyped
  Types TypesFacts MpTypeSpec MpTyped MpSerSim JsonSound JsonFaultSpec JsonFaultLeaf.
Ltac Zify.zify_post_hook ::= Z.div_mod_to_equations.

Section Fault.
Context (ar : arch) (fl : float_parser) (any_f32 : bool) (dec : byte_decoder).
Local Notation M := (DM jde js_de_error).
Local Notation inside := (inside ar dec).
Local Notation views := (views ar dec).
Local Notation run := (js_run ar fl any_f32 dec).
Local Notation eats := (eats ar dec).
Local Notation den := (denote JDeserializeError).

(** ** Outcomes with a large enough budget *)
Definition gives {A} (m : nat -> M A) (l : bytes) (P : outcome jde A js_de_error -> Prop) : Prop :=
  exists N, forall f, (N <= f)%nat -> forall s, inside s -> unparsed s = l -> P (m f s).
Definition failed {A} (e : js_de_error) (o : outcome jde A js_de_error) : Prop := exists s', o = Done s' (Err e).
Local Notation fails m l e := (gives m l (failed e)).

Lemma gives_S {A} (m : nat -> M A) l P : gives (fun f => m (S f)) l P -> gives m l P.
Proof. intros [N H]. exists (S N). intros f Hf. destruct f as [|f]; [lia|]. apply H. lia. Qed.
Lemma gives_up {A} (m : nat -> M A) l P : gives m l P -> gives (fun f => m (S f)) l P.
Proof. intros [N H]. exists N. intros f Hf. apply H. lia. Qed.
Lemma gives_ext {A} (m m' : nat -> M A) l P : (forall f, m f = m' f) -> gives m' l P -> gives m l P.
Proof. intros E [N H]. exists N. intros f Hf. rewrite E. auto. Qed.
Lemma gives_bind {A B} (m : nat -> M A) (g : nat -> A -> M B) a l k P :
  eats m a l k -> gives (fun f => g f a) k P -> gives (fun f => dbind (m f) (g f)) l P.
Proof.
  intros [N H] [N' H']. exists (Nat.max N N'). intros f Hf s I U. destruct (H f ltac:(lia) s I U) as (s1 & E & I1 & U1).
  unfold dbind. rewrite E. apply H'; auto. lia.
Qed.
Lemma gives_try {A B} (m : nat -> M A) (g : nat -> result A js_de_error -> M B) a l k P :
  eats m a l k -> gives (fun f => g f (Ok a)) k P -> gives (fun f => dtry (m f) (g f)) l P.
Proof.
  intros [N H] [N' H']. exists (Nat.max N N'). intros f Hf s I U. destruct (H f ltac:(lia) s I U) as (s1 & E & I1 & U1).
  unfold dtry. rewrite E. apply H'; auto. lia.
Qed.
Lemma fails_bind {A B} (m : nat -> M A) (g : nat -> A -> M B) l e : fails m l e -> fails (fun f => dbind (m f) (g f)) l e.
Proof. intros [N H]. exists N. intros f Hf s I U. destruct (H f Hf s I U) as (s1 & E). exists s1. unfold dbind. rewrite E. reflexivity. Qed.
(** Wherever the failure has left the input, the handler passes it on. *)
Definition passes {A B} (g : nat -> result A js_de_error -> M B) (e : js_de_error) : Prop :=
  exists N, forall f, (N <= f)%nat -> forall s, failed e (g f (Err e) s).
Lemma fails_try {A B} (m : nat -> M A) (g : nat -> result A js_de_error -> M B) l e : fails m l e -> passes g e ->
  fails (fun f => dtry (m f) (g f)) l e.
Proof.
  intros [N H] [N' H']. exists (Nat.max N N'). intros f Hf s I U. destruct (H f ltac:(lia) s I U) as (s1 & E). unfold dtry. rewrite E. apply H'. lia.
Qed.
Lemma fails_lift {A} (r : result A js_de_error) e l : r = Err e -> fails (fun _ => dlift r) l e.
Proof. intros ->. exists O. intros f _ s I U. exists s. reflexivity. Qed.
Lemma fails_fail {A} e l : fails (fun _ => @dfail jde js_de_error A e) l e.
Proof. exists O. intros f _ s I U. exists s. reflexivity. Qed.
Lemma fails_post {A B} (post : result A js_de_error -> result B js_de_error) (m : nat -> M A) e l :
  fails m l e -> post (Err e) = Err e -> fails (fun f => dpost post (m f)) l e.
Proof.
  intros H E. apply (fails_try m (fun _ r => dlift (post r)) l e H). exists O. intros f _ s. exists s. unfold dlift. rewrite E. reflexivity.
Qed.
Lemma fails_unpost {A} (m : nat -> M A) l e : fails (fun f => dpost (fun r => r) (m f)) l e -> fails m l e.
Proof.
  intros [N H]. exists N. intros f Hf s I U. destruct (H f Hf s I U) as (s' & E). exists s'.
  unfold dpost, dtry, dlift in E. destruct (m f s); auto; discriminate.
Qed.
Lemma fails_view {A B} (proj : A -> B) (m : M A) g l e : views proj m g -> (fits ar dec (length l) -> g l = Err e) -> fails (fun _ => m) l e.
Proof. intros V E. exists O. intros f _ s I H. specialize (V s I). rewrite H, (E (fits_unparsed ar dec s l I H)) in V. exact V. Qed.
Lemma eats_view_any {A B} (proj : A -> B) (m : M A) g b l k : views proj m g -> (fits ar dec (length l) -> g l = Ok (b, k)) ->
  exists N, forall f, (N <= f)%nat -> forall s, inside s -> unparsed s = l -> exists s' a, m s = Done s' (Ok a) /\ proj a = b /\ inside s' /\ unparsed s' = k.
Proof. intros V E. exists O. intros f _ s I H. specialize (V s I). rewrite H, (E (fits_unparsed ar dec s l I H)) in V. exact V. Qed.

Lemma ws_begins l c r : begins l c r -> exists w, l = w ++ c :: r /\ blank w /\ is_space c = false.
Proof. intros (w & -> & Hw & Hc). exists w. split; auto. split; auto. apply not_space; auto. Qed.
Lemma gives_ws {A} (K : nat -> Z -> M A) l c r P : begins l c r -> gives (fun f => K f c) (c :: r) P -> gives (fun f => dbind eat_whitespace (K f)) l P.
Proof.
  intros H HK. destruct (ws_begins _ _ _ H) as (w & -> & Hw & Hc). apply (gives_bind (fun _ => eat_whitespace) K c _ (c :: r)); [|exact HK].
  exists O. intros f _ s I U. pose proof (ws_state ar dec s I) as W. rewrite U, drop_ws_blank, drop_ws_char in W by auto.
  destruct W as (s' & E & I' & U' & _). eauto.
Qed.
Lemma fails_ws {A} (K : nat -> Z -> M A) l : any_ws l -> fails (fun f => dbind eat_whitespace (K f)) l JUnexpectedEof.
Proof.
  intros H. apply ws_drop in H. exists O. intros f _ s I U. pose proof (ws_state ar dec s I) as W. rewrite U, H in W.
  exists s. unfold dbind. rewrite W. reflexivity.
Qed.
Lemma gives_eat1 {A} (m : nat -> M A) c r P : gives m r P -> gives (fun f => dbind (j_eat_some 1) (fun _ => m f)) (c :: r) P.
Proof.
  intros H. apply (gives_bind (fun _ => j_eat_some 1) (fun f _ => m f) tt _ r); [|exact H].
  exists O. intros f _ s I U. destruct (eat_state ar dec s [c] r I U) as [I' U']. eexists. split; [reflexivity|]. auto.
Qed.
Lemma eats_ws1 {A} (K : nat -> Z -> M A) a l c r k : begins l c r -> eats (fun f => K f c) a (c :: r) k -> eats (fun f => dbind eat_whitespace (K f)) a l k.
Proof. intros H. destruct (ws_begins _ _ _ H) as (w & -> & Hw & Hc). apply eats_ws; auto. Qed.
Lemma eats_colon1 l r : begins l 58 r -> eats (fun _ => parse_key_colon) tt l r.
Proof. intros H. destruct (ws_begins _ _ _ H) as (w & -> & Hw & Hc). apply eats_colon; auto. Qed.
Lemma colon_err l e : colon_fault l e <-> p_colon l = Err e.
Proof.
  unfold p_colon. split.
  - intros H. destruct H as [l H|l c r H N]; [apply p_ws_end; auto|]. rewrite (p_ws_begins _ _ _ _ H). replace (c =? 58) with false by lia. reflexivity.
  - destruct (ws_cases l) as [Hw|(c & r & Hb)]; [rewrite p_ws_end by auto; intros [= <-]; apply CF_end; auto|]. rewrite (p_ws_begins _ _ _ _ Hb).
    destruct (Z.eqb_spec c 58); [discriminate|]. intros [= <-]. eapply CF_colon; eauto.
Qed.
Lemma fails_colon l e : colon_fault l e -> fails (fun _ => parse_key_colon) l e.
Proof. intros H. eapply fails_view; [apply view_colon|]. intros _. apply colon_err; auto. Qed.

(** ** Between two items *)
Section Item.
Context (close : Z) (e1 e2 e3 : js_de_error) (Hc : close <> 44).
Lemma gap_fails first l e : gap_fault close e1 e2 e3 first l e -> fails (fun _ => next_item close e1 e2 e3 first) l e.
Proof.
  unfold next_item. intros H. destruct H as [first l H|l r H|l c r H N1 N2|l r H H2|l r r' H H2].
  - apply fails_ws; auto.
  - eapply gives_ws; [exact H|]. replace (44 =? close) with false by lia. cbn [Z.eqb Pos.eqb]. apply fails_fail.
  - eapply gives_ws; [exact H|]. replace (c =? close) with false by lia. replace (c =? 44) with false by lia. apply fails_fail.
  - eapply gives_ws; [exact H|]. replace (44 =? close) with false by lia. cbn [Z.eqb Pos.eqb]. apply gives_eat1. apply fails_ws; auto.
  - eapply gives_ws; [exact H|]. replace (44 =? close) with false by lia. cbn [Z.eqb Pos.eqb]. apply gives_eat1. eapply gives_ws; [exact H2|].
    rewrite Z.eqb_refl. apply fails_fail.
Qed.
Lemma item_eats first l c r : item close first l (c :: r) -> eats (fun _ => next_item close e1 e2 e3 first) (Some (c, false)) l (c :: r).
Proof.
  intros (c' & r' & [= <- <-] & Nc & H). unfold next_item. destruct first.
  - destruct H as [H N44]. eapply eats_ws1; [exact H|]. replace (c =? close) with false by lia. replace (c =? 44) with false by lia. apply eats_ret.
  - destruct H as (m & H1 & H2). eapply eats_ws1; [exact H1|]. replace (44 =? close) with false by lia. cbn [Z.eqb Pos.eqb]. apply eats_eat1.
    eapply eats_ws1; [exact H2|]. replace (c =? close) with false by lia. apply eats_ret.
Qed.
Lemma close_eats first l r : begins l close r -> eats (fun _ => next_item close e1 e2 e3 first) None l (close :: r).
Proof. intros H. destruct (ws_begins _ _ _ H) as (w & -> & Hw & Hs). apply item_end; auto. Qed.
End Item.

(** ** Programs *)
Local Notation deser := (deser val js_de_error).
Local Notation visitor := (visitor val js_de_error).
Local Notation sprog := (sprog val js_de_error).
Local Notation mprog := (mprog val js_de_error).
Local Notation reading p := (fun f => jr_de (run f) false p).
Local Notation keyed p := (fun f => jr_de (run f) true p).
Local Notation seqing p first := (fun f => jr_seq (run f) p first).
Local Notation mapping p first := (fun f => jr_map (run f) p first).

Lemma fails_req m (v : visitor) l e : fails (fun f => js_method ar fl any_f32 dec (run f) m v) l e <-> fails (reading (DReq m v (fun r => r))) l e.
Proof.
  split; intros H.
  - apply gives_S. cbn [js_run jr_de j_step_de]. apply fails_post; auto.
  - apply fails_unpost. apply gives_up in H. exact H.
Qed.

(** From one point of a sequence to another. *)
Definition sreach (p : sprog) (first : bool) (l : bytes) (p' : sprog) (first' : bool) (k : bytes) : Prop :=
  forall P, gives (seqing p' first') k P -> gives (seqing p first) l P.
Definition mreach (p : mprog) (first : bool) (l : bytes) (p' : mprog) (first' : bool) (k : bytes) : Prop :=
  forall P, gives (mapping p' first') k P -> gives (mapping p first) l P.
Lemma sreach_refl p first l : sreach p first l p first l. Proof. intros P H. exact H. Qed.
Lemma mreach_refl p first l : mreach p first l p first l. Proof. intros P H. exact H. Qed.
Lemma sreach_trans p1 f1 l1 p2 f2 l2 p3 f3 l3 : sreach p1 f1 l1 p2 f2 l2 -> sreach p2 f2 l2 p3 f3 l3 -> sreach p1 f1 l1 p3 f3 l3.
Proof. intros H1 H2 P H. auto. Qed.
Lemma mreach_trans p1 f1 l1 p2 f2 l2 p3 f3 l3 : mreach p1 f1 l1 p2 f2 l2 -> mreach p2 f2 l2 p3 f3 l3 -> mreach p1 f1 l1 p3 f3 l3.
Proof. intros H1 H2 P H. auto. Qed.
Lemma item_cons close first l x : item close first l x -> exists c r, x = c :: r.
Proof. intros (c & r & -> & _). eauto. Qed.
Lemma snext_item (seed : deser) kk first l x v y : item 93 first l x -> eats (reading seed) v x y -> sreach (SNext seed kk) first l (kk (Ok (Some v))) false y.
Proof.
  intros Hi He P H. destruct (item_cons _ _ _ _ Hi) as (c & r & ->). apply gives_S. cbn [js_run jr_seq j_step_seq].
  eapply gives_try; [apply item_eats; [lia|exact Hi]|]. cbn iota beta. eapply gives_try; [exact He|]. exact H.
Qed.
Lemma snext_close (seed : deser) kk first l r : begins l 93 r -> sreach (SNext seed kk) first l (kk (Ok None)) first (93 :: r).
Proof. intros Hb P H. apply gives_S. cbn [js_run jr_seq j_step_seq]. eapply gives_try; [apply close_eats; exact Hb|]. exact H. Qed.
Lemma sret_fails r first e : r = Err e -> exists N, forall f, (N <= f)%nat -> forall s, failed e (jr_seq (run f) (@SRet val js_de_error r) first s).
Proof. intros ->. exists 1%nat. intros f Hf s. destruct f as [|f]; [lia|]. exists s. reflexivity. Qed.
Lemma mret_fails r first e : r = Err e -> exists N, forall f, (N <= f)%nat -> forall s, failed e (jr_map (run f) (@MRet val js_de_error r) first s).
Proof. intros ->. exists 1%nat. intros f Hf s. destruct f as [|f]; [lia|]. exists s. reflexivity. Qed.
Lemma any_state {A} (m : nat -> M A) e l : (exists N, forall f, (N <= f)%nat -> forall s, failed e (m f s)) -> fails m l e.
Proof. intros [N H]. exists N. intros f Hf s _ _. apply H. auto. Qed.
Lemma snext_gap (seed : deser) kk first l e : array_gap first l e -> kk (Err e) = SRet (Err e) -> fails (seqing (SNext seed kk) first) l e.
Proof.
  intros Hg Hk. apply gives_S. cbn [js_run jr_seq j_step_seq]. eapply fails_try; [apply gap_fails; [lia|exact Hg]|].
  unfold passes. cbn iota beta. rewrite Hk. apply sret_fails. reflexivity.
Qed.
Lemma snext_elem (seed : deser) kk first l x e : item 93 first l x -> fails (reading seed) x e -> kk (Err e) = SRet (Err e) ->
  fails (seqing (SNext seed kk) first) l e.
Proof.
  intros Hi Hf Hk. destruct (item_cons _ _ _ _ Hi) as (c & r & ->). apply gives_S. cbn [js_run jr_seq j_step_seq].
  eapply gives_try; [apply item_eats; [lia|exact Hi]|]. cbn iota beta. eapply fails_try; [exact Hf|].
  unfold passes. cbn [jres_some]. rewrite Hk. apply sret_fails. reflexivity.
Qed.
Lemma sret_eats (u : val) first l : eats (seqing (SRet (Ok u)) first) u l l.
Proof. apply eats_S. cbn [js_run jr_seq j_step_seq]. apply eats_lift. reflexivity. Qed.
Lemma sret_fail e first l : fails (seqing (@SRet val _ (Err e)) first) l e.
Proof. apply any_state, sret_fails. reflexivity. Qed.

(** Objects: a key, then what follows it. *)
Lemma mkey_item (seed : deser) kk first l q u m : item 125 first l (34 :: q) -> eats (keyed seed) u (34 :: q) m ->
  mreach (MKey seed kk) first l (kk (Ok (Some u))) false m.
Proof.
  intros Hi He P H. apply gives_S. cbn [js_run jr_map j_step_map]. eapply gives_try; [apply item_eats; [lia|exact Hi]|]. cbn iota beta. cbn [Z.eqb Pos.eqb].
  eapply gives_try; [exact He|]. exact H.
Qed.
Lemma mval_item (seed : deser) kk first m x v y : begins m 58 x -> eats (reading seed) v x y -> mreach (MVal seed kk) first m (kk (Ok v)) first y.
Proof.
  intros Hb He P H. apply gives_S. cbn [js_run jr_map j_step_map].
  apply (gives_try (fun f => _ <-- parse_key_colon ;; jr_de (run f) false seed) (fun f r => jr_map (run f) (kk r) first) v m y); [|exact H].
  eapply eats_bind; [apply eats_colon1; exact Hb|exact He].
Qed.
Lemma mkey_close (seed : deser) kk first l r : begins l 125 r -> mreach (MKey seed kk) first l (kk (Ok None)) first (125 :: r).
Proof. intros Hb P H. apply gives_S. cbn [js_run jr_map j_step_map]. eapply gives_try; [apply close_eats; exact Hb|]. exact H. Qed.
Lemma mkey_gap (seed : deser) kk first l e : object_gap first l e -> kk (Err e) = MRet (Err e) -> fails (mapping (MKey seed kk) first) l e.
Proof.
  intros Hg Hk. apply gives_S. cbn [js_run jr_map j_step_map]. eapply fails_try; [apply gap_fails; [lia|exact Hg]|].
  unfold passes. cbn iota beta. rewrite Hk. apply mret_fails. reflexivity.
Qed.
Lemma mret_fail e first l : fails (mapping (@MRet val _ (Err e)) first) l e.
Proof. apply any_state, mret_fails. reflexivity. Qed.
Lemma mkey_kind (seed : deser) kk first l c q : item 125 first l (c :: q) -> c <> 34 -> kk (Err JKeyMustBeAString) = MRet (Err JKeyMustBeAString) ->
  fails (mapping (MKey seed kk) first) l JKeyMustBeAString.
Proof.
  intros Hi N Hk. apply gives_S. cbn [js_run jr_map j_step_map]. eapply gives_try; [apply item_eats; [lia|exact Hi]|]. cbn iota beta.
  replace (c =? 34) with false by lia. rewrite Hk. apply mret_fail.
Qed.
Lemma mkey_bad (seed : deser) kk first l q e : item 125 first l (34 :: q) -> fails (keyed seed) (34 :: q) e -> kk (Err e) = MRet (Err e) ->
  fails (mapping (MKey seed kk) first) l e.
Proof.
  intros Hi Hf Hk. apply gives_S. cbn [js_run jr_map j_step_map]. eapply gives_try; [apply item_eats; [lia|exact Hi]|]. cbn iota beta. cbn [Z.eqb Pos.eqb].
  eapply fails_try; [exact Hf|]. unfold passes. cbn [jres_some]. rewrite Hk. apply mret_fails. reflexivity.
Qed.
Lemma mval_colon (seed : deser) kk first m e : colon_fault m e -> kk (Err e) = MRet (Err e) -> fails (mapping (MVal seed kk) first) m e.
Proof.
  intros Hc Hk. apply gives_S. cbn [js_run jr_map j_step_map].
  apply (fails_try (fun f => _ <-- parse_key_colon ;; jr_de (run f) false seed) (fun f r => jr_map (run f) (kk r) first)).
  - apply (fails_bind (fun _ => parse_key_colon)). apply fails_colon; auto.
  - unfold passes. rewrite Hk. apply mret_fails. reflexivity.
Qed.
Lemma mval_bad (seed : deser) kk first m x e : begins m 58 x -> fails (reading seed) x e -> kk (Err e) = MRet (Err e) -> fails (mapping (MVal seed kk) first) m e.
Proof.
  intros Hb Hf Hk. apply gives_S. cbn [js_run jr_map j_step_map].
  apply (fails_try (fun f => _ <-- parse_key_colon ;; jr_de (run f) false seed) (fun f r => jr_map (run f) (kk r) first)).
  - eapply (gives_bind (fun _ => parse_key_colon) (fun f _ => jr_de (run f) false seed)); [apply eats_colon1; exact Hb|exact Hf].
  - unfold passes. rewrite Hk. apply mret_fails. reflexivity.
Qed.

(** ** The methods for arrays and objects *)
Lemma seq_fails (v : visitor) l r e : begins l 91 r -> fails (seqing (visit_seq v) true) r e -> fails (fun f => j_deserialize_seq (run f) v) l e.
Proof.
  intros Hb H. unfold j_deserialize_seq. eapply gives_ws; [exact Hb|]. cbn [Z.eqb Pos.eqb]. apply gives_eat1.
  apply (fails_bind (seqing (visit_seq v) true)). exact H.
Qed.
Lemma map_fails (v : visitor) l r e : begins l 123 r -> fails (mapping (visit_map v) true) r e -> fails (fun f => j_deserialize_map (run f) v) l e.
Proof.
  intros Hb H. unfold j_deserialize_map. eapply gives_ws; [exact Hb|]. cbn [Z.eqb Pos.eqb]. apply gives_eat1.
  apply (fails_bind (mapping (visit_map v) true)). exact H.
Qed.
Lemma seq_open (v : visitor) l r u k : begins l 91 r -> eats (seqing (visit_seq v) true) u r k -> any_ws k -> fails (fun f => j_deserialize_seq (run f) v) l JUnexpectedEof.
Proof.
  intros Hb H Hk. unfold j_deserialize_seq. eapply gives_ws; [exact Hb|]. cbn [Z.eqb Pos.eqb]. apply gives_eat1.
  eapply (gives_bind (seqing (visit_seq v) true)); [exact H|]. apply fails_ws; auto.
Qed.
Lemma seq_many (v : visitor) l r u k c k' : begins l 91 r -> eats (seqing (visit_seq v) true) u r k -> begins k c k' -> c <> 93 ->
  fails (fun f => j_deserialize_seq (run f) v) l JExpectedArrayEnd.
Proof.
  intros Hb H Hk N. unfold j_deserialize_seq. eapply gives_ws; [exact Hb|]. cbn [Z.eqb Pos.eqb]. apply gives_eat1.
  eapply (gives_bind (seqing (visit_seq v) true)); [exact H|]. eapply gives_ws; [exact Hk|]. replace (c =? 93) with false by lia. apply fails_fail.
Qed.

(** ** Skipped values *)
Lemma skips_eats l k : skips l k -> eats (reading (@ignored js_de_error)) UUnit l k.
Proof. intros (w & d & b & -> & Hw & Ht & Hs & Hk). exact (ignored_accepts ar fl any_f32 dec d Hs b w k Ht Hw Hk). Qed.
Lemma walk_nil_inv close first l first' k : walk close first [] l first' k -> first' = first /\ k = l.
Proof. intros H. inversion H; auto. Qed.
Lemma walk_cons_inv close first p ps l first' k : walk close first (p :: ps) l first' k ->
  exists x y, item close first l x /\ p x y /\ walk close false ps y first' k.
Proof. intros H. inversion H; subst. eauto. Qed.
Lemma ignored_seq_reach n : forall first l first' k, walk 93 first (repeat skips n) l first' k -> sreach ignored_seq first l ignored_seq first' k.
Proof.
  induction n as [|n IH]; intros first l first' k H; cbn [repeat] in H; [apply walk_nil_inv in H; destruct H as [-> ->]; apply sreach_refl|].
  apply walk_cons_inv in H. destruct H as (x & y & Hi & Hp & Hw).
  rewrite (sfrob_eq ignored_seq) at 1. cbn [sfrob ignored_seq]. eapply sreach_trans; [eapply snext_item; [eassumption|apply skips_eats; eassumption]|]. cbv beta iota. apply IH; auto.
Qed.
Lemma ignored_key raw s m : literal raw s -> eats (keyed (@ignored js_de_error)) UUnit (34 :: raw ++ 34 :: m) m.
Proof.
  intros L. destruct (@ignored_req js_de_error) as (v & Ev & _ & _ & Vs & _). rewrite Ev.
  apply (key_str_eats ar fl any_f32 dec DIgnoredAny v (fun r => r) UUnit UUnit raw s); auto.
Qed.
Lemma ignored_map_reach n : forall first l first' k, walk 125 first (repeat skips_member n) l first' k -> mreach ignored_map first l ignored_map first' k.
Proof.
  induction n as [|n IH]; intros first l first' k H; cbn [repeat] in H; [apply walk_nil_inv in H; destruct H as [-> ->]; apply mreach_refl|].
  apply walk_cons_inv in H. destruct H as (x & y & Hi & (raw & s & m & r & -> & L & Hb & Hs) & Hw).
  rewrite (mfrob_eq ignored_map) at 1. cbn [mfrob ignored_map]. eapply mreach_trans; [eapply mkey_item; [exact Hi|eapply ignored_key; exact L]|]. cbv beta iota.
  eapply mreach_trans; [eapply mval_item; [exact Hb|apply skips_eats; exact Hs]|]. cbv beta iota. apply IH; auto.
Qed.
(** A key read as a string. *)
Definition plain_key (m : dmethod) : Prop := match m with DChar | DInt _ | DBool | DEnum => False | _ => True end.
Lemma p_text_err q e : all_bytes q -> text_fault q e -> forall U (v : SerdeDe.visitor U js_de_error), p_m_str v (34 :: q) = Err e.
Proof.
  intros B H U v. unfold p_m_str. rewrite (p_ws_begins _ (34 :: q) 34 q) by (apply begins_here; reflexivity). cbn [Z.eqb Pos.eqb].
  apply str_err in H; auto. rewrite H. reflexivity.
Qed.
Lemma key_text m (v : visitor) post q e : plain_key m -> all_bytes q -> text_fault q e -> post (Err e) = Err e -> fails (keyed (DReq m v post)) (34 :: q) e.
Proof.
  intros Hm B H Hp. apply gives_S. cbn [js_run jr_de j_step_de]. apply fails_post; [|auto].
  eapply gives_ext; [|eapply fails_view; [apply (view_m_str ar dec v)|intros _; apply p_text_err; auto]].
  intros f. destruct m; cbn [key_method]; (reflexivity || (cbn [plain_key] in Hm; tauto)).
Qed.
Lemma key_refused m (v : visitor) post raw s k e : plain_key m -> literal raw s -> visit_str v s = Err e -> post (Err e) = Err e -> fails (keyed (DReq m v post)) (34 :: raw ++ 34 :: k) e.
Proof.
  intros Hm L Hv Hp. apply gives_S. cbn [js_run jr_de j_step_de]. apply fails_post; [|auto].
  eapply gives_ext; [|eapply fails_view; [apply (view_m_str ar dec v)|intros _]].
  - intros f. destruct m; cbn [key_method]; (reflexivity || (cbn [plain_key] in Hm; tauto)).
  - unfold p_m_str. rewrite (p_ws_begins _ (34 :: raw ++ 34 :: k) 34 (raw ++ 34 :: k)) by (apply begins_here; reflexivity). cbn [Z.eqb Pos.eqb].
    rewrite (p_str_literal _ _ _ L). cbn [pbind]. rewrite Hv. reflexivity.
Qed.

(** What is left is a part of the input. *)
Lemma item_tail close first l x : item close first l x -> tail_of x l.
Proof.
  intros (c & r & -> & _ & H). destruct first; [apply begins_tail; tauto|]. destruct H as (m & H1 & H2).
  eapply tail_trans; [apply begins_tail; exact H2|eapply begins_tail1; exact H1].
Qed.
Lemma walk_tail close ps : Forall (fun p : bytes -> bytes -> Prop => forall x y, p x y -> tail_of y x) ps ->
  forall first l first' k, walk close first ps l first' k -> tail_of k l.
Proof.
  induction 1 as [|p ps Hp _ IH]; intros first l first' k H; inversion H; subst; [apply tail_refl|].
  eapply tail_trans; [eapply IH; eassumption|]. eapply tail_trans; [eapply Hp; eassumption|eapply item_tail; eassumption].
Qed.
Lemma skips_tail l k : skips l k -> tail_of k l.
Proof. intros (w & d & b & -> & _). rewrite app_assoc. apply tail_app. Qed.
Lemma quoted_tail raw m : tail_of m (34 :: raw ++ 34 :: m).
Proof. exists (34 :: raw ++ [34]). cbn [app]. rewrite <- app_assoc. reflexivity. Qed.
Lemma skips_member_tail l k : skips_member l k -> tail_of k l.
Proof.
  intros (raw & s & m & r & -> & _ & Hb & Hs). eapply tail_trans; [apply skips_tail; exact Hs|]. eapply tail_trans; [eapply begins_tail1; exact Hb|apply quoted_tail].
Qed.
Lemma repeat_Forall {A} (P : A -> Prop) a n : P a -> Forall P (repeat a n).
Proof. intros H. induction n; cbn; auto. Qed.

Lemma skip_fails l e : all_bytes l -> skip_fault l e -> fails (reading (@ignored js_de_error)) l e.
Proof.
  intros B H. revert B. destruct (@ignored_req js_de_error) as (v & Ev & Vu & Vb & Vs & Vq & Vm).
  assert (W : forall l c r P, begins l c r -> gives (fun f => if c =? 110 then j_deserialize_unit v
    else if (c =? 116) || (c =? 102) then j_deserialize_bool v
    else if c =? 34 then _ <-- j_eat_some 1 ;; _ <-- eat_str_content ;; dlift (visit_unit v)
    else if ascii_digit c || (c =? 45) then input <-- match_float ;; _ <-- j_eat_some (length input) ;; dlift (visit_unit v)
    else if c =? 91 then j_deserialize_seq (run f) v else if c =? 123 then j_deserialize_map (run f) v else dfail JUnexpectedChar) (c :: r) (failed P) ->
    fails (reading (@ignored js_de_error)) l P).
  { intros l0 c r P Hb H0. rewrite Ev. apply (proj1 (fails_req DIgnoredAny v l0 P)). cbn [js_method]. unfold j_deserialize_ignored_any. eapply gives_ws; [exact Hb|]. exact H0. }
  assert (HB : forall l c r, begins l c r -> begins (c :: r) c r) by (intros; eapply drop_ws_begins; eauto).
  assert (SQ : forall l r, begins l 91 r -> fails (seqing ignored_seq true) r e -> fails (reading (@ignored js_de_error)) l e).
  { intros l0 r Hb H0. eapply W; [exact Hb|]. replace (ascii_digit 91) with false by reflexivity. cbn [Z.eqb Pos.eqb orb]. eapply seq_fails; [eapply HB; eauto|]. rewrite Vq. exact H0. }
  assert (SM : forall l r, begins l 123 r -> fails (mapping ignored_map true) r e -> fails (reading (@ignored js_de_error)) l e).
  { intros l0 r Hb H0. eapply W; [exact Hb|]. replace (ascii_digit 123) with false by reflexivity. cbn [Z.eqb Pos.eqb orb]. eapply map_fails; [eapply HB; eauto|]. rewrite Vm. exact H0. }
  Local Ltac skip_walk := match goal with Hw : walk 93 _ _ _ _ _ |- _ => eapply (ignored_seq_reach _ _ _ _ _ Hw); rewrite (sfrob_eq ignored_seq); cbn [sfrob ignored_seq]
    | Hw : walk 125 _ _ _ _ _ |- _ => eapply (ignored_map_reach _ _ _ _ _ Hw); rewrite (mfrob_eq ignored_map); cbn [mfrob ignored_map] end.
  assert (T1 : forall l r n first k, begins l 91 r -> walk 93 true (repeat skips n) r first k -> tail_of k l).
  { intros. eapply tail_trans; [eapply walk_tail; [|eassumption]; apply repeat_Forall; apply skips_tail|eapply begins_tail1; eassumption]. }
  assert (T2 : forall l r n first k, begins l 123 r -> walk 125 true (repeat skips_member n) r first k -> tail_of k l).
  { intros. eapply tail_trans; [eapply walk_tail; [|eassumption]; apply repeat_Forall; apply skips_member_tail|eapply begins_tail1; eassumption]. }
  induction H as [l Hw|l c r Hb N|l r e Hb Hf|l r e Hb Hf|l r e Hb Hf|l r e Hb Hf|l r n first k e Hb Hw Hg|l r n first k x e Hb Hw Hi Hf IH
    |l r n first k e Hb Hw Hg|l r n first k c q Hb Hw Hi N|l r n first k q e Hb Hw Hi Hf|l r n first k raw s m e Hb Hw Hi L Hf
    |l r n first k raw s m x e Hb Hw Hi L Hc Hf IH]; intros B.
  - rewrite Ev. apply (proj1 (fails_req DIgnoredAny v l _)). cbn [js_method]. unfold j_deserialize_ignored_any. apply fails_ws; auto.
  - eapply W; [exact Hb|]. unfold value_start, is_digit in N. replace (c =? 110) with false by lia. replace ((c =? 116) || (c =? 102)) with false by lia.
    replace (c =? 34) with false by lia. replace (ascii_digit c || (c =? 45)) with false by (unfold ascii_digit; lia). replace (c =? 91) with false by lia.
    replace (c =? 123) with false by lia. apply fails_fail.
  - eapply W; [exact Hb|]. cbn [Z.eqb Pos.eqb]. eapply fails_view; [apply view_m_unit|]. intros _. apply unit_err; eauto. eapply NF_null; eauto.
  - eapply W; [exact Hb|]. cbn [Z.eqb Pos.eqb orb]. eapply fails_view; [apply view_m_bool|]. intros _. apply bool_err; eauto. eapply BF_true; eauto.
  - eapply W; [exact Hb|]. cbn [Z.eqb Pos.eqb orb]. eapply fails_view; [apply view_m_bool|]. intros _. apply bool_err; eauto. eapply BF_false; eauto.
  - eapply W; [exact Hb|]. cbn [Z.eqb Pos.eqb orb]. apply gives_eat1. apply (fails_bind (fun _ => eat_str_content)). eapply fails_view; [apply view_skip|].
    intros _. apply span_err; auto. eapply tail_bytes; [eapply begins_tail1; eauto|auto].
  - eapply SQ; [exact Hb|]. skip_walk. apply snext_gap; auto.
  - eapply SQ; [exact Hb|]. skip_walk. eapply snext_elem; [exact Hi| |reflexivity]. apply IH; auto.
    eapply tail_bytes; [|exact B]. eapply tail_trans; [eapply item_tail; eauto|eapply T1; eauto].
  - eapply SM; [exact Hb|]. skip_walk. apply mkey_gap; auto.
  - eapply SM; [exact Hb|]. skip_walk. eapply mkey_kind; [exact Hi|auto|reflexivity].
  - eapply SM; [exact Hb|]. skip_walk. apply (mkey_bad (@ignored js_de_error) _ _ _ _ _ Hi); [|reflexivity]. rewrite Ev. apply key_text; auto; [exact I|].
    eapply tail_bytes; [|exact B]. eapply tail_trans; [apply tail_cons|]. eapply tail_trans; [eapply item_tail; eauto|eapply T2; eauto].
  - eapply SM; [exact Hb|]. skip_walk. eapply mkey_item; [exact Hi|eapply ignored_key; exact L|]. cbv beta iota. apply mval_colon; auto.
  - eapply SM; [exact Hb|]. skip_walk. eapply mkey_item; [exact Hi|eapply ignored_key; exact L|]. cbv beta iota. eapply mval_bad; [exact Hc| |reflexivity].
    apply IH; auto. eapply tail_bytes; [|exact B]. eapply tail_trans; [eapply begins_tail1; exact Hc|]. eapply tail_trans; [apply quoted_tail|].
    eapply tail_trans; [eapply item_tail; eauto|eapply T2; eauto].
Qed.
End Fault.

(** Following a deserializing program along a JSON text: completeness of arrays,
    objects, enums and skipped values. *)
From Verif Require Import Prelude PreludeFacts Utf8 Utf8Spec Utf8Facts SerdeDe SerdeSer MpSpec Base64Spec
  JsonSpec JsonTypeSpec JsonFacts JsonDe JsonDeSafe JsonStr JsonView JsonTok JsonMeth Types TypesFacts.
Ltac Zify.zify_post_hook ::= Z.div_mod_to_equations.

(** ** Texts *)
Lemma number_head tok : json_number tok -> exists c r, tok = c :: r /\ (is_digit c \/ c = 45).
Proof.
  intros (sg & i & f & e & -> & Hs & [[Hn Hd] _] & _). destruct i as [|d i]; [congruence|]. inversion Hd; subst.
  destruct Hs as [-> | ->]; cbn; eauto.
Qed.
Lemma run_char c : is_digit c \/ c = 43 \/ c = 45 \/ c = 46 \/ c = 101 \/ c = 69 <-> number_char c = true.
Proof. unfold is_digit, number_char, ascii_digit. lia. Qed.
Lemma text_head d b : loose_text d b -> exists c r, b = c :: r /\ is_space c = false /\ c <> 44 /\ c <> 93 /\ c <> 125 /\ (c = 110 -> d = JNull).
Proof.
  intros H. inversion H; subst; try (eexists; eexists; split; [reflexivity|]; repeat split; (discriminate || auto); fail).
  - destruct H0 as [Hn Hc]. destruct b as [|c r]; [congruence|]. inversion Hc as [|? ? Hc' _]; subst. exists c, r. unfold is_digit in Hc'.
    split; [auto|]. split; [unfold is_space; lia|]. repeat split; try lia; try (intros ->; lia).
  - destruct H0 as [-> _]. eexists; eexists; split; [reflexivity|]; repeat split; (discriminate || auto).
Qed.
Lemma head_extends d c r : is_space c = true \/ c = 44 \/ c = 93 \/ c = 125 -> cannot_extend d (c :: r).
Proof. destruct d; cbn; auto. unfold is_digit, is_space. lia. Qed.
Lemma blank_space w : blank w -> Forall (fun c => is_space c = true) w.
Proof. apply Forall_impl. intros c H. unfold is_space. lia. Qed.
Lemma blank_extends d w c r : blank w -> c = 44 \/ c = 93 \/ c = 125 -> cannot_extend d (w ++ c :: r).
Proof.
  intros Hw Hc. apply blank_space in Hw. destruct Hw as [|x w Hx Hw]; cbn [app]; apply head_extends; intuition.
Qed.

(** The rest of an array or object before its closing bracket. *)
Definition arr_rest (first : bool) (ds : list jv) (b : bytes) : Prop :=
  (ds = [] /\ blank b) \/
  (if first then elements any_ws quoted loose_key number_run ds b
   else exists w r, b = w ++ 44 :: r /\ blank w /\ elements any_ws quoted loose_key number_run ds r).
Definition obj_rest (first : bool) (ms : list (bytes * jv)) (b : bytes) : Prop :=
  (ms = [] /\ blank b) \/
  (if first then members any_ws quoted loose_key number_run ms b
   else exists w r, b = w ++ 44 :: r /\ blank w /\ members any_ws quoted loose_key number_run ms r).

Lemma elements_cons ds b : elements any_ws quoted loose_key number_run ds b ->
  exists d ds' w t b', ds = d :: ds' /\ b = w ++ t ++ b' /\ blank w /\ loose_text d t /\ arr_rest false ds' b'.
Proof.
  intros H. inversion H; subst; (eexists; eexists; exists w1, b0; eexists; split; [reflexivity|]; split; [reflexivity|]; split; [auto|]; split; [auto|]).
  - left. auto.
  - right. exists w2, r. auto.
Qed.
Lemma arr_cons first d ds b : arr_rest first (d :: ds) b -> exists w0 w t b',
  b = (if first then [] else w0 ++ [44]) ++ w ++ t ++ b' /\ blank w0 /\ blank w /\ loose_text d t /\ arr_rest false ds b'.
Proof.
  intros [[E _]|H]; [discriminate|]. destruct first.
  - destruct (elements_cons _ _ H) as (d' & ds' & w & t & b' & [= <- <-] & -> & Hw & Ht & Hr). exists [], w, t, b'. repeat split; auto. constructor.
  - destruct H as (w0 & r & -> & H0 & H). destruct (elements_cons _ _ H) as (d' & ds' & w & t & b' & [= <- <-] & -> & Hw & Ht & Hr).
    exists w0, w, t, b'. rewrite <- app_assoc. repeat split; auto.
Qed.
Lemma arr_nil first b : arr_rest first [] b -> blank b.
Proof. intros [[_ H]|H]; [auto|]. destruct first; [inversion H|]. destruct H as (w & r & _ & _ & H). inversion H. Qed.
Lemma arr_extends d ds b k : arr_rest false ds b -> cannot_extend d (b ++ 93 :: k).
Proof.
  intros [[_ H]|(w & r & -> & H & _)]; [apply blank_extends; auto|]. rewrite <- app_assoc. apply blank_extends; auto.
Qed.

Lemma members_cons ms b : members any_ws quoted loose_key number_run ms b ->
  exists raw d ms' w1 w2 w3 t b', ms = (raw, d) :: ms' /\ b = w1 ++ (34 :: raw ++ [34]) ++ w2 ++ 58 :: w3 ++ t ++ b' /\
    blank w1 /\ blank w2 /\ blank w3 /\ loose_text d t /\ obj_rest false ms' b'.
Proof.
  intros H. inversion H; subst.
  - destruct H1 as [-> _]. exists k, v, [], w1, w2, w3, b0, w4. repeat split; auto. left. auto.
  - destruct H1 as [-> _]. exists k, v, l, w1, w2, w3, b0, (w4 ++ 44 :: r). repeat split; auto. right. exists w4, r. auto.
Qed.
Lemma obj_cons first raw d ms b : obj_rest first ((raw, d) :: ms) b -> exists w0 w1 w2 w3 t b',
  b = (if first then [] else w0 ++ [44]) ++ w1 ++ (34 :: raw ++ [34]) ++ w2 ++ 58 :: w3 ++ t ++ b' /\
  blank w0 /\ blank w1 /\ blank w2 /\ blank w3 /\ loose_text d t /\ obj_rest false ms b'.
Proof.
  intros [[E _]|H]; [discriminate|]. destruct first.
  - destruct (members_cons _ _ H) as (raw' & d' & ms' & w1 & w2 & w3 & t & b' & [= <- <- <-] & -> & H1). exists [], w1, w2, w3, t, b'.
    split; [auto|]. split; [constructor|]. tauto.
  - destruct H as (w0 & r & -> & H0 & H). destruct (members_cons _ _ H) as (raw' & d' & ms' & w1 & w2 & w3 & t & b' & [= <- <- <-] & -> & H1).
    exists w0, w1, w2, w3, t, b'. split; [rewrite <- app_assoc; auto|]. split; [auto|]. tauto.
Qed.
Lemma obj_nil first b : obj_rest first [] b -> blank b.
Proof. intros [[_ H]|H]; [auto|]. destruct first; [inversion H|]. destruct H as (w & r & _ & _ & H). inversion H. Qed.
Lemma obj_extends d ms b k : obj_rest false ms b -> cannot_extend d (b ++ 125 :: k).
Proof.
  intros [[_ H]|(w & r & -> & H & _)]; [apply blank_extends; auto|]. rewrite <- app_assoc. apply blank_extends; auto.
Qed.
Lemma arr_text ds b : loose_text (JArr ds) b -> exists b', b = 91 :: b' ++ [93] /\ arr_rest true ds b'.
Proof. intros H. inversion H; subst; (eexists; split; [reflexivity|]); [left|right]; auto. Qed.
Lemma obj_text ms b : loose_text (JObj ms) b -> exists b', b = 123 :: b' ++ [125] /\ obj_rest true ms b'.
Proof. intros H. inversion H; subst; (eexists; split; [reflexivity|]); [left|right]; auto. Qed.

Section Eats.
Context (ar : arch) (fl : float_parser) (any_f32 : bool) (dec : byte_decoder).
Local Notation M := (DM jde js_de_error).
Local Notation inside := (inside ar dec).
Local Notation views := (views ar dec).
Local Notation run := (js_run ar fl any_f32 dec).

(** With a budget large enough, [m] reads [l] up to [k] and returns [a]. *)
Definition eats {A} (m : nat -> M A) (a : A) (l k : bytes) : Prop :=
  exists N, forall f, (N <= f)%nat -> forall s, inside s -> unparsed s = l ->
    exists s', m f s = Done s' (Ok a) /\ inside s' /\ unparsed s' = k.

Lemma fits_unparsed s l : inside s -> unparsed s = l -> fits ar dec (length l).
Proof.
  intros [H F] <-. eapply fits_mono; [exact F|]. unfold unparsed. rewrite skipn_length. lia.
Qed.
Lemma eats_view {A} (m : M A) g a l k : views same m g -> (fits ar dec (length l) -> g l = Ok (a, k)) -> eats (fun _ => m) a l k.
Proof.
  intros V E. exists O. intros f _ s I H. specialize (V s I). rewrite H, (E (fits_unparsed s l I H)) in V.
  destruct V as (s' & a' & -> & <- & I' & U'). eauto.
Qed.
Lemma eats_S {A} (m : nat -> M A) a l k : eats (fun f => m (S f)) a l k -> eats m a l k.
Proof. intros [N H]. exists (S N). intros f Hf. destruct f as [|f]; [lia|]. apply H. lia. Qed.
Lemma eats_up {A} (m : nat -> M A) a l k : eats m a l k -> eats (fun f => m (S f)) a l k.
Proof. intros [N H]. exists N. intros f Hf. apply H. lia. Qed.
Lemma eats_bind {A B} (m : nat -> M A) (g : nat -> A -> M B) a b l k1 k :
  eats m a l k1 -> eats (fun f => g f a) b k1 k -> eats (fun f => dbind (m f) (g f)) b l k.
Proof.
  intros [N H] [N' H']. exists (Nat.max N N'). intros f Hf s I U.
  destruct (H f ltac:(lia) s I U) as (s1 & E & I1 & U1). destruct (H' f ltac:(lia) s1 I1 U1) as (s2 & E2 & I2 & U2).
  exists s2. unfold dbind. rewrite E. auto.
Qed.
Lemma eats_try {A B} (m : nat -> M A) (g : nat -> result A js_de_error -> M B) a b l k1 k :
  eats m a l k1 -> eats (fun f => g f (Ok a)) b k1 k -> eats (fun f => dtry (m f) (g f)) b l k.
Proof.
  intros [N H] [N' H']. exists (Nat.max N N'). intros f Hf s I U.
  destruct (H f ltac:(lia) s I U) as (s1 & E & I1 & U1). destruct (H' f ltac:(lia) s1 I1 U1) as (s2 & E2 & I2 & U2).
  exists s2. unfold dtry. rewrite E. auto.
Qed.
Lemma eats_lift {A} (r : result A js_de_error) a l : r = Ok a -> eats (fun _ => dlift r) a l l.
Proof. intros ->. exists O. intros f _ s I U. exists s. auto. Qed.
Lemma eats_ret {A} (a : A) l : eats (fun _ => dret a) a l l.
Proof. exact (eats_lift (Ok a) a l eq_refl). Qed.
Lemma eats_post {A B} (post : result A js_de_error -> result B js_de_error) (m : nat -> M A) a b l k :
  eats m a l k -> post (Ok a) = Ok b -> eats (fun f => dpost post (m f)) b l k.
Proof. intros H E. apply (eats_try m (fun _ r => dlift (post r)) a b l k k H). apply eats_lift. auto. Qed.
Lemma eats_unpost {A} (m : nat -> M A) a l k : eats (fun f => dpost (fun r => r) (m f)) a l k -> eats m a l k.
Proof.
  intros [N H]. exists N. intros f Hf s I U. destruct (H f Hf s I U) as (s' & E & R). exists s'. split; [|auto].
  unfold dpost, dtry, dlift in E. destruct (m f s); auto; discriminate.
Qed.
Lemma eats_ws {A} (K : nat -> Z -> M A) a w c r k : blank w -> is_space c = false ->
  eats (fun f => K f c) a (c :: r) k -> eats (fun f => dbind eat_whitespace (K f)) a (w ++ c :: r) k.
Proof.
  intros Hw Hc H. apply (eats_bind (fun _ => eat_whitespace) K c a _ (c :: r)); [|exact H].
  exists O. intros f _ s I U. pose proof (ws_state ar dec s I) as W. rewrite U, drop_ws_blank, drop_ws_char in W by auto.
  destruct W as (s' & E & I' & U' & _). eauto.
Qed.
Lemma eats_eat1 {A} (m : nat -> M A) a c r k : eats m a r k -> eats (fun f => dbind (j_eat_some 1) (fun _ => m f)) a (c :: r) k.
Proof.
  intros H. apply (eats_bind (fun _ => j_eat_some 1) (fun f _ => m f) tt a _ r); [|exact H].
  exists O. intros f _ s I U. destruct (eat_state ar dec s [c] r I U) as [I' U']. eexists. split; [reflexivity|]. auto.
Qed.
Lemma eats_ext {A} (m m' : nat -> M A) a l k : (forall f, m f = m' f) -> eats m' a l k -> eats m a l k.
Proof. intros E [N H]. exists N. intros f Hf. rewrite E. auto. Qed.
Lemma eats_colon w r : blank w -> eats (fun _ => parse_key_colon) tt (w ++ 58 :: r) r.
Proof. intros Hw. eapply eats_view; [apply view_colon|]. intros _. unfold p_colon. rewrite p_ws_blank by auto. reflexivity. Qed.

(** *** Between two elements *)
Section Item.
Context (close : Z) (e1 e2 e3 : js_de_error) (Hs : is_space close = false) (Hc : close <> 44).
Lemma item_end first w r : blank w -> eats (fun _ => next_item close e1 e2 e3 first) None (w ++ close :: r) (close :: r).
Proof.
  intros Hw. unfold next_item. apply eats_ws; auto. rewrite Z.eqb_refl. apply eats_ret.
Qed.
Lemma item_next (first : bool) w0 w c r : blank w0 -> blank w -> is_space c = false -> c <> close -> c <> 44 ->
  eats (fun _ => next_item close e1 e2 e3 first) (Some (c, false)) ((if first then [] else w0 ++ [44]) ++ w ++ c :: r) (c :: r).
Proof.
  intros H0 Hw Hsp Hn H4. unfold next_item. destruct first; cbn [app].
  - apply eats_ws; auto. replace (c =? close) with false by lia. replace (c =? 44) with false by lia. apply eats_ret.
  - rewrite <- app_assoc. cbn [app]. apply eats_ws; auto. replace (44 =? close) with false by lia.
    apply eats_eat1. apply eats_ws; auto. replace (c =? close) with false by lia. apply eats_ret.
Qed.
End Item.

Section Progs.
Context {U : Type}.
Local Notation deser := (deser U js_de_error).
Local Notation visitor := (visitor U js_de_error).
Local Notation sprog := (sprog U js_de_error).
Local Notation mprog := (mprog U js_de_error).

(** [seed] reads any text of the document [d] as [u], whatever follows. *)
Definition accepts (seed : deser) (d : jv) (u : U) : Prop := forall b w k,
  loose_text d b -> blank w -> cannot_extend d k -> eats (fun f => jr_de (run f) false seed) u (w ++ b ++ k) k.
(** [seed] reads the key with this literal as [u]. *)
Definition kaccepts (seed : deser) (raw : bytes) (u : U) : Prop := forall k,
  eats (fun f => jr_de (run f) true seed) u (34 :: raw ++ 34 :: k) k.

Lemma accepts_req m v d u : (forall b w k, loose_text d b -> blank w -> cannot_extend d k ->
    eats (fun f => js_method ar fl any_f32 dec (run f) m v) u (w ++ b ++ k) k) <-> accepts (DReq m v (fun r => r)) d u.
Proof.
  split; intros H b w k Hb Hw Hk.
  - apply eats_S. cbn [js_run jr_de j_step_de]. eapply eats_post; [|reflexivity]. apply H; auto.
  - apply eats_unpost. specialize (H b w k Hb Hw Hk). apply eats_up in H. exact H.
Qed.
Lemma accepts_post m v post d u u' : accepts (DReq m v (fun r => r)) d u -> post (Ok u) = Ok u' -> accepts (DReq m v post) d u'.
Proof.
  intros H E b w k Hb Hw Hk. apply eats_S. cbn [js_run jr_de j_step_de].
  eapply eats_post; [|exact E]. apply (proj2 (accepts_req m v d u) H); auto.
Qed.

(** *** Arrays *)
Inductive feeds : sprog -> list jv -> U -> Prop :=
| FS_ret u : feeds (SRet (Ok u)) [] u
| FS_end seed k u : feeds (k (Ok None)) [] u -> feeds (SNext seed k) [] u
| FS_next seed k d ds x u : accepts seed d x -> feeds (k (Ok (Some x))) ds u -> feeds (SNext seed k) (d :: ds) u
| FS_hint k ds u : feeds (k None) ds u -> feeds (SHint k) ds u.

Lemma feeds_eats p ds u : feeds p ds u -> forall first b k, arr_rest first ds b ->
  exists w, blank w /\ eats (fun f => jr_seq (run f) p first) u (b ++ 93 :: k) (w ++ 93 :: k).
Proof.
  induction 1 as [u|seed kk u H IH|seed kk d ds x u Ha H IH|kk ds u H IH]; intros first b k Hb.
  - exists b. split; [eapply arr_nil; eauto|]. apply eats_S. cbn [js_run jr_seq j_step_seq]. apply eats_lift. auto.
  - destruct (IH first [] k) as (w & Hw & E); [left; split; [auto|constructor]|].
    exists w. split; [auto|]. apply eats_S. cbn [js_run jr_seq j_step_seq].
    eapply eats_try; [apply item_end; [auto|eapply arr_nil; eauto]|]. exact E.
  - destruct (arr_cons _ _ _ _ Hb) as (w0 & w & t & b' & -> & H0 & Hw & Ht & Hr).
    destruct (IH false b' k Hr) as (w' & Hw' & E). exists w'. split; [auto|].
    destruct (text_head _ _ Ht) as (c & r & -> & Hs & H44 & H93 & _).
    apply eats_S. cbn [js_run jr_seq j_step_seq]. rewrite <- !app_assoc. cbn [app].
    eapply eats_try; [apply item_next; auto; lia|]. cbn iota beta.
    eapply eats_try; [apply (Ha (c :: r) [] (b' ++ 93 :: k)); auto; [constructor|eapply arr_extends; eauto]|]. exact E.
  - destruct (IH first b k Hb) as (w & Hw & E). exists w. split; [auto|]. apply eats_S. exact E.
Qed.
Lemma seq_eats v ds u b w k : feeds (visit_seq v) ds u -> loose_text (JArr ds) b -> blank w ->
  eats (fun f => j_deserialize_seq (run f) v) u (w ++ b ++ k) k.
Proof.
  intros H Hb Hw. destruct (arr_text _ _ Hb) as (b' & -> & Hr). destruct (feeds_eats _ _ _ H true b' k Hr) as (w' & Hw' & E).
  unfold j_deserialize_seq. cbn [app]. apply eats_ws; auto. cbn [Z.eqb Pos.eqb]. apply eats_eat1.
  rewrite <- app_assoc. eapply eats_bind; [exact E|]. apply eats_ws; auto. cbn [Z.eqb Pos.eqb]. apply eats_eat1. apply eats_ret.
Qed.

(** *** Objects *)
Inductive feedm : mprog -> list (bytes * jv) -> U -> Prop :=
| FM_ret u : feedm (MRet (Ok u)) [] u
| FM_end seed k u : feedm (k (Ok None)) [] u -> feedm (MKey seed k) [] u
| FM_next seed k vseed vk raw d ms x y u : kaccepts seed raw x -> k (Ok (Some x)) = MVal vseed vk ->
    accepts vseed d y -> feedm (vk (Ok y)) ms u -> feedm (MKey seed k) ((raw, d) :: ms) u
| FM_nexth seed k vseed h vk raw d ms x y u : kaccepts seed raw x -> k (Ok (Some x)) = MHint h -> h None = MVal vseed vk ->
    accepts vseed d y -> feedm (vk (Ok y)) ms u -> feedm (MKey seed k) ((raw, d) :: ms) u
| FM_hint k ms u : feedm (k None) ms u -> feedm (MHint k) ms u.

Lemma feedm_eats p ms u : feedm p ms u -> forall first b k, obj_rest first ms b ->
  exists w, blank w /\ eats (fun f => jr_map (run f) p first) u (b ++ 125 :: k) (w ++ 125 :: k).
Proof.
  induction 1 as [u|seed kk u H IH|seed kk vseed vk raw d ms x y u Hk Ek Hv H IH|seed kk vseed h vk raw d ms x y u Hk Ek Eh Hv H IH|kk ms u H IH]; intros first b k Hb.
  - exists b. split; [eapply obj_nil; eauto|]. apply eats_S. cbn [js_run jr_map j_step_map]. apply eats_lift. auto.
  - destruct (IH first [] k) as (w & Hw & E); [left; split; [auto|constructor]|].
    exists w. split; [auto|]. apply eats_S. cbn [js_run jr_map j_step_map].
    eapply eats_try; [apply item_end; [auto|eapply obj_nil; eauto]|]. exact E.
  - destruct (obj_cons _ _ _ _ _ Hb) as (w0 & w1 & w2 & w3 & t & b' & -> & H0 & H1 & H2 & H3 & Ht & Hr).
    destruct (IH false b' k Hr) as (w' & Hw' & E). exists w'. split; [auto|].
    apply eats_S. cbn [js_run jr_map j_step_map]. rewrite <- !app_assoc. cbn [app].
    eapply eats_try; [apply item_next; auto; lia|]. cbn iota beta. cbn [Z.eqb Pos.eqb].
    eapply eats_try; [rewrite <- !app_assoc; cbn [app]; apply Hk; auto|]. cbn [jres_some]. rewrite Ek.
    apply eats_S. cbn [js_run jr_map j_step_map].
    eapply eats_try; [eapply eats_bind; [apply eats_colon; auto|]|exact E].
    apply Hv; auto. eapply obj_extends; eauto.
  - destruct (obj_cons _ _ _ _ _ Hb) as (w0 & w1 & w2 & w3 & t & b' & -> & H0 & H1 & H2 & H3 & Ht & Hr).
    destruct (IH false b' k Hr) as (w' & Hw' & E). exists w'. split; [auto|].
    apply eats_S. cbn [js_run jr_map j_step_map]. rewrite <- !app_assoc. cbn [app].
    eapply eats_try; [apply item_next; auto; lia|]. cbn iota beta. cbn [Z.eqb Pos.eqb].
    eapply eats_try; [rewrite <- !app_assoc; cbn [app]; apply Hk; auto|]. cbn [jres_some]. rewrite Ek.
    apply eats_S. cbn [js_run jr_map j_step_map]. rewrite Eh.
    apply eats_S. cbn [js_run jr_map j_step_map].
    eapply eats_try; [eapply eats_bind; [apply eats_colon; auto|]|exact E].
    apply Hv; auto. eapply obj_extends; eauto.
  - destruct (IH first b k Hb) as (w & Hw & E). exists w. split; [auto|]. apply eats_S. exact E.
Qed.
Lemma map_eats v ms u b w k : feedm (visit_map v) ms u -> loose_text (JObj ms) b -> blank w ->
  eats (fun f => j_deserialize_map (run f) v) u (w ++ b ++ k) k.
Proof.
  intros H Hb Hw. destruct (obj_text _ _ Hb) as (b' & -> & Hr). destruct (feedm_eats _ _ _ H true b' k Hr) as (w' & Hw' & E).
  unfold j_deserialize_map. cbn [app]. apply eats_ws; auto. cbn [Z.eqb Pos.eqb]. apply eats_eat1.
  rewrite <- app_assoc. eapply eats_bind; [exact E|]. apply eats_ws; auto. cbn [Z.eqb Pos.eqb]. apply eats_eat1. apply eats_ret.
Qed.

(** *** Tokens *)
Lemma p_tok_app t k : p_tok t (t ++ k) = Ok (tt, k).
Proof.
  unfold p_tok. rewrite app_length, (proj2 (Nat.leb_le _ _)) by lia. rewrite firstn_len, skipn_len. destruct (list_eq_dec _ t t); congruence.
Qed.
Lemma tok_ull_app k : p_tok tok_ull (117 :: 108 :: 108 :: k) = Ok (tt, k). Proof. exact (p_tok_app tok_ull k). Qed.
Lemma tok_rue_app k : p_tok tok_rue (114 :: 117 :: 101 :: k) = Ok (tt, k). Proof. exact (p_tok_app tok_rue k). Qed.
Lemma tok_alse_app k : p_tok tok_alse (97 :: 108 :: 115 :: 101 :: k) = Ok (tt, k). Proof. exact (p_tok_app tok_alse k). Qed.
Lemma unit_eats (v : visitor) (u : U) b w k : loose_text JNull b -> blank w -> visit_unit v = Ok u ->
  eats (fun _ => j_deserialize_unit v) u (w ++ b ++ k) k.
Proof.
  intros Hb Hw Hv. inversion Hb; subst. eapply eats_view; [apply view_m_unit|]. intros _. unfold p_m_unit. cbn [app].
  rewrite p_ws_blank by auto. cbn [Z.eqb Pos.eqb]. rewrite tok_ull_app. cbn [pbind]. rewrite Hv. reflexivity.
Qed.
Lemma bool_eats (v : visitor) (u : U) x b w k : loose_text (JBool x) b -> blank w -> visit_bool v x = Ok u ->
  eats (fun _ => j_deserialize_bool v) u (w ++ b ++ k) k.
Proof.
  intros Hb Hw Hv. inversion Hb; subst; (eapply eats_view; [apply view_m_bool|]; intros _; unfold p_m_bool; cbn [app];
  rewrite p_ws_blank by auto; cbn [Z.eqb Pos.eqb]).
  - rewrite tok_rue_app. cbn [pbind]. rewrite Hv. reflexivity.
  - rewrite tok_alse_app. cbn [pbind]. rewrite Hv. reflexivity.
Qed.
Lemma p_str_literal raw s k : literal raw s -> p_str (raw ++ 34 :: k) = Ok (s, k).
Proof.
  intros [B V]. unfold p_str. rewrite (unesc_body _ _ B). cbn [unesc Z.eqb Pos.eqb prep pbind]. rewrite app_nil_r.
  rewrite (proj2 (from_utf8_ok_spec s) V). reflexivity.
Qed.
Lemma str_eats (v : visitor) (u : U) raw s w k : literal raw s -> blank w -> visit_str v s = Ok u ->
  eats (fun _ => j_deserialize_str v) u (w ++ 34 :: raw ++ 34 :: k) k.
Proof.
  intros L Hw Hv. eapply eats_view; [apply view_m_str|]. intros _. unfold p_m_str. rewrite p_ws_blank by auto. cbn [Z.eqb Pos.eqb].
  rewrite (p_str_literal _ _ _ L). cbn [pbind]. rewrite Hv. reflexivity.
Qed.
Lemma char_eats (v : visitor) (u : U) raw c w k : literal raw (utf8_char c) -> is_scalar c -> blank w -> visit_char v c = Ok u ->
  eats (fun _ => j_deserialize_char v) u (w ++ 34 :: raw ++ 34 :: k) k.
Proof.
  intros L Hc Hw Hv. eapply eats_view; [apply view_m_char|]. intros _. unfold p_m_char. rewrite p_ws_blank by auto. cbn [Z.eqb Pos.eqb].
  rewrite (p_str_literal _ _ _ L). cbn [pbind]. rewrite (proj2 (char_from_str_spec _ _) (conj Hc eq_refl)), Hv. reflexivity.
Qed.
Lemma signed_imin k : imin k < 0 -> signed_kind k = true.
Proof. destruct k; cbn; auto; lia. Qed.
Lemma p_int_lit k z tok w t : int_lit k z tok -> blank w -> no_digit t -> p_int k (w ++ tok ++ t) = Ok (z, t).
Proof.
  intros (Hk & neg & ds & -> & Hi & -> & Hn) Hw Ht. rewrite <- app_assoc, p_int_exact by auto. fold (lit_val neg ds) in *.
  rewrite (proj2 (in_ikindb_spec _ _) Hk). destruct neg; cbn [negb orb andb]; [|reflexivity].
  rewrite signed_imin by auto. reflexivity.
Qed.
Lemma extend_digit tok k : cannot_extend (JNum tok) k -> no_digit k.
Proof. destruct k; cbn; tauto. Qed.
Lemma int_eats k (v : visitor) (u : U) z tok w t : int_lit k z tok -> blank w -> no_digit t -> visit_int v k z = Ok u ->
  eats (fun _ => j_deserialize_int k v) u (w ++ tok ++ t) t.
Proof.
  intros L Hw Ht Hv. eapply eats_view; [apply view_m_int|]. intros _. unfold p_m_int. rewrite (p_int_lit _ _ _ _ _ L Hw Ht).
  cbn [pbind]. rewrite Hv. reflexivity.
Qed.
Lemma run_chars tok : number_run tok -> Forall (fun c => number_char c = true) tok.
Proof. intros [_ H]. eapply Forall_impl; [|exact H]. intros c. apply run_char. Qed.
Lemma json_number_run tok : json_number tok -> number_run tok.
Proof.
  intros H. split; [destruct (number_head _ H) as (c & r & -> & _); discriminate|]. revert H.
  assert (Hd : forall l, Forall is_digit l -> Forall (fun c => is_digit c \/ c = 43 \/ c = 45 \/ c = 46 \/ c = 101 \/ c = 69) l).
  { intros l. apply Forall_impl. auto. }
  intros (sg & i & f & e & -> & Hs & [[_ Hi] _] & Hf & He). repeat (apply Forall_app; split).
  - destruct Hs as [-> | ->]; [constructor|apply Forall_cons; auto].
  - auto.
  - destruct Hf as [->|(ds & -> & _ & H)]; [constructor|]. constructor; [auto|auto].
  - destruct He as [->|(c & sg' & ds & -> & Hc & Hsg & _ & H)]; [constructor|].
    constructor; [tauto|]. apply Forall_app. split; [|auto].
    destruct Hsg as [->|[->| ->]]; [constructor|apply Forall_cons; auto..].
Qed.
Lemma position_all p l c r : Forall (fun b => p b = false) l -> p c = true -> position p (l ++ c :: r) = Some (length l).
Proof. induction 1 as [|x l Hx Hl IH]; intros Hc; cbn [app position]; [rewrite Hc; auto|]. rewrite Hx, IH by auto. reflexivity. Qed.
Lemma position_none_all p l : Forall (fun b => p b = false) l -> position p l = None.
Proof. induction 1 as [|x l Hx Hl IH]; [auto|]. cbn [position]. rewrite Hx, IH. reflexivity. Qed.
Lemma prefix_number tok k : Forall (fun c => number_char c = true) tok -> match k with c :: _ => number_char c = false | [] => True end ->
  number_prefix (tok ++ k) = tok.
Proof.
  intros H Hk. unfold number_prefix. assert (F : Forall (fun b => negb (number_char b) = false) tok).
  { eapply Forall_impl; [|exact H]. cbn. intros a ->. auto. }
  destruct k as [|c k].
  - rewrite app_nil_r, position_none_all; auto.
  - rewrite position_all; auto; [apply firstn_len|]. rewrite Hk. auto.
Qed.
Lemma extend_prefix tok k : cannot_extend (JNum tok) k -> match k with c :: _ => number_char c = false | [] => True end.
Proof. destruct k as [|c k]; cbn; auto. unfold number_char, ascii_digit, is_digit. lia. Qed.
Lemma p_float_num fs tok x w k : number_run tok -> fs tok = Some x -> blank w -> cannot_extend (JNum tok) k ->
  p_float fs (w ++ tok ++ k) = Ok (Some x, k).
Proof.
  intros Hn Hf Hw Hk. assert (Ex : exists c r, tok = c :: r /\ (is_digit c \/ c = 43 \/ c = 45 \/ c = 46 \/ c = 101 \/ c = 69)).
  { destruct Hn as [Hne Hall]. destruct Hall as [|c r Hc _]; [congruence|]. eauto. }
  destruct Ex as (c & r & E & Hc). unfold p_float.
  replace (w ++ tok ++ k) with (w ++ c :: (r ++ k)) by (rewrite E; reflexivity).
  rewrite p_ws_blank; auto; [|unfold is_digit in Hc; unfold is_space; lia].
  replace (c =? 110) with false by (unfold is_digit in Hc; lia). cbv zeta.
  change (c :: r ++ k) with ((c :: r) ++ k). rewrite <- E, (prefix_number tok k); [|apply run_chars; auto|eapply extend_prefix; eauto].
  rewrite Hf, skipn_len. reflexivity.
Qed.
Lemma p_float_null fs w k : blank w -> p_float fs (w ++ [110; 117; 108; 108] ++ k) = Ok (None, k).
Proof.
  intros Hw. unfold p_float. cbn [app]. rewrite p_ws_blank by auto. cbn [Z.eqb Pos.eqb]. rewrite tok_ull_app. reflexivity.
Qed.

(** *** Byte strings *)
Definition bytes_of (raw s : bytes) : Prop :=
  match dec with NopeDecoder => bytes_as_string raw s | HexDecoder => hex_bytes raw s | Base64Decoder => bytes_as_base64 raw s end.
Lemma p_bytes_literal raw s k : bytes_of raw s -> fits ar dec (length (raw ++ 34 :: k)) -> p_bytes_str ar dec (raw ++ 34 :: k) = Ok (s, k).
Proof.
  unfold bytes_of, p_bytes_str, fits. destruct dec; intros H F.
  - rewrite (unesc_body _ _ H). cbn [unesc Z.eqb Pos.eqb prep]. rewrite app_nil_r. reflexivity.
  - apply p_hex_complete. auto.
  - destruct H as (ds & n & -> & Hd & ->). rewrite <- app_assoc in *. apply p_base64_complete; auto.
Qed.
Lemma u8_lit_head z tok : int_lit U8 z tok -> exists c r, tok = c :: r /\ is_digit c.
Proof.
  intros (_ & neg & ds & -> & [[Hn Hd] _] & _ & Hs). destruct neg; [specialize (Hs eq_refl); cbn in Hs; lia|].
  destruct ds as [|d ds]; [congruence|]. inversion Hd; subst. exists d, ds. auto.
Qed.
Lemma p_loop_toks s toks : Forall2 (int_lit U8) s toks -> forall n b k, elements any_ws quoted loose_key number_run (map JNum toks) b -> (length b < n)%nat ->
  p_array_loop n (b ++ 93 :: k) = Ok (s, k).
Proof.
  induction 1 as [|z tok s toks Hz Hs IH]; intros n b k Hb Hn; [inversion Hb|].
  destruct (elements_cons _ _ Hb) as (d & ds' & w & t & b' & [= <- <-] & -> & Hw & Ht & Hr).
  inversion Ht; subst. destruct n as [|n]; [lia|]. cbn [p_array_loop]. rewrite <- !app_assoc.
  change (p_unsigned U8) with (p_int U8). rewrite (p_int_lit U8 z t w (b' ++ 93 :: k) Hz Hw).
  2:{ eapply (extend_digit []). eapply (arr_extends (JNum [])); eauto. }
  cbn [pbind]. destruct Hr as [[E Hbl]|(w2 & r & -> & Hw2 & He)].
  - apply map_eq_nil in E. subst toks. inversion Hs; subst. rewrite p_ws_blank by auto. reflexivity.
  - rewrite <- app_assoc. cbn [app]. rewrite p_ws_blank by auto. cbn [Z.eqb Pos.eqb]. rewrite (IH n r k He); [reflexivity|].
    rewrite !app_length in Hn. cbn [length] in Hn. lia.
Qed.
Lemma p_array_lits s toks b k : Forall2 (int_lit U8) s toks -> arr_rest true (map JNum toks) b -> p_array (b ++ 93 :: k) = Ok (s, k).
Proof.
  intros H Hb. unfold p_array. inversion H as [|z tok s' toks' Hz Hs]; subst.
  - rewrite p_ws_blank; [reflexivity| |reflexivity]. eapply arr_nil. exact Hb.
  - destruct Hb as [[E _]|Hb]; [discriminate|]. pose proof Hb as He.
    destruct (elements_cons _ _ Hb) as (d & ds' & w & t & b' & [= <- <-] & -> & Hw & Ht & Hr).
    destruct (u8_lit_head _ _ Hz) as (c & r & E & Hc). inversion Ht; subst.
    rewrite <- !app_assoc. cbn [app]. rewrite p_ws_blank; [|auto|apply digit_not_space; auto].
    replace (c =? 93) with false by (unfold is_digit in Hc; lia).
    assert (He' : elements any_ws quoted loose_key number_run (map JNum ((c :: r) :: toks')) ([] ++ (c :: r) ++ b')).
    { cbn [map]. destruct Hr as [[E Hbl]|(w2 & r2 & -> & Hw2 & He2)].
      - rewrite E. apply L_one; auto. constructor.
      - apply L_more; auto. constructor. }
    pose proof (p_loop_toks (z :: s') ((c :: r) :: toks') H (S (length (c :: r ++ b' ++ 93 :: k))) _ k He') as P.
    cbn [app] in P. rewrite <- app_assoc in P. apply P. cbn [length]. rewrite !app_length. cbn [length]. lia.
Qed.
End Progs.
End Eats.

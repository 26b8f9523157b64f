(** Soundness of JSON decoding: a success means the consumed text is a text of a
    document that represents the value. *)
From Verif Require Import Prelude PreludeFacts Utf8 Utf8Spec Utf8Facts SerdeDe SerdeSer MpSpec Base64Spec
  JsonSpec JsonTypeSpec JsonFacts JsonDe JsonDeSafe JsonStr JsonView JsonTok JsonMeth JsonEats JsonTyped
  Types TypesFacts MpTypeSpec MpTyped MpSound MpSerSim.
Ltac Zify.zify_post_hook ::= Z.div_mod_to_equations.

(** ** Texts put together *)
Definition arr_part (first : bool) (ds : list jv) (b : bytes) : Prop := forall w, blank w -> arr_rest first ds (b ++ w).
Definition obj_part (first : bool) (ms : list (bytes * jv)) (b : bytes) : Prop := forall w, blank w -> obj_rest first ms (b ++ w).
Lemma blank_app a b : blank a -> blank b -> blank (a ++ b).
Proof. intros Ha Hb. apply Forall_app. auto. Qed.
Lemma arr_part_nil first b : blank b -> arr_part first [] b.
Proof. intros H w Hw. left. split; auto. apply blank_app; auto. Qed.
Lemma obj_part_nil first b : blank b -> obj_part first [] b.
Proof. intros H w Hw. left. split; auto. apply blank_app; auto. Qed.
Lemma arr_part_cons (first : bool) w0 w d t y ds : blank w0 -> blank w -> loose_text d t -> arr_part false ds y ->
  arr_part first (d :: ds) ((if first then [] else w0 ++ [44]) ++ w ++ t ++ y).
Proof.
  intros H0 Hw Ht Hy v Hv. right.
  assert (E : elements any_ws quoted loose_key number_run (d :: ds) (w ++ t ++ y ++ v)).
  { destruct (Hy v Hv) as [[-> Hb]|(w2 & r & -> & H2 & Hr)]; [apply L_one; auto|apply L_more; auto]. }
  destruct first; cbn [app].
  - rewrite <- !app_assoc. exact E.
  - exists w0, (w ++ t ++ y ++ v). split; auto. rewrite <- !app_assoc. reflexivity.
Qed.
Lemma obj_part_cons (first : bool) w0 w1 w2 w3 raw kt d t y ms : blank w0 -> blank w1 -> loose_key raw kt -> blank w2 -> blank w3 ->
  loose_text d t -> obj_part false ms y ->
  obj_part first ((raw, d) :: ms) ((if first then [] else w0 ++ [44]) ++ w1 ++ kt ++ w2 ++ 58 :: w3 ++ t ++ y).
Proof.
  intros H0 H1 Hk H2 H3 Ht Hy v Hv. right.
  assert (E : members any_ws quoted loose_key number_run ((raw, d) :: ms) (w1 ++ kt ++ w2 ++ 58 :: w3 ++ t ++ y ++ v)).
  { destruct (Hy v Hv) as [[-> Hb]|(w4 & r & -> & H4 & Hr)]; [apply O_one; auto|apply O_more; auto]. }
  assert (A : (w1 ++ kt ++ w2 ++ 58 :: w3 ++ t ++ y) ++ v = w1 ++ kt ++ w2 ++ 58 :: w3 ++ t ++ y ++ v).
  { repeat (rewrite <- app_assoc; cbn [app]). reflexivity. }
  destruct first; cbn [app].
  - rewrite A. exact E.
  - exists w0, (w1 ++ kt ++ w2 ++ 58 :: w3 ++ t ++ y ++ v). split; auto. rewrite <- app_assoc, A, <- app_assoc. reflexivity.
Qed.
Lemma arr_whole ds b w : arr_part true ds b -> blank w -> loose_text (JArr ds) (91 :: (b ++ w) ++ [93]).
Proof. intros H Hw. destruct (H w Hw) as [[-> Hb]|He]; [apply T_arr0|apply T_arr]; auto. Qed.
Lemma obj_whole ms b w : obj_part true ms b -> blank w -> loose_text (JObj ms) (123 :: (b ++ w) ++ [125]).
Proof. intros H Hw. destruct (H w Hw) as [[-> Hb]|He]; [apply T_obj0|apply T_obj]; auto. Qed.
Lemma int_lit_run k z tok : int_lit k z tok -> number_run tok.
Proof.
  intros (_ & neg & ds & -> & [[Hn Hd] _] & _). split; [destruct neg, ds; cbn; congruence|]. apply Forall_app. split.
  - destruct neg; [apply Forall_cons; auto|constructor].
  - eapply Forall_impl; [|exact Hd]. auto.
Qed.

Section Sound.
Context (ar : arch) (fl : float_parser) (any_f32 : bool) (dec : byte_decoder).
Local Notation M := (DM jde js_de_error).
Local Notation inside := (inside ar dec).
Local Notation views := (views ar dec).
Local Notation run := (js_run ar fl any_f32 dec).

(** [m] only succeeds with [a] after consuming a text [bs] with [P a bs]. *)
Definition sound {A} (m : M A) (P : A -> bytes -> Prop) : Prop := forall s s' a,
  inside s -> all_bytes (unparsed s) -> m s = Done s' (Ok a) -> exists bs, unparsed s = bs ++ unparsed s' /\ inside s' /\ P a bs.
(** The same when the next character is known. *)
Definition soundc {A} (c : Z) (m : M A) (P : A -> bytes -> Prop) : Prop := forall s s' a,
  inside s -> all_bytes (unparsed s) -> (exists l, unparsed s = c :: l) -> m s = Done s' (Ok a) ->
  exists bs, unparsed s = bs ++ unparsed s' /\ inside s' /\ P a bs.
Definition never {A} (m : M A) : Prop := forall s s' a, m s <> Done s' (Ok a).

Lemma bytes_rest (a b : bytes) : all_bytes (a ++ b) -> all_bytes b.
Proof. intros H. apply Forall_app in H. tauto. Qed.
Lemma sound_weaken {A} (m : M A) (P Q : A -> bytes -> Prop) : sound m P -> (forall a b, P a b -> Q a b) -> sound m Q.
Proof. intros H HQ s s' a I B E. destruct (H s s' a I B E) as (bs & H1 & H2 & H3). eauto. Qed.
Lemma soundc_weaken {A} c (m : M A) (P Q : A -> bytes -> Prop) : soundc c m P -> (forall a b, P a b -> Q a b) -> soundc c m Q.
Proof. intros H HQ s s' a I B L E. destruct (H s s' a I B L E) as (bs & H1 & H2 & H3). eauto. Qed.
Lemma soundc_sound {A} c (m : M A) P : sound m P -> soundc c m P.
Proof. intros H s s' a I B L E. eapply H; eauto. Qed.
Lemma soundc_head {A} c (m : M A) (P : A -> bytes -> Prop) : sound m P -> soundc c m (fun a bs => P a bs /\ (bs = [] \/ exists l, bs = c :: l)).
Proof.
  intros H s s' a I B (l & Hl) E. destruct (H s s' a I B E) as (bs & A1 & I1 & P1). exists bs. split; auto. split; auto. split; auto.
  rewrite Hl in A1. destruct bs as [|b bs]; auto. right. exists bs. cbn in A1. congruence.
Qed.
Lemma sound_never {A} (m : M A) P : never m -> sound m P.
Proof. intros H s s' a _ _ E. destruct (H _ _ _ E). Qed.
Lemma never_fail {A} e : never (@dfail _ _ A e).
Proof. intros s s' a. discriminate. Qed.
Lemma never_lift {A} e : never (@dlift jde js_de_error A (Err e)).
Proof. intros s s' a. discriminate. Qed.
Lemma sound_fail {A} e P : sound (@dfail _ _ A e) P.
Proof. apply sound_never, never_fail. Qed.
Lemma soundc_fail {A} c e P : soundc c (@dfail _ _ A e) P.
Proof. apply soundc_sound, sound_fail. Qed.
Lemma sound_lift {A} (r : result A js_de_error) (P : A -> bytes -> Prop) : (forall a, r = Ok a -> P a []) -> sound (dlift r) P.
Proof. intros H s s' b I B [= <- ->]. exists []. auto. Qed.
Lemma sound_ret {A} (a : A) (P : A -> bytes -> Prop) : P a [] -> sound (dret a) P.
Proof. intros H s s' b I B [= <- <-]. exists []. auto. Qed.
Lemma sound_bind {A B} (m : M A) (k : A -> M B) (P : A -> bytes -> Prop) (Q : B -> bytes -> Prop) :
  sound m P -> (forall a x, P a x -> sound (k a) (fun b y => Q b (x ++ y))) -> sound (dbind m k) Q.
Proof.
  intros Hm Hk s s' b I Hb E. unfold dbind in E. destruct (m s) as [s1 [a|e]| |] eqn:E1; try discriminate.
  destruct (Hm _ _ _ I Hb E1) as (x & A1 & I1 & Px). assert (B1 : all_bytes (unparsed s1)) by (rewrite A1 in Hb; eapply bytes_rest; eauto).
  destruct (Hk a x Px s1 s' b I1 B1 E) as (y & A2 & I2 & Py).
  exists (x ++ y). rewrite A1, A2, app_assoc. auto.
Qed.
Lemma sound_try {A B} (m : M A) (k : result A js_de_error -> M B) (P : A -> bytes -> Prop) (Q : B -> bytes -> Prop) :
  sound m P -> (forall e, never (k (Err e))) -> (forall a x, P a x -> sound (k (Ok a)) (fun b y => Q b (x ++ y))) -> sound (dtry m k) Q.
Proof.
  intros Hm He Hk s s' b I Hb E. unfold dtry in E. destruct (m s) as [s1 [a|e]| |] eqn:E1; try discriminate.
  2: destruct (He _ _ _ _ E).
  destruct (Hm _ _ _ I Hb E1) as (x & A1 & I1 & Px). assert (B1 : all_bytes (unparsed s1)) by (rewrite A1 in Hb; eapply bytes_rest; eauto).
  destruct (Hk a x Px s1 s' b I1 B1 E) as (y & A2 & I2 & Py).
  exists (x ++ y). rewrite A1, A2, app_assoc. auto.
Qed.
Lemma soundc_try {A B} c (m : M A) (k : result A js_de_error -> M B) (P : A -> bytes -> Prop) (Q : B -> bytes -> Prop) :
  soundc c m P -> (forall e, never (k (Err e))) -> (forall a x, P a x -> sound (k (Ok a)) (fun b y => Q b (x ++ y))) -> soundc c (dtry m k) Q.
Proof.
  intros Hm He Hk s s' b I Hb L E. unfold dtry in E. destruct (m s) as [s1 [a|e]| |] eqn:E1; try discriminate.
  2: destruct (He _ _ _ _ E).
  destruct (Hm _ _ _ I Hb L E1) as (x & A1 & I1 & Px). assert (B1 : all_bytes (unparsed s1)) by (rewrite A1 in Hb; eapply bytes_rest; eauto).
  destruct (Hk a x Px s1 s' b I1 B1 E) as (y & A2 & I2 & Py).
  exists (x ++ y). rewrite A1, A2, app_assoc. auto.
Qed.
Lemma sound_post {A B} (m : M A) (g : result A js_de_error -> result B js_de_error) P (Q : B -> bytes -> Prop) :
  sound m P -> (forall e b, g (Err e) <> Ok b) -> (forall a b x, P a x -> g (Ok a) = Ok b -> Q b x) -> sound (dpost g m) Q.
Proof.
  intros Hm He Hk. eapply sound_try; [exact Hm|..].
  - intros e s s' b [= _ E]. exact (He _ _ E).
  - intros a x Px. apply sound_lift. intros b E. rewrite app_nil_r. eauto.
Qed.
Lemma soundc_post {A B} c (m : M A) (g : result A js_de_error -> result B js_de_error) P (Q : B -> bytes -> Prop) :
  soundc c m P -> (forall e b, g (Err e) <> Ok b) -> (forall a b x, P a x -> g (Ok a) = Ok b -> Q b x) -> soundc c (dpost g m) Q.
Proof.
  intros Hm He Hk. eapply soundc_try; [exact Hm|..].
  - intros e s s' b [= _ E]. exact (He _ _ E).
  - intros a x Px. apply sound_lift. intros b E. rewrite app_nil_r. eauto.
Qed.
Lemma soundc_if {A} c (b : bool) (m m' : M A) P : (b = true -> soundc c m P) -> (b = false -> soundc c m' P) -> soundc c (if b then m else m') P.
Proof. destruct b; auto. Qed.
Lemma sound_fuel {A} (P : A -> bytes -> Prop) : sound (fun _ => OutOfFuel) P.
Proof. apply sound_never. intros s s' a. discriminate. Qed.
Lemma sound_ws {A} (K : Z -> M A) (P : A -> bytes -> Prop) :
  (forall c, is_space c = false -> soundc c (K c) (fun a y => forall w, blank w -> P a (w ++ y))) -> sound (dbind eat_whitespace K) P.
Proof.
  intros H s s' a I B E. unfold dbind in E. pose proof (ws_state ar dec s I) as W. destruct (drop_ws_split (unparsed s)) as (w & Ew & Hw & _).
  destruct (drop_ws (unparsed s)) as [|c r]; [rewrite W in E; discriminate|]. destruct W as (s1 & W & I1 & U1 & Hc & _). rewrite W in E.
  rewrite Ew in B. apply bytes_rest in B. rewrite <- U1 in B, Ew.
  destruct (H c Hc s1 s' a I1 B (ex_intro _ r U1) E) as (y & A1 & I2 & P2). exists (w ++ y).
  rewrite Ew, A1, app_assoc. split; auto. split; auto. apply P2. eapply Forall_impl; [|exact Hw]. intros x. apply is_space_spec.
Qed.
Lemma soundc_eat {A} c (m : M A) (P : A -> bytes -> Prop) : sound m (fun a y => P a (c :: y)) -> soundc c (dbind (j_eat_some 1) (fun _ => m)) P.
Proof.
  intros H s s' a I B (l & Hl) E. destruct (eat_state ar dec s [c] l I Hl) as [I1 U1]. unfold dbind, j_eat_some in E. cbn [length] in *.
  rewrite Hl in B. apply Forall_inv_tail in B. destruct (H _ _ _ I1 ltac:(rewrite U1; auto) E) as (y & A1 & I2 & P2).
  exists (c :: y). rewrite Hl. rewrite U1 in A1. rewrite A1. auto.
Qed.

(** ** Parsers *)
Definition psound {B} (g : bytes -> pres B) (Q : B -> bytes -> Prop) : Prop := forall l b k,
  all_bytes l -> fits ar dec (length l) -> g l = Ok (b, k) -> exists bs, l = bs ++ k /\ Q b bs.
Lemma sound_view {A B} (proj : A -> B) m g Q : views proj m g -> psound g Q -> sound m (fun a bs => Q (proj a) bs).
Proof.
  intros V P s s' a I B0 E. specialize (V s I). rewrite E in V. destruct (g (unparsed s)) as [[b k]|e] eqn:Eg; cbn in V.
  - destruct V as (s1 & a1 & [= <- <-] & <- & I1 & U1). destruct (P _ _ _ B0 (fits_unparsed ar dec s _ I eq_refl) Eg) as (bs & E1 & Q1).
    exists bs. rewrite E1, U1. auto.
  - destruct V as (s1 & V). discriminate.
Qed.
Lemma psound_weaken {B} (g : bytes -> pres B) (P Q : B -> bytes -> Prop) : psound g P -> (forall b x, P b x -> Q b x) -> psound g Q.
Proof. intros H HQ l b k B0 F E. destruct (H l b k B0 F E) as (bs & H1 & H2). eauto. Qed.
Lemma psound_ws {B} (F : Z -> bytes -> pres B) (Q : B -> bytes -> Prop) :
  (forall c, is_space c = false -> psound (F c) (fun a y => forall w, blank w -> Q a (w ++ c :: y))) -> psound (p_ws F) Q.
Proof.
  intros H l b k B0 Fi E. apply p_ws_inv in E. destruct E as (w & c & r & -> & Hw & Hc & E).
  apply bytes_rest in B0. inversion B0; subst.
  destruct (H c Hc r b k) as (bs & -> & HQ); auto.
  { eapply fits_mono; [exact Fi|]. rewrite app_length. cbn [length]. lia. }
  exists (w ++ c :: bs). rewrite <- app_assoc. auto.
Qed.
Lemma psound_if {B} (b : bool) (g g' : bytes -> pres B) Q : (b = true -> psound g Q) -> (b = false -> psound g' Q) -> psound (fun l => if b then g l else g' l) Q.
Proof. destruct b; auto. Qed.
Lemma psound_err {B} e (Q : B -> bytes -> Prop) : psound (fun _ => Err e) Q.
Proof. intros l b k _ _. discriminate. Qed.
Lemma psound_ok {B} (b : B) (Q : B -> bytes -> Prop) : Q b [] -> psound (fun l => Ok (b, l)) Q.
Proof. intros H l b' k _ _ [= <- <-]. exists []. auto. Qed.
Lemma psound_bind {A B} (g : bytes -> pres A) (h : A -> bytes -> pres B) (P : A -> bytes -> Prop) (Q : B -> bytes -> Prop) :
  psound g P -> (forall a x, P a x -> psound (h a) (fun b y => Q b (x ++ y))) -> psound (fun l => pbind (g l) h) Q.
Proof.
  intros Hg Hh l b k B0 F E. destruct (g l) as [[a k1]|] eqn:Eg; [|discriminate]. cbn [pbind] in E.
  destruct (Hg l a k1 B0 F Eg) as (x & -> & Px). pose proof (bytes_rest _ _ B0) as B1.
  destruct (Hh a x Px k1 b k B1) as (y & -> & Qy); auto.
  { eapply fits_mono; [exact F|]. rewrite app_length. lia. }
  exists (x ++ y). rewrite app_assoc. auto.
Qed.
Lemma psound_tok t : psound (p_tok t) (fun _ bs => bs = t).
Proof.
  intros l b k _ _. unfold p_tok. destruct (length t <=? length l)%nat; [|discriminate]. destruct (list_eq_dec Z.eq_dec (firstn (length t) l) t) as [e|]; [|discriminate].
  intros [= _ <-]. exists t. split; auto. rewrite <- e at 1. symmetry. apply firstn_skipn.
Qed.
Lemma psound_lift {U} (r : result U js_de_error) (Q : U -> bytes -> Prop) : (forall u, r = Ok u -> Q u []) -> psound (fun k => plift r k) Q.
Proof. intros H l b k _ _. unfold plift. destruct r as [u|]; [|discriminate]. intros [= <- <-]. exists []. auto. Qed.
Lemma signed_min k : signed_kind k = true -> imin k < 0.
Proof. destruct k; cbn; (discriminate || lia). Qed.
Lemma psound_int k : psound (p_int k) (fun z bs => exists w tok, bs = w ++ tok /\ blank w /\ int_lit k z tok).
Proof.
  intros l z t B _ E. apply p_int_sound in E. destruct E as (w & neg & ds & -> & Hw & Hd & _ & Hz & Hk & Hn).
  exists (w ++ (if neg then [45] else []) ++ ds). split; [rewrite <- !app_assoc; auto|]. exists w, ((if neg then [45] else []) ++ ds).
  split; auto. split; auto. split; auto. exists neg, ds. split; auto. split; auto. split; auto. intros H. apply signed_min; auto.
Qed.
(** Strings, after the opening quote. *)
Lemma psound_unesc : psound unesc (fun s bs => exists raw, bs = raw ++ [34] /\ str_body false raw s).
Proof.
  intros l s k B _ E. apply unesc_ok in E; auto. destruct E as (t & -> & H). exists (t ++ [34]). rewrite <- app_assoc. eauto.
Qed.
Lemma psound_str : psound p_str (fun s bs => exists raw, bs = raw ++ [34] /\ literal raw s).
Proof.
  apply (psound_bind unesc (fun x k => if from_utf8_ok x then Ok (x, k) else Err JInvalidUnicodeCodePoint) _ _ psound_unesc).
  intros s x (raw & -> & H). apply psound_if; intros E; [|apply psound_err]. apply psound_ok. exists raw. rewrite app_nil_r. split; auto.
  split; auto. apply from_utf8_ok_spec. auto.
Qed.
Lemma psound_skip : psound p_skip (fun _ bs => exists raw, bs = raw ++ [34] /\ quoted_span raw).
Proof.
  intros l s k B _. unfold p_skip. destruct (skip false l) as [k'|] eqn:E; [|discriminate]. intros [= _ <-].
  apply skip_ok in E; auto. destruct E as (t & -> & H). exists (t ++ [34]). rewrite <- app_assoc. eauto.
Qed.
Lemma literal_span raw s : literal raw s -> quoted_span raw.
Proof. intros [H _]. eapply body_span; eauto. Qed.
Lemma hex_span h bs : hex_bytes h bs -> quoted_span h.
Proof.
  assert (P : forall a x, hex_digit a x -> plain_byte a) by (unfold hex_digit, plain_byte; intros; lia).
  induction 1; repeat (apply Q_plain; [eapply P; eauto|]); auto. constructor.
Qed.
Lemma b64_span ds n : Forall (fun v => 0 <= v < 64) ds -> quoted_span (map b64_char ds ++ repeat 61 n).
Proof.
  intros H. induction H as [|d ds Hd _ IH]; cbn [map app].
  - induction n; cbn; constructor; auto. unfold plain_byte. lia.
  - constructor; auto. assert (A : forallb (fun v => (32 <=? b64_char v) && (b64_char v <? 256) && negb (b64_char v =? 34) && negb (b64_char v =? 92)) (map Z.of_nat (seq 0 64)) = true) by (vm_compute; reflexivity).
    rewrite forallb_forall in A. specialize (A d). assert (In d (map Z.of_nat (seq 0 64))).
    { apply in_map_iff. exists (Z.to_nat d). split; [lia|]. apply in_seq. lia. }
    specialize (A H). unfold plain_byte. lia.
Qed.
Lemma psound_bytes_str : psound (p_bytes_str ar dec) (fun s bs => exists raw, bs = raw ++ [34] /\ bytes_of dec raw s /\ quoted_span raw).
Proof.
  intros l s k B F. unfold p_bytes_str, bytes_of. unfold fits in F. destruct dec; intros E.
  - apply unesc_ok in E; auto. destruct E as (t & -> & H). exists (t ++ [34]). rewrite <- app_assoc. split; auto. exists t. repeat split; auto. eapply body_span; eauto.
  - apply p_hex_sound in E; auto. destruct E as (t & -> & H). exists (t ++ [34]). rewrite <- app_assoc. split; auto. exists t. repeat split; auto. eapply hex_span; eauto.
  - apply p_base64_sound in E; [|unfold zlen; auto]. destruct E as (ds & n & -> & Hd & ->). exists ((map b64_char ds ++ repeat 61 n) ++ [34]).
    rewrite <- !app_assoc. split; auto. exists (map b64_char ds ++ repeat 61 n). rewrite <- !app_assoc. split; auto. split; [exists ds, n; auto|apply b64_span; auto].
Qed.
(** Arrays of bytes, after the opening bracket. *)
Lemma psound_array_loop n : psound (p_array_loop n) (fun s bs => exists toks b, bs = b ++ [93] /\
  elements any_ws quoted loose_key number_run (map JNum toks) b /\ Forall2 (int_lit U8) s toks).
Proof.
  induction n as [|n IH]; [apply psound_err|]. cbn [p_array_loop]. change (p_unsigned U8) with (p_int U8).
  intros l s k B F E. destruct (p_int U8 l) as [[z k1]|] eqn:Ei; [|discriminate]. cbn [pbind] in E.
  destruct (psound_int U8 l z k1 B F Ei) as (x & -> & w & tok & -> & Hw & Hl).
  pose proof (bytes_rest _ _ B) as B1. apply p_ws_inv in E. destruct E as (w2 & c & r & -> & Hw2 & Hc & E).
  destruct (c =? 44) eqn:E44.
  - assert (c = 44) as -> by lia. destruct (p_array_loop n r) as [[s2 k2]|] eqn:Er; [|discriminate]. cbn in E. injection E as <- <-.
    destruct (IH r s2 k2) as (y & -> & toks & b & -> & He & Hf); auto.
    { apply bytes_rest in B1. inversion B1; auto. }
    { eapply fits_mono; [exact F|]. repeat (rewrite app_length; cbn [length]). lia. }
    exists ((w ++ tok ++ w2 ++ 44 :: b) ++ [93]). split; [repeat (rewrite <- app_assoc; cbn [app]); auto|].
    exists (tok :: toks), (w ++ tok ++ w2 ++ 44 :: b). split; auto. split; [|constructor; auto]. cbn [map]. apply L_more; auto. apply T_num. eapply int_lit_run; eauto.
  - destruct (c =? 93) eqn:E93; [|discriminate]. assert (c = 93) as -> by lia. injection E as <- <-.
    exists ((w ++ tok ++ w2) ++ [93]). split; [repeat (rewrite <- app_assoc; cbn [app]); auto|].
    exists [tok], (w ++ tok ++ w2). split; auto. split; [|constructor; auto]. cbn [map]. apply L_one; auto. apply T_num. eapply int_lit_run; eauto.
Qed.
Lemma elements_blank l b w : elements any_ws quoted loose_key number_run l b -> blank w -> elements any_ws quoted loose_key number_run l (w ++ b).
Proof. intros H Hw. inversion H; subst; rewrite app_assoc; constructor; auto; apply blank_app; auto. Qed.
Lemma psound_array : psound p_array (fun s bs => exists toks b, bs = b ++ [93] /\ arr_rest true (map JNum toks) b /\ Forall2 (int_lit U8) s toks).
Proof.
  intros l s k B F E. apply p_ws_inv in E. destruct E as (w & c & r & -> & Hw & Hc & E). destruct (c =? 93) eqn:E93.
  - assert (c = 93) as -> by lia. injection E as <- <-. exists (w ++ [93]). split; [rewrite <- app_assoc; auto|]. exists [], w. split; auto. split; [left; auto|constructor].
  - destruct (psound_array_loop _ _ _ _ ltac:(eapply bytes_rest; eauto) ltac:(eapply fits_mono; [exact F|]; rewrite app_length; lia) E) as (bs & E1 & toks & b & -> & He & Hf).
    rewrite E1. exists (w ++ b ++ [93]). split; [rewrite <- !app_assoc; auto|]. exists toks, (w ++ b). rewrite <- app_assoc. split; auto. split; auto. right. apply elements_blank; auto.
Qed.

(** ** Leaf methods *)
(** A text of a document [d] with [P a d], after whitespace. *)
Definition vtext {A} (P : A -> jv -> Prop) (a : A) (bs : bytes) : Prop :=
  exists w d b, bs = w ++ b /\ blank w /\ loose_text d b /\ P a d.
Lemma vtext_blank {A} (P : A -> jv -> Prop) a w bs : blank w -> vtext P a bs -> vtext P a (w ++ bs).
Proof. intros Hw (w' & d & b & -> & Hw' & H). exists (w ++ w'), d, b. split; [apply app_assoc|]. split; auto. apply blank_app; auto. Qed.
Lemma vtext_weaken {A B} (P : A -> jv -> Prop) (Q : B -> jv -> Prop) a b bs : (forall d, P a d -> Q b d) -> vtext P a bs -> vtext Q b bs.
Proof. intros H (w & d & t & -> & Hw & Ht & Hp). exists w, d, t. auto. Qed.

Section Leaf.
Context {U : Type}.
Local Notation visitor := (visitor U js_de_error).
Lemma vt (P : U -> jv -> Prop) u w d b : blank w -> loose_text d b -> P u d -> vtext P u (w ++ b).
Proof. intros. exists w, d, b. auto. Qed.
Lemma psound_tok_lift t (r : result U js_de_error) : psound (fun l => pbind (p_tok t l) (fun _ k => plift r k)) (fun u bs => bs = t /\ r = Ok u).
Proof.
  eapply psound_bind; [apply psound_tok|]. intros a x ->. apply psound_lift. intros u E. rewrite app_nil_r. auto.
Qed.
Lemma psound_m_bool (v : visitor) : psound (p_m_bool v) (vtext (fun u d => exists x, d = JBool x /\ visit_bool v x = Ok u)).
Proof.
  apply psound_ws. intros c _. apply psound_if; intros E; [|apply psound_if; intros E2; [|apply psound_err]].
  - assert (c = 116) as -> by lia. eapply psound_weaken; [apply psound_tok_lift|]. intros u bs [-> Hu] w Hw. apply (vt _ u w (JBool true)); eauto. apply T_true.
  - assert (c = 102) as -> by lia. eapply psound_weaken; [apply psound_tok_lift|]. intros u bs [-> Hu] w Hw. apply (vt _ u w (JBool false)); eauto. apply T_false.
Qed.
Lemma psound_m_int k (v : visitor) : psound (p_m_int k v) (vtext (fun u d => exists tok z, d = JNum tok /\ int_lit k z tok /\ visit_int v k z = Ok u)).
Proof.
  eapply psound_bind; [apply psound_int|]. intros z x (w & tok & -> & Hw & Hl). apply psound_lift. intros u E. rewrite app_nil_r.
  apply (vt _ u w (JNum tok)); eauto 6. apply T_num. eapply int_lit_run; eauto.
Qed.
Lemma psound_float fs : fs [] = None -> psound (p_float fs) (vtext (fun o d => (exists tok x, d = JNum tok /\ fs tok = Some x /\ o = Some x) \/ (d = JNull /\ o = None))).
Proof.
  intros F0 l o k B F E. apply p_ws_inv in E. destruct E as (w & c & r & -> & Hw & Hc & E). destruct (c =? 110) eqn:E110.
  - assert (c = 110) as -> by lia. destruct (p_tok tok_ull r) as [[a k1]|] eqn:Et; [|discriminate]. cbn in E. injection E as <- <-.
    assert (B1 : all_bytes r) by (apply bytes_rest in B; inversion B; auto).
    destruct (psound_tok tok_ull r a k1 B1) as (x & -> & ->); auto.
    { eapply fits_mono; [exact F|]. rewrite app_length. cbn [length]. lia. }
    exists (w ++ [110; 117; 108; 108]). rewrite <- app_assoc. split; auto. exists w, JNull, [110; 117; 108; 108]. split; auto. split; auto. split; [apply T_null|auto].
  - cbv zeta in E. destruct (number_prefix_split (c :: r)) as (t & Et & Hn & _). destruct (fs (number_prefix (c :: r))) as [x|] eqn:Ef; [|discriminate].
    injection E as <- <-. exists (w ++ number_prefix (c :: r)). split; [rewrite <- app_assoc; f_equal; rewrite Et at 1; f_equal; rewrite Et at 2; rewrite skipn_len; auto|].
    exists w, (JNum (number_prefix (c :: r))), (number_prefix (c :: r)). split; auto. split; auto. split; [|left; eauto].
    apply T_num. split; [intros E0; rewrite E0 in Ef; congruence|]. eapply Forall_impl; [|exact Hn]. intros b. apply run_char.
Qed.
Lemma psound_m_char (v : visitor) : psound (p_m_char v) (vtext (fun u d => exists raw c, d = JStr raw /\ literal raw (utf8_char c) /\ is_scalar c /\ visit_char v c = Ok u)).
Proof.
  apply psound_ws. intros c _. apply psound_if; intros E; [|apply psound_err]. assert (c = 34) as -> by lia.
  eapply psound_bind; [apply psound_str|]. intros s x (raw & -> & Hl). destruct (char_from_str s) as [ch|] eqn:Ec; [|apply psound_err].
  apply char_from_str_spec in Ec. destruct Ec as [Hc ->]. apply psound_lift. intros u E2 w Hw. rewrite app_nil_r.
  apply (vt _ u w (JStr raw)); eauto 8. apply T_str. split; auto. eapply literal_span; eauto.
Qed.
Lemma psound_m_str (v : visitor) : psound (p_m_str v) (vtext (fun u d => exists raw s, d = JStr raw /\ literal raw s /\ visit_str v s = Ok u)).
Proof.
  apply psound_ws. intros c _. apply psound_if; intros E; [|apply psound_err]. assert (c = 34) as -> by lia.
  eapply psound_bind; [apply psound_str|]. intros s x (raw & -> & Hl). apply psound_lift. intros u E2 w Hw. rewrite app_nil_r.
  apply (vt _ u w (JStr raw)); eauto 8. apply T_str. split; auto. eapply literal_span; eauto.
Qed.
Lemma psound_m_unit (v : visitor) : psound (p_m_unit v) (vtext (fun u d => d = JNull /\ visit_unit v = Ok u)).
Proof.
  apply psound_ws. intros c _. apply psound_if; intros E; [|apply psound_err]. assert (c = 110) as -> by lia.
  eapply psound_weaken; [apply psound_tok_lift|]. intros u bs [-> Hu] w Hw. apply (vt _ u w JNull); auto. apply T_null.
Qed.
Lemma psound_m_bytes (v : visitor) : psound (p_m_bytes ar dec v) (vtext (fun u d => exists s, visit_bytes v s = Ok u /\
  ((exists raw, d = JStr raw /\ bytes_of dec raw s) \/ (exists toks, d = JArr (map JNum toks) /\ Forall2 (int_lit U8) s toks)))).
Proof.
  eapply (psound_bind _ _ (vtext (fun s d => (exists raw, d = JStr raw /\ bytes_of dec raw s) \/ (exists toks, d = JArr (map JNum toks) /\ Forall2 (int_lit U8) s toks)))).
  - apply psound_ws. intros c _. apply psound_if; intros E; [|apply psound_if; intros E2; [|apply psound_err]].
    + assert (c = 34) as -> by lia. eapply psound_weaken; [apply psound_bytes_str|]. intros s bs (raw & -> & Hb & Hs) w Hw.
      exists w, (JStr raw), (34 :: raw ++ [34]). split; auto. split; auto. split; [apply T_str; split; auto|]. left. eauto.
    + assert (c = 91) as -> by lia. eapply psound_weaken; [apply psound_array|]. intros s bs (toks & b & -> & Hb & Hs) w Hw.
      exists w, (JArr (map JNum toks)), (91 :: b ++ [93]). split; auto. split; auto. split; [|right; eauto].
      destruct Hb as [[-> Hb]|Hb]; [apply T_arr0|apply T_arr]; auto.
  - intros s x (w & d & b & -> & Hw & Ht & Hd). apply psound_lift. intros u E. rewrite app_nil_r. exists w, d, b. split; auto. split; auto. split; auto. exists s. auto.
Qed.
End Leaf.

(** ** Arrays and objects *)
Lemma soundc_bind {A B} c (m : M A) (k : A -> M B) (P : A -> bytes -> Prop) (Q : B -> bytes -> Prop) :
  soundc c m P -> (forall a x, P a x -> sound (k a) (fun b y => Q b (x ++ y))) -> soundc c (dbind m k) Q.
Proof.
  intros Hm Hk s s' b I Hb L E. unfold dbind in E. destruct (m s) as [s1 [a|e]| |] eqn:E1; try discriminate.
  destruct (Hm _ _ _ I Hb L E1) as (x & A1 & I1 & Px). assert (B1 : all_bytes (unparsed s1)) by (rewrite A1 in Hb; eapply bytes_rest; eauto).
  destruct (Hk a x Px s1 s' b I1 B1 E) as (y & A2 & I2 & Py).
  exists (x ++ y). rewrite A1, A2, app_assoc. auto.
Qed.
Lemma soundc_ws {A} c (K : Z -> M A) (P : A -> bytes -> Prop) : is_space c = false -> soundc c (K c) P -> soundc c (dbind eat_whitespace K) P.
Proof.
  intros Hc H s s' a I B (l & Hl) E. pose proof (ws_state ar dec s I) as W. rewrite Hl, drop_ws_char in W by auto. destruct W as (s1 & W & I1 & U1 & _).
  unfold dbind in E. rewrite W in E. assert (U2 : unparsed s1 = unparsed s) by congruence.
  destruct (H s1 s' a I1 ltac:(rewrite U2; auto) (ex_intro _ l U1) E) as (y & A1 & I2 & P2). exists y. rewrite <- U2. auto.
Qed.
Section Item.
Context (close : Z) (e1 e2 e3 : js_de_error) (Hs : is_space close = false) (Hc : close <> 44).
Context {A : Type} (K : result (option (Z * bool)) js_de_error -> M A) (KE : forall e, never (K (Err e))).
Lemma item_sound (first : bool) (Q : A -> bytes -> Prop) :
  soundc close (K (Ok None)) (fun a y => forall w, blank w -> Q a (w ++ y)) ->
  (forall c, soundc c (K (Ok (Some (c, false)))) (fun a y => forall w0 w, blank w0 -> blank w ->
     Q a ((if first then [] else w0 ++ [44]) ++ w ++ y))) ->
  sound (dtry (next_item close e1 e2 e3 first) K) Q.
Proof.
  intros HN HS s s' a I B E.
  assert (E' : (c <-- eat_whitespace ;; dtry (if c =? close then dret None
    else if c =? 44 then if first then dfail e1 else _ <-- j_eat_some 1 ;; c <-- eat_whitespace ;; if c =? close then dfail e2 else dret (Some (c, first))
    else if first then dret (Some (c, false)) else dfail e3) K) s = Done s' (Ok a)).
  { revert E. unfold next_item, dtry, dbind. destruct (eat_whitespace s) as [s1 [c|e]| |]; auto. intros E. destruct (KE _ _ _ _ E). }
  clear E. revert s s' a I B E'. change (sound (c <-- eat_whitespace ;; dtry (if c =? close then dret None
    else if c =? 44 then if first then dfail e1 else _ <-- j_eat_some 1 ;; c <-- eat_whitespace ;; if c =? close then dfail e2 else dret (Some (c, first))
    else if first then dret (Some (c, false)) else dfail e3) K) Q).
  assert (ND : forall e, never (dtry (dfail e) K)). { intros e s s' a E. exact (KE _ _ _ _ E). }
  apply sound_ws. intros c Hcs. destruct (c =? close) eqn:Ec.
  { assert (c = close) as -> by lia. exact HN. }
  destruct (c =? 44) eqn:E44.
  - destruct first; [apply soundc_sound, sound_never, ND|]. assert (c = 44) as -> by lia.
    assert (G : soundc 44 (_ <-- j_eat_some 1 ;; c <-- eat_whitespace ;; dtry (if c =? close then dfail e2 else dret (Some (c, false))) K)
      (fun a y => forall w, blank w -> Q a (w ++ y))).
    { apply soundc_eat. apply sound_ws. intros c2 Hc2. destruct (c2 =? close) eqn:E2; [apply soundc_sound, sound_never, ND|].
      eapply soundc_weaken; [apply (HS c2)|]. intros a y HQ w Hw w0 H0. specialize (HQ w0 w H0 Hw). cbv beta iota in HQ.
      repeat (rewrite <- app_assoc in HQ; cbn [app] in HQ). exact HQ. }
    intros s s' a I B L E. apply (G s s' a I B L). revert E. unfold dtry, dbind, j_eat_some. destruct (eat_whitespace _) as [s1 [c|e]| |]; auto. intros E. destruct (KE _ _ _ _ E).
  - destruct first; [|apply soundc_sound, sound_never, ND]. eapply soundc_weaken; [apply (HS c)|]. intros a y HQ w Hw. exact (HQ [] w ltac:(constructor) Hw).
Qed.
Lemma item_closed (first : bool) (Q : A -> bytes -> Prop) : soundc close (K (Ok None)) Q -> soundc close (dtry (next_item close e1 e2 e3 first) K) Q.
Proof.
  intros HN s s' a I B (l & Hl) E. pose proof (ws_state ar dec s I) as W. rewrite Hl, drop_ws_char in W by auto. destruct W as (s1 & W & I1 & U1 & _).
  unfold dtry, next_item, dbind in E. rewrite W, Z.eqb_refl in E. cbn in E. assert (U2 : unparsed s1 = unparsed s) by congruence.
  destruct (HN s1 s' a I1 ltac:(rewrite U2; auto) (ex_intro _ l U1) E) as (y & A1 & I2 & P2). exists y. rewrite <- U2. auto.
Qed.
End Item.
Lemma sound_seq {U} (R : @jrunner U) v (P : U -> list jv -> Prop) :
  sound (jr_seq R (visit_seq v) true) (fun u b => exists ds, arr_part true ds b /\ P u ds) ->
  sound (j_deserialize_seq R v) (vtext (fun u d => exists ds, d = JArr ds /\ P u ds)).
Proof.
  intros H. apply sound_ws. intros c _. apply soundc_if; intros E; [|apply soundc_fail]. assert (c = 91) as -> by lia. apply soundc_eat.
  eapply sound_bind; [exact H|]. intros u b (ds & Hb & Hp). apply sound_ws. intros c _. apply soundc_if; intros E2; [|apply soundc_fail].
  assert (c = 93) as -> by lia. apply soundc_eat. apply sound_ret. intros w2 H2 w Hw. exists w, (JArr ds), (91 :: (b ++ w2) ++ [93]).
  split; [rewrite <- app_assoc; auto|]. split; auto. split; [apply arr_whole; auto|eauto].
Qed.
Lemma sound_map {U} (R : @jrunner U) v (P : U -> list (bytes * jv) -> Prop) :
  sound (jr_map R (visit_map v) true) (fun u b => exists ms, obj_part true ms b /\ P u ms) ->
  sound (j_deserialize_map R v) (vtext (fun u d => exists ms, d = JObj ms /\ P u ms)).
Proof.
  intros H. apply sound_ws. intros c _. apply soundc_if; intros E; [|apply soundc_fail]. assert (c = 123) as -> by lia. apply soundc_eat.
  eapply sound_bind; [exact H|]. intros u b (ms & Hb & Hp). apply sound_ws. intros c _. apply soundc_if; intros E2; [|apply soundc_fail].
  assert (c = 125) as -> by lia. apply soundc_eat. apply sound_ret. intros w2 H2 w Hw. exists w, (JObj ms), (123 :: (b ++ w2) ++ [125]).
  split; [rewrite <- app_assoc; auto|]. split; auto. split; [apply obj_whole; auto|eauto].
Qed.
Lemma sound_struct {U} (R : @jrunner U) v (P : U -> list jv -> Prop) (Q : U -> list (bytes * jv) -> Prop) :
  sound (jr_seq R (visit_seq v) true) (fun u b => exists ds, arr_part true ds b /\ P u ds) ->
  sound (jr_map R (visit_map v) true) (fun u b => exists ms, obj_part true ms b /\ Q u ms) ->
  sound (j_deserialize_struct R v) (vtext (fun u d => (exists ds, d = JArr ds /\ P u ds) \/ (exists ms, d = JObj ms /\ Q u ms))).
Proof.
  intros HP HQ. apply sound_ws. intros c _. apply soundc_if; intros E; [|apply soundc_if; intros E2; [|apply soundc_fail]]; apply soundc_sound.
  - eapply sound_weaken; [apply sound_map; exact HQ|]. intros u bs H w Hw. apply vtext_blank; auto. eapply vtext_weaken; [|exact H]. auto.
  - eapply sound_weaken; [apply sound_seq; exact HP|]. intros u bs H w Hw. apply vtext_blank; auto. eapply vtext_weaken; [|exact H]. auto.
Qed.

Lemma sound_colon : sound parse_key_colon (fun _ bs => exists w, bs = w ++ [58] /\ blank w).
Proof.
  apply (sound_view (fun x => x) _ _ (fun _ bs => exists w, bs = w ++ [58] /\ blank w) (view_colon ar dec)). apply psound_ws. intros c _. apply psound_if; intros E; [|apply psound_err].
  assert (c = 58) as -> by lia. apply psound_ok. intros w Hw. eauto.
Qed.
Definition ktext {A} (P : A -> bytes -> Prop) (a : A) (bs : bytes) : Prop := exists raw, loose_key raw bs /\ P a raw.

(** ** Programs *)
Local Notation deser := (deser val js_de_error).
Local Notation visitor := (visitor val js_de_error).
Local Notation den := (denote JDeserializeError).
Definition sde (p : deser) (P : val -> jv -> Prop) : Prop := forall f, sound (jr_de (run f) false p) (vtext P).
Definition sme m (v : visitor) (P : val -> jv -> Prop) : Prop := forall f, sound (js_method ar fl any_f32 dec (run f) m v) (vtext P).
Definition skey (p : deser) (P : val -> bytes -> Prop) : Prop := forall f, soundc 34 (jr_de (run f) true p) (ktext P).

Lemma soundc_fuel {A} c (P : A -> bytes -> Prop) : soundc c (fun _ => OutOfFuel) P.
Proof. apply soundc_sound, sound_fuel. Qed.
Lemma sde_req m v P : sme m v P -> sde (DReq m v (fun r => r)) P.
Proof. intros H [|f]; [apply sound_fuel|]. cbn. eapply sound_post; [apply H|discriminate|]. intros a b x Px [= ->]. auto. Qed.
Lemma sde_request m v P : sme m (mk_visitor v) P -> sde (request m v) P.
Proof. apply sde_req. Qed.
Lemma sde_method m v P : sde (request m v) P -> sme m (mk_visitor v) P.
Proof. intros H f s s' a I Hb E. apply (H (S f) s s' a I Hb). cbn. unfold dpost, dtry. rewrite E. reflexivity. Qed.
Lemma sde_then m v g P (Q : val -> jv -> Prop) : sde (request m v) P -> (forall e b, g (Err e) <> Ok b) ->
  (forall a b d, P a d -> g (Ok a) = Ok b -> Q b d) -> sde (then_ (request m v) g) Q.
Proof.
  intros H He Hk [|f]; [apply sound_fuel|]. cbn. eapply sound_post; [apply (sde_method _ _ _ H f)|exact He|].
  intros a b x Px E. eapply vtext_weaken; [|exact Px]. eauto.
Qed.
Lemma never_seq_err f e first : never (jr_seq (run f) (SRet (Err e)) first : M val).
Proof. destruct f; intros s s' a; discriminate. Qed.
Lemma never_map_err f e first : never (jr_map (run f) (MRet (Err e)) first : M val).
Proof. destruct f; intros s s' a; discriminate. Qed.
Lemma seq_ret f v first (Q : val -> bytes -> Prop) c : Q v [] -> soundc c (jr_seq (run f) (SRet (Ok v)) first) Q.
Proof. intros H. apply soundc_sound. destruct f; [apply sound_fuel|]. apply sound_ret. auto. Qed.
Lemma map_ret f r first (Q : val -> bytes -> Prop) c : (forall v, r = Ok v -> Q v []) -> soundc c (jr_map (run f) (MRet r) first) Q.
Proof. intros H. apply soundc_sound. destruct f; [apply sound_fuel|]. apply sound_lift. auto. Qed.

(** One element. *)
Lemma next_elem f seed (K : result (option val) js_de_error -> sprog val js_de_error) (first : bool) P (Q : val -> list jv -> Prop) :
  sound (jr_de (run f) false seed) (vtext P) -> (forall e, exists e', K (Err e) = SRet (Err e')) ->
  soundc 93 (jr_seq (run f) (K (Ok None)) first) (fun u b => b = [] /\ Q u []) ->
  (forall x d, P x d -> sound (jr_seq (run f) (K (Ok (Some x))) false) (fun u b => exists ds, arr_part false ds b /\ Q u (d :: ds))) ->
  sound (jr_seq (run (S f)) (SNext seed K) first) (fun u b => exists ds, arr_part first ds b /\ Q u ds).
Proof.
  intros Hs KE HN HK. cbn [js_run jr_seq j_step_seq]. apply item_sound; [lia|..].
  - intros e. destruct (KE e) as (e' & ->). apply never_seq_err.
  - eapply soundc_weaken; [exact HN|]. intros u b [-> Hq] w Hw. exists []. split; auto. rewrite app_nil_r. apply arr_part_nil. auto.
  - intros c. apply soundc_sound. eapply sound_try; [exact Hs|intros e; destruct (KE e) as (e' & E); cbn [jres_some]; rewrite E; apply never_seq_err|].
    intros x bs (w' & d & t & -> & Hw' & Ht & Hp). cbn [jres_some]. eapply sound_weaken; [apply (HK x d Hp)|].
    intros u y (ds & Hy & Hq) w0 w H0 Hw. exists (d :: ds). split; auto.
    replace (w ++ (w' ++ t) ++ y) with ((w ++ w') ++ t ++ y) by (rewrite <- !app_assoc; auto).
    apply arr_part_cons; auto. apply blank_app; auto.
Qed.
Lemma next_closed f seed (K : result (option val) js_de_error -> sprog val js_de_error) (first : bool) (Q : val -> bytes -> Prop) :
  (forall e, exists e', K (Err e) = SRet (Err e')) ->
  soundc 93 (jr_seq (run f) (K (Ok None)) first) Q -> soundc 93 (jr_seq (run (S f)) (SNext seed K) first) Q.
Proof.
  intros KE HN. cbn [js_run jr_seq j_step_seq]. apply item_closed; [reflexivity|exact HN].
Qed.
(** One member. *)
Lemma next_member f kseed (K : result (option val) js_de_error -> mprog val js_de_error) (first : bool) KP (Q : val -> list (bytes * jv) -> Prop) :
  soundc 34 (jr_de (run f) true kseed) (ktext KP) -> (forall e, exists e', K (Err e) = MRet (Err e')) ->
  soundc 125 (jr_map (run f) (K (Ok None)) first) (fun u b => b = [] /\ Q u []) ->
  (forall x raw, KP x raw -> (exists e, K (Ok (Some x)) = MRet (Err e)) \/
     (exists vseed VK VP, K (Ok (Some x)) = MVal vseed VK /\ (forall f', (f' < f)%nat -> sound (jr_de (run f') false vseed) (vtext VP)) /\
        (forall e, exists e', VK (Err e) = MRet (Err e')) /\
        (forall y d f', (f' < f)%nat -> VP y d -> sound (jr_map (run f') (VK (Ok y)) false) (fun u b => exists ms, obj_part false ms b /\ Q u ((raw, d) :: ms))))) ->
  sound (jr_map (run (S f)) (MKey kseed K) first) (fun u b => exists ms, obj_part first ms b /\ Q u ms).
Proof.
  intros Hs KE HN HK. cbn [js_run jr_map j_step_map]. apply item_sound; [lia|..].
  - intros e. destruct (KE e) as (e' & ->). apply never_map_err.
  - eapply soundc_weaken; [exact HN|]. intros u b [-> Hq] w Hw. exists []. split; auto. rewrite app_nil_r. apply obj_part_nil. auto.
  - intros c. apply soundc_if; intros E; [|apply soundc_sound, sound_never; destruct (KE JKeyMustBeAString) as (e' & ->); apply never_map_err].
    assert (c = 34) as -> by lia. eapply soundc_try; [exact Hs|intros e; destruct (KE e) as (e' & Ee); cbn [jres_some]; rewrite Ee; apply never_map_err|].
    intros x kt (raw & Hk & Hkp). cbn [jres_some]. destruct (HK x raw Hkp) as [(e & ->)|(vseed & VK & VP & -> & Hv & VE & HV)]; [apply sound_never, never_map_err|].
    destruct f as [|f]; [apply sound_fuel|]. cbn [js_run jr_map j_step_map].
    eapply sound_try with (P := fun y bs => exists w2 d w3 t, bs = w2 ++ 58 :: w3 ++ t /\ blank w2 /\ blank w3 /\ loose_text d t /\ VP y d);
      [|intros e; destruct (VE e) as (e' & ->); apply never_map_err|].
    + eapply sound_bind; [apply sound_colon|]. intros _ x2 (w2 & -> & H2). eapply sound_weaken; [apply (Hv f); auto|].
      intros y bs (w3 & d & t & -> & H3 & Ht & Hp). exists w2, d, w3, t. rewrite <- app_assoc. auto.
    + intros y x2 (w2 & d & w3 & t & -> & H2 & H3 & Ht & Hp). eapply sound_weaken; [apply (HV y d f); auto|].
      intros u b (ms & Hb & Hq) w0 w H0 Hw. exists ((raw, d) :: ms). split; auto.
      replace (w ++ kt ++ (w2 ++ 58 :: w3 ++ t) ++ b) with (w ++ kt ++ w2 ++ 58 :: w3 ++ t ++ b) by (rewrite <- !app_assoc; cbn [app]; rewrite <- !app_assoc; auto).
      apply obj_part_cons; auto.
Qed.

(** ** Keys *)
Lemma key_head raw s w b : blank w -> b = 34 :: raw ++ [34] -> literal raw s -> w ++ b = [] \/ (exists l, w ++ b = 34 :: l) -> loose_key raw (w ++ b).
Proof.
  intros Hw -> L H. destruct Hw as [|c w Hc Hw].
  - cbn. split; auto. exists [], raw. split; auto. split; [constructor|]. eapply literal_span; eauto.
  - destruct H as [H|(l & H)]; [discriminate|]. cbn in H. injection H as -> _. lia.
Qed.
Lemma skey_req m v (P : val -> bytes -> Prop) : (forall f, soundc 34 (key_method (run f) m v) (ktext P)) -> skey (DReq m v (fun r => r)) P.
Proof. intros H [|f]; [apply soundc_fuel|]. cbn. eapply soundc_post; [apply H|discriminate|]. intros a b x Px [= ->]. auto. Qed.
Lemma soundc_key_str (v : visitor) : soundc 34 (j_deserialize_str v) (ktext (fun u raw => exists s, literal raw s /\ visit_str v s = Ok u)).
Proof.
  eapply soundc_weaken; [apply soundc_head; apply (sound_view (fun x => x) _ _ _ (view_m_str ar dec v) (psound_m_str v))|].
  intros u bs [(w & d & b & -> & Hw & Ht & raw & s & -> & Hl & Hv) Hh]. exists raw. inversion Ht; subst. destruct H0 as [Hq _].
  split; [eapply key_head; eauto|]. eauto.
Qed.
Lemma soundc_key_char (v : visitor) : soundc 34 (j_deserialize_char v) (ktext (fun u raw => exists c, literal raw (utf8_char c) /\ is_scalar c /\ visit_char v c = Ok u)).
Proof.
  eapply soundc_weaken; [apply soundc_head; apply (sound_view (fun x => x) _ _ _ (view_m_char ar dec v) (psound_m_char v))|].
  intros u bs [(w & d & b & -> & Hw & Ht & raw & s & -> & Hl & Hs & Hv) Hh]. exists raw. inversion Ht; subst. destruct H0 as [Hq _].
  split; [eapply key_head; eauto|]. eauto.
Qed.
Lemma sound_quote {A} (a : A) e : sound (c <-- j_peek ;; if c =? 34 then _ <-- j_eat_some 1 ;; dret a else dfail e) (fun x bs => x = a /\ bs = [34]).
Proof.
  apply (sound_view (fun x => x) _ _ (fun x bs => x = a /\ bs = [34]) (view_quote ar dec a e)). intros [|c l] b k B F; [discriminate|]. cbn [p_peek].
  destruct (c =? 34) eqn:E; [|discriminate]. intros [= <- <-]. exists [34]. replace c with 34 by lia. auto.
Qed.
Lemma int_lit_span k z tok : int_lit k z tok -> quoted_span tok.
Proof.
  intros (_ & neg & ds & -> & [[_ Hd] _] & _). assert (D : quoted_span ds).
  { induction Hd; constructor; auto. unfold is_digit, plain_byte in *. lia. }
  destruct neg; auto. constructor; auto. unfold plain_byte. lia.
Qed.
Lemma soundc_key_int k (v : visitor) : soundc 34 (n <-- parse_numkey k ;; dlift (visit_int v k n))
  (ktext (fun u raw => exists w tok z, blank w /\ raw = w ++ tok /\ int_lit k z tok /\ visit_int v k z = Ok u)).
Proof.
  eapply soundc_bind with (P := fun z bs => exists w tok, bs = 34 :: (w ++ tok) ++ [34] /\ blank w /\ int_lit k z tok).
  - apply soundc_eat. eapply sound_bind; [apply (sound_view (fun x => x) _ _ _ (view_int ar dec k) (psound_int k))|].
    intros z x (w & tok & -> & Hw & Hl). eapply sound_weaken; [apply sound_quote|]. intros a bs [-> ->]. exists w, tok. auto.
  - intros z x (w & tok & -> & Hw & Hl). apply sound_lift. intros u E. rewrite app_nil_r. exists (w ++ tok). split; [|eauto 8].
    split; auto. exists w, tok. split; auto. split; auto. eapply int_lit_span; eauto.
Qed.
Lemma soundc_key_bool (v : visitor) : soundc 34 (key_bool v)
  (ktext (fun u raw => exists w (x : bool), blank w /\ raw = w ++ (if x then [116; 114; 117; 101] else [102; 97; 108; 115; 101]) /\ visit_bool v x = Ok u)).
Proof.
  apply soundc_eat. eapply sound_bind; [apply (sound_view (fun x => x) _ _ _ (view_m_bool ar dec v) (psound_m_bool v))|].
  intros u bs (w & d & b & -> & Hw & Ht & x & -> & Hv). eapply sound_weaken; [apply sound_quote|]. intros a bs [-> ->].
  assert (b = if x then [116; 114; 117; 101] else [102; 97; 108; 115; 101]) as -> by (inversion Ht; auto).
  exists (w ++ (if x then [116; 114; 117; 101] else [102; 97; 108; 115; 101])). split; [|eauto 8]. split; auto. exists w. eexists. split; [reflexivity|]. split; auto.
  destruct x; repeat constructor; unfold plain_byte; lia.
Qed.

(** ** Skipped values *)
Lemma soundc_number c (r : result val js_de_error) : number_char c = true ->
  soundc c (input <-- match_float ;; _ <-- j_eat_some (length input) ;; dlift r) (fun u bs => r = Ok u /\ number_run bs /\ exists l, bs = c :: l).
Proof.
  intros Hc s s' a I B (l & Hl) E. assert (Ix : (j_index s <= length (j_input s))%nat) by apply I.
  unfold dbind, match_float, j_eat_some in E. rewrite (proj2 (Nat.leb_le _ _) Ix) in E. change (skipn (j_index s) (j_input s)) with (unparsed s) in E.
  destruct (number_prefix_split (unparsed s)) as (t & Et & Hn & Hh).
  destruct (eat_state ar dec s _ t I Et) as [I1 U1]. cbn in E. injection E as <- ->. exists (number_prefix (unparsed s)). rewrite U1. split; auto. split; auto. split; auto.
  assert (Ex : exists l', number_prefix (unparsed s) = c :: l').
  { destruct (number_prefix (unparsed s)) as [|c' l']; [|exists l'; rewrite Hl in Et; cbn in Et; congruence].
    cbn in Et. rewrite <- Et, Hl in Hh. congruence. }
  split; auto. split; [destruct Ex as (l' & ->); discriminate|]. eapply Forall_impl; [|exact Hn]. intros b. apply run_char.
Qed.

Definition skip_text (_ : val) (d : jv) : Prop := skippable d.
Lemma digit_number c : ascii_digit c || (c =? 45) = true -> number_char c = true /\ (is_digit c \/ c = 45).
Proof. unfold number_char, ascii_digit, is_digit. lia. Qed.
Lemma ignored_seq_eq {E} : @ignored_seq E = SNext ignored (fun r =>
  match r with Ok (Some _) => ignored_seq | Ok None => SRet (Ok UUnit) | Err e => SRet (Err e) end).
Proof. rewrite (sfrob_eq ignored_seq) at 1. reflexivity. Qed.
Lemma ignored_map_eq {E} : @ignored_map E = MKey ignored (fun r =>
  match r with
  | Ok (Some _) => MVal ignored (fun r => match r with Ok _ => ignored_map | Err e => MRet (Err e) end)
  | Ok None => MRet (Ok UUnit)
  | Err e => MRet (Err e)
  end).
Proof. rewrite (mfrob_eq ignored_map) at 1. reflexivity. Qed.
Lemma ignored_sound_all f :
  sound (jr_de (run f) false ignored) (vtext skip_text) /\
  (forall first, sound (jr_seq (run f) ignored_seq first) (fun (_ : val) b => exists ds, arr_part first ds b /\ all_list skippable ds)) /\
  (forall first, sound (jr_map (run f) ignored_map first) (fun (_ : val) b => exists ms, obj_part first ms b /\
     all_list (fun m => (exists s, literal (fst m) s) /\ skippable (snd m)) ms)).
Proof.
  induction f as [f IH] using (well_founded_induction lt_wf).
  destruct f as [|f]; [split; [|split]; intros; apply sound_fuel|]. destruct (@ignored_req js_de_error) as (v & Ei & Hu & Hb & Hstr & Hsq & Hmp).
  split; [|split].
  - rewrite Ei. cbn [js_run jr_de j_step_de]. eapply sound_post with (P := vtext skip_text); [|discriminate|intros a b x Px [= ->]; exact Px].
    cbn [js_method]. apply sound_ws. intros c Hc.
    apply soundc_if; intros E1.
    { apply soundc_sound. eapply sound_weaken; [apply (sound_view (fun x => x) _ _ _ (view_m_unit ar dec v) (psound_m_unit v))|].
      intros u bs H w Hw. apply vtext_blank; auto. eapply vtext_weaken; [|exact H]. intros d [-> _]. exact I. }
    apply soundc_if; intros E2.
    { apply soundc_sound. eapply sound_weaken; [apply (sound_view (fun x => x) _ _ _ (view_m_bool ar dec v) (psound_m_bool v))|].
      intros u bs H w Hw. apply vtext_blank; auto. eapply vtext_weaken; [|exact H]. intros d (x & -> & _). exact I. }
    apply soundc_if; intros E3.
    { assert (c = 34) as -> by lia. apply soundc_eat. eapply sound_bind; [apply (sound_view (fun x => x) _ _ _ (view_skip ar dec) psound_skip)|].
      intros _ x (raw & -> & Hq). apply sound_lift. intros u _ w Hw. rewrite app_nil_r. apply (vt _ u w (JStr raw)); auto; [|exact I]. apply T_str. split; auto. }
    apply soundc_if; intros E4.
    { destruct (digit_number c E4) as [Hn Hd]. eapply soundc_weaken; [apply soundc_number; auto|]. intros u bs (_ & Hr & l & ->) w Hw.
      apply (vt _ u w (JNum (c :: l))); auto; [apply T_num; auto|]. exists c, l. auto. }
    apply soundc_if; intros E5.
    { apply soundc_sound. eapply sound_weaken; [apply sound_seq; rewrite Hsq; apply (IH f); auto|].
      intros u bs H w Hw. apply vtext_blank; auto. eapply vtext_weaken; [|exact H]. intros d (ds & -> & Hd). exact Hd. }
    apply soundc_if; intros E6; [|apply soundc_fail].
    { apply soundc_sound. eapply sound_weaken; [apply sound_map; rewrite Hmp; apply (IH f); auto|].
      intros u bs H w Hw. apply vtext_blank; auto. eapply vtext_weaken; [|exact H]. intros d (ds & -> & Hd). exact Hd. }
  - intros first. rewrite ignored_seq_eq. eapply (next_elem f _ _ first skip_text (fun _ ds => all_list skippable ds)).
    + apply (IH f). auto.
    + eauto.
    + apply seq_ret. cbn. auto.
    + intros x d Hd. eapply sound_weaken; [apply (IH f); auto|]. intros u b (ds & Hb' & Hds). exists ds. split; auto. split; auto.
  - intros first. rewrite ignored_map_eq.
    eapply (next_member f _ _ first (fun _ raw => exists s, literal raw s) (fun _ ms => all_list (fun m => (exists s, literal (fst m) s) /\ skippable (snd m)) ms)).
    + destruct f as [|f]; [apply soundc_fuel|]. rewrite Ei. cbn [js_run jr_de j_step_de]. eapply soundc_post; [apply soundc_key_str|discriminate|].
      intros a b x (raw & Hk & s & Hl & _) _. exists raw. eauto.
    + eauto.
    + apply map_ret. cbn. auto.
    + intros x raw Hl. right. eexists; eexists; exists skip_text. split; [reflexivity|]. split; [|split].
      * intros f' Hf'. apply (IH f'). lia.
      * eauto.
      * intros y d f' Hf' Hd. eapply sound_weaken; [apply (IH f'); lia|]. intros u b (ms & Hb' & Hms). exists ms. split; auto. split; auto.
Qed.
Lemma sde_ignored : sde ignored skip_text.
Proof. intros f. apply ignored_sound_all. Qed.

(** ** Loops *)
Lemma ssq_loop seed P : sde seed P -> forall f acc first,
  sound (jr_seq (run f) (seq_loop seed acc) first) (fun u b => exists ds, arr_part first ds b /\ exists l, u = USeq (rev acc ++ l) /\ Forall2 P l ds).
Proof.
  intros HP. induction f as [|f IH]; intros acc first; [apply sound_fuel|].
  rewrite (sfrob_eq (seq_loop seed acc)). cbn [sfrob seq_loop].
  apply (next_elem f _ _ first P (fun u ds => exists l, u = USeq (rev acc ++ l) /\ Forall2 P l ds)); [apply HP|eauto|..].
  - apply seq_ret. split; auto. exists []. rewrite app_nil_r. auto.
  - intros x d Hd. eapply sound_weaken; [apply IH|]. intros u b (ds & Hb & l & -> & Hl). exists ds. split; auto. exists (x :: l).
    cbn [rev]. rewrite <- app_assoc. split; auto.
Qed.
Lemma smp_loop kseed vseed KP VP : skey kseed KP -> sde vseed VP -> forall f acc first,
  sound (jr_map (run f) (map_loop kseed vseed acc) first) (fun u b => exists ms, obj_part first ms b /\
    exists l, u = UMap (rev acc ++ l) /\ Forall2 (fun e m => KP (fst e) (fst m) /\ VP (snd e) (snd m)) l ms).
Proof.
  intros HK HV f. induction f as [f IH] using (well_founded_induction lt_wf); intros acc first. destruct f as [|f]; [apply sound_fuel|].
  rewrite (mfrob_eq (map_loop kseed vseed acc)). cbn [mfrob map_loop].
  apply (next_member f _ _ first KP (fun u ms => exists l, u = UMap (rev acc ++ l) /\ Forall2 (fun e m => KP (fst e) (fst m) /\ VP (snd e) (snd m)) l ms)); [apply HK|eauto|..].
  - apply map_ret. intros v [= <-]. split; auto. exists []. rewrite app_nil_r. auto.
  - intros x raw Hx. right. eexists; eexists; exists VP. split; [reflexivity|]. split; [intros; apply HV|]. split; [eauto|].
    intros y d f' Hf' Hd. eapply sound_weaken; [apply (IH f'); lia|]. intros u b (ms & Hb & l & -> & Hl). exists ms. split; auto.
    exists ((x, y) :: l). cbn [rev]. rewrite <- app_assoc. split; auto.
Qed.
(** A tuple or struct given as an array; nothing is read once its end is reached. *)
Lemma tuple_at_end (ds : list (deser * option val)) : forall f acc first,
  soundc 93 (jr_seq (run f) (tuple_prog JDeserializeError ds acc) first)
    (fun u b => b = [] /\ exists l, u = USeq (rev acc ++ l) /\ all2 (fun d v => snd d = Some v) ds l).
Proof.
  induction ds as [|[seed d] ds IH]; intros f acc first; cbn [tuple_prog].
  - apply seq_ret. split; auto. exists []. rewrite app_nil_r. cbn. auto.
  - destruct f as [|f]; [apply soundc_fuel|]. apply next_closed; [eauto|]. cbv beta iota. destruct d as [d|]; [|apply soundc_sound, sound_never, never_seq_err].
    eapply soundc_weaken; [apply IH|]. intros u b (-> & l & -> & Hl). split; auto. exists (d :: l). cbn [rev]. rewrite <- app_assoc. split; auto. cbn. auto.
Qed.
Lemma ssq_tuple (seeds : list (deser * option val)) : forall (ps : list (val -> jv -> Prop)),
  Forall2 (fun d p => sde (fst d) p) seeds ps -> forall f acc first,
  sound (jr_seq (run f) (tuple_prog JDeserializeError seeds acc) first) (fun u b => exists ds, arr_part first ds b /\
    exists l, u = USeq (rev acc ++ l) /\ (length ds <= length seeds)%nat /\ length l = length seeds /\
      all3 (fun p v d => p v d) (firstn (length ds) ps) (firstn (length ds) l) ds /\
      all2 (fun d v => snd d = Some v) (skipn (length ds) seeds) (skipn (length ds) l)).
Proof.
  assert (L2 : forall (ds : list (deser * option val)) l, all2 (fun d v => snd d = Some v) ds l -> length l = length ds).
  { induction ds; intros [|v l]; cbn; try tauto. intros [_ H]. f_equal. auto. }
  induction seeds as [|[seed d] seeds IH]; intros ps F f acc first; inversion F as [|? p ? ps' Hd Hds]; subst; clear F; cbn [tuple_prog].
  - destruct f as [|f]; [apply sound_fuel|]. apply sound_ret. exists []. split; [apply arr_part_nil; constructor|]. exists []. rewrite app_nil_r. cbn. auto.
  - destruct f as [|f]; [apply sound_fuel|].
    apply (next_elem f _ _ first p (fun u ds => exists l, u = USeq (rev acc ++ l) /\ (length ds <= length ((seed, d) :: seeds))%nat /\ length l = length ((seed, d) :: seeds) /\
      all3 (fun p v d => p v d) (firstn (length ds) (p :: ps')) (firstn (length ds) l) ds /\
      all2 (fun d v => snd d = Some v) (skipn (length ds) ((seed, d) :: seeds)) (skipn (length ds) l))); [apply Hd|eauto|..].
    + destruct d as [d|]; [|apply soundc_sound, sound_never, never_seq_err]. eapply soundc_weaken; [apply tuple_at_end|].
      intros u b (-> & l & -> & Hl). split; auto. exists (d :: l). cbn [rev length firstn skipn all3]. rewrite <- app_assoc. split; auto. split; [lia|].
      split; [f_equal; apply L2; auto|]. split; auto. cbn. auto.
    + intros x dd Hx. eapply sound_weaken; [apply (IH ps' Hds)|]. intros u b (ds & Hb & l & -> & H1 & H2 & H3 & H4). exists ds. split; auto.
      exists (x :: l). cbn [rev length firstn skipn all3]. rewrite <- app_assoc. repeat split; auto; lia.
Qed.

(** ** Structs and enums *)
Definition ident_post (strict : bool) (ns : list bytes) (u : val) (raw : bytes) : Prop :=
  match u with
  | UIdent (Some i) => exists n, nth_error ns i = Some n /\ literal raw n
  | UIdent None => strict = false /\ exists s, literal raw s /\ ~ In s ns
  | _ => False
  end.
Lemma ident_visit strict ns raw s u : literal raw s -> visit_str (mk_visitor (v_ident JDeserializeError strict ns)) s = Ok u -> ident_post strict ns u raw.
Proof.
  intros L. cbn. destruct (find_name s ns 0) as [i|] eqn:F.
  - intros [= <-]. cbn. apply find_name_sound in F. destruct F as (k & -> & Hk). exists s. auto.
  - destruct strict; [discriminate|]. intros [= <-]. cbn. split; auto. exists s. split; auto. eapply find_name_absent; eauto.
Qed.
Lemma sde_ident strict ns : sde (ident JDeserializeError strict ns) (fun u d => exists raw, d = JStr raw /\ ident_post strict ns u raw).
Proof.
  apply sde_request. intros f. cbn [js_method]. eapply sound_weaken; [apply (sound_view (fun x => x) _ _ _ (view_m_str ar dec _) (psound_m_str _))|].
  intros u bs H. eapply vtext_weaken; [|exact H]. intros d (raw & s & -> & Hl & Hv). exists raw. split; auto. eapply ident_visit; eauto.
Qed.
Lemma skey_ident strict ns : skey (ident JDeserializeError strict ns) (ident_post strict ns).
Proof.
  apply skey_req. intros f. cbn [key_method]. eapply soundc_weaken; [apply soundc_key_str|]. intros u bs (raw & Hk & s & Hl & Hv).
  exists raw. split; auto. eapply ident_visit; eauto.
Qed.
Lemma smp_struct names ps seeds absent : Forall2 sde seeds ps -> forall f got first, length got = length seeds ->
  sound (jr_map (run f) (struct_loop JDeserializeError names seeds absent got) first) (fun u b => exists ms, obj_part first ms b /\
    exists l got', u = USeq l /\ obj_fields names ps got ms got' /\ finish got' absent = Some l).
Proof.
  intros F f. induction f as [f IH] using (well_founded_induction lt_wf); intros got first Lg. destruct f as [|f]; [apply sound_fuel|].
  rewrite (mfrob_eq (struct_loop _ names seeds absent got)). cbn [mfrob struct_loop].
  apply (next_member f _ _ first (ident_post false names) (fun u ms => exists l got', u = USeq l /\ obj_fields names ps got ms got' /\ finish got' absent = Some l)); [apply skey_ident|eauto|..].
  - apply map_ret. intros v E. destruct (finish got absent) as [l|] eqn:Ef; [|discriminate]. injection E as <-. split; auto. exists l, got. split; auto. split; auto. constructor.
  - intros x raw Hx. destruct x as [| | | | | | | | | | | | |[i|]]; cbn [ident_post] in Hx; try contradiction.
    + destruct (nth_error seeds i) as [seed|] eqn:Es; [|left; eexists; reflexivity].
      destruct (nth_error got i) as [[w|]|] eqn:Eg; try (left; eexists; reflexivity). right.
      assert (Hp : exists p, nth_error ps i = Some p /\ sde seed p).
      { clear - F Es. revert i Es. induction F; intros [|i] Es; cbn in *; try discriminate; eauto. injection Es as ->. eauto. }
      destruct Hp as (p & Ep & Hp). destruct Hx as (n & Hn & Hl). eexists; eexists; exists p. split; [reflexivity|]. split; [intros; apply Hp|]. split; [eauto|].
      intros y d f' Hf' Hd. eapply sound_weaken; [apply (IH f'); [lia|rewrite set_nth_length; auto]|].
      intros u b (ms & Hb & l & got' & Hu & Ho & Hfi). exists ms. split; auto. exists l, got'. split; auto. split; auto. eapply OF_field; eauto.
    + destruct Hx as (_ & s & Hl & Hn). right. eexists; eexists; exists skip_text. split; [reflexivity|]. split; [intros; apply sde_ignored|]. split; [eauto|].
      intros y d f' Hf' Hd. eapply sound_weaken; [apply (IH f'); [lia|auto]|].
      intros u b (ms & Hb & l & got' & Hu & Ho & Hfi). exists ms. split; auto. exists l, got'. split; auto. split; auto. eapply OF_unknown; eauto.
Qed.
Lemma denote_req t : exists m v, den t = request m v.
Proof. destruct t; eexists; eexists; reflexivity. Qed.
Definition eprog_of (vs : list (bytes * vkind * ty)) := enum_prog JDeserializeError (map name_of vs) (map (fun f => (attr_of f, den (snd f))) vs).
Lemma enum_unit vs f : sound (jr_enum (run f) true (eprog_of vs)) (vtext (fun u d => exists i n raw,
  u = UVar i UUnit /\ nth_error (map (fun f => (name_of f, attr_of f)) vs) i = Some (n, KUnit) /\ d = JStr raw /\ literal raw n)).
Proof.
  destruct f as [|f]; [apply sound_fuel|]. cbn [js_run jr_enum j_step_enum eprog_of enum_prog].
  eapply sound_try with (P := vtext (fun u d => exists raw, d = JStr raw /\ ident_post true (map name_of vs) u raw)); [|intros e; apply never_lift|].
  - eapply sound_bind; [apply sde_ident|]. intros u x Px. eapply sound_bind; [apply (sound_ret tt (fun _ b => b = [])); auto|]. intros _ y ->. apply sound_ret. rewrite !app_nil_r. auto.
  - intros u x (w & d & b & -> & Hw & Ht & raw & -> & Hi). destruct u as [| | | | | | | | | | | | |[i|]]; cbn [ident_post] in Hi; try contradiction; [|destruct Hi; discriminate].
    rewrite nth_error_map in *. destruct (nth_error vs i) as [[[nm k] t]|] eqn:Ei; [|apply sound_never, never_lift].
    cbn [option_map attr_of name_of fst snd] in *. destruct Hi as (n & [= <-] & Hl). destruct (denote_req t) as (m & v & Et). rewrite Et.
    destruct k; cbn [j_run_variant request]; try (apply sound_never; intros s s' a D; discriminate D).
    apply sound_lift. intros a [= <-]. rewrite app_nil_r. exists w, (JStr raw), b. split; auto. split; auto. split; auto.
    exists i, nm, raw. split; auto. rewrite nth_error_map, Ei. auto.
Qed.

Lemma all2_default fs : forall l, all2 (fun d v => snd d = Some v) (map (fun f => (den (snd f), default_of (attr_of f))) fs) l ->
  all2 (fun (f : bytes * fattr * ty) v => attr_of f = FDefault v) fs l.
Proof.
  induction fs as [|f fs IH]; intros [|v l] H; cbn in *; try tauto. destruct H as [H1 H2]. split; auto.
  destruct (attr_of f); cbn in H1; congruence.
Qed.
Lemma obj_fields_length names ps got ms got' : obj_fields names ps got ms got' -> length got' = length got.
Proof. induction 1; auto. rewrite IHobj_fields, set_nth_length. auto. Qed.

Local Notation reads := (reads_as any_ws (f32_from_str fl) (f64_from_str fl) (bytes_of dec)).
Lemma sde_leaf m v P : sme m (mk_visitor v) P -> forall Q : val -> jv -> Prop, (forall u d, P u d -> Q u d) -> sde (request m v) Q.
Proof. intros H Q HQ. apply sde_request. intros f. eapply sound_weaken; [apply H|]. intros u bs Hv. eapply vtext_weaken; [|exact Hv]. auto. Qed.

Lemma key_sound t : skey (den t) (key_as any_ws t).
Proof.
  assert (NS : forall (v : visitor) P, (forall s, exists e, visit_str v s = Err e) -> soundc 34 (j_deserialize_str v) P).
  { intros v P H. eapply soundc_weaken; [apply soundc_key_str|]. intros u bs (raw & _ & s & _ & E). destruct (H s) as (e & E'). congruence. }
  destruct t; apply skey_req; intros f0; cbn [key_method]; try (apply NS; intros; eexists; reflexivity).
  - eapply soundc_weaken; [apply soundc_key_bool|]. intros u bs (raw & Hk & w & x & Hw & -> & [= <-]). eexists. split; [exact Hk|]. cbn. eauto.
  - eapply soundc_weaken; [apply soundc_key_int|]. intros u bs (raw & Hk & w & tok & z & Hw & -> & Hl & E). eexists. split; [exact Hk|].
    cbn in E. destruct (in_ikindb k z); [|discriminate]. injection E as <-. cbn. eauto 6.
  - eapply soundc_weaken; [apply soundc_key_char|]. intros u bs (raw & Hk & c & Hl & Hs & [= <-]). exists raw. split; auto. cbn. auto.
  - eapply soundc_weaken; [apply soundc_key_str|]. intros u bs (raw & Hk & s & Hl & [= <-]). exists raw. split; auto.
  - eapply soundc_weaken; [apply soundc_key_str|]. intros u bs (raw & Hk & s & Hl & [= <-]). exists raw. split; auto.
  - eapply soundc_weaken; [apply soundc_head; apply (enum_unit vs f0)|].
    intros u bs [(w & d & b & -> & Hw & Ht & i & n & raw & -> & Hi & -> & Hl) Hh]. exists raw. inversion Ht; subst. destruct H0 as [Hq _].
    split; [eapply key_head; eauto|]. cbn. eauto.
Qed.

Lemma sde_tuple ts m (ps : list (val -> jv -> Prop)) : In m [DTuple; DTupleStruct] -> Forall2 sde (map den ts) ps ->
  sde (request m (v_seq JDeserializeError (tuple_prog JDeserializeError (map (fun t => (den t, None)) ts) [])))
    (fun u d => exists ds, d = JArr ds /\ exists l, u = USeq l /\ all3 (fun p v d => p v d) ps l ds).
Proof.
  intros Hm F. apply sde_request. intros f.
  assert (E : forall v : visitor, js_method ar fl any_f32 dec (run f) m v = j_deserialize_seq (run f) v) by (intros v; destruct Hm as [<-|[<-|[]]]; reflexivity).
  rewrite E. eapply sound_weaken; [apply sound_seq; apply (ssq_tuple _ ps)|].
  { clear - F. remember (map _ ts) as ds eqn:E. revert ts E. induction F; intros [|t ts] [=]; subst; constructor; auto. }
  intros u bs H. eapply vtext_weaken; [|exact H]. intros d (ds & -> & l & -> & H1 & H2 & H3 & H4). exists ds. split; auto. exists l. split; auto.
  cbn [rev app] in *. rewrite map_length in *.
  assert (length ds = length ts).
  { destruct (Nat.eq_dec (length ds) (length ts)); auto. exfalso.
    destruct (skipn (length ds) (map (fun t => (den t, @None val)) ts)) as [|d r] eqn:E1.
    - apply (f_equal (@length _)) in E1. rewrite skipn_length, map_length in E1. cbn in E1. lia.
    - assert (Hd : snd d = None).
      { assert (In d (map (fun t => (den t, @None val)) ts)) by (rewrite <- (firstn_skipn (length ds)), E1; apply in_or_app; right; left; auto).
        apply in_map_iff in H0. destruct H0 as (t & <- & _). auto. }
      destruct (skipn (length ds) l) as [|v r'] eqn:E2; cbn in H4; [tauto|]. destruct H4; congruence. }
  assert (Lp : length ps = length ts) by (clear - F; remember (map _ ts) as ds eqn:E; revert ts E; induction F; intros [|t ts] [=]; subst; cbn; auto).
  rewrite <- H0 in Lp, H2. rewrite <- Lp in H3 at 1. rewrite <- H2 in H3 at 1. rewrite !firstn_all in H3. exact H3.
Qed.
Lemma Forall_reads (ts : list ty) P : Forall (fun t => wf t -> sde (den t) (P t)) ts -> all_list wf ts -> Forall2 sde (map den ts) (map P ts).
Proof. intros H W. apply all_list_Forall in W. induction H; inversion W; subst; cbn; constructor; auto. Qed.

Lemma denote_sound t : f32_from_str fl [] = None -> f64_from_str fl [] = None -> wf t -> sde (den t) (reads t).
Proof.
  intros F32 F64.
  induction t as [| | | | | | | | |t IH|t IH|t IH|ts IH|ts IH|k v IHk IHv|fs IH|vs IH] using ty_ind'; intros W.
  - eapply sde_leaf; [intros f; cbn [js_method]; apply (sound_view (fun x => x) _ _ _ (view_m_bool ar dec _) (psound_m_bool _))|]. intros u d (x & -> & [= <-]). reflexivity.
  - eapply sde_leaf; [intros f; cbn [js_method]; apply (sound_view (fun x => x) _ _ _ (view_m_int ar dec k _) (psound_m_int k _))|]. intros u d (tok & z & -> & Hl & E).
    cbn in E. destruct (in_ikindb k z); [|discriminate]. injection E as <-. cbn. eauto.
  - apply sde_request. intros f. cbn [js_method]. unfold j_deserialize_f32. eapply sound_bind; [apply (sound_view (fun x => x) _ _ _ (view_float ar dec _) (psound_float _ F32))|].
    intros o x H. apply sound_lift. intros a [= <-]. rewrite app_nil_r. eapply vtext_weaken; [|exact H]. cbn. intros d [(tok & b & -> & Hf & ->)|[-> ->]]; [left; eauto|right; auto].
  - apply sde_request. intros f. cbn [js_method]. unfold j_deserialize_f64. eapply sound_bind; [apply (sound_view (fun x => x) _ _ _ (view_float ar dec _) (psound_float _ F64))|].
    intros o x H. apply sound_lift. intros a [= <-]. rewrite app_nil_r. eapply vtext_weaken; [|exact H]. cbn. intros d [(tok & b & -> & Hf & ->)|[-> ->]]; [left; eauto|right; auto].
  - eapply sde_leaf; [intros f; cbn [js_method]; apply (sound_view (fun x => x) _ _ _ (view_m_char ar dec _) (psound_m_char _))|]. intros u d (raw & c & -> & Hl & Hs & [= <-]). cbn. eauto.
  - eapply sde_leaf; [intros f; cbn [js_method]; apply (sound_view (fun x => x) _ _ _ (view_m_str ar dec _) (psound_m_str _))|]. intros u d (raw & s & -> & Hl & [= <-]). cbn. eauto.
  - eapply sde_leaf; [intros f; cbn [js_method]; apply (sound_view (fun x => x) _ _ _ (view_m_bytes ar dec _) (psound_m_bytes _))|]. intros u d (s & [= <-] & H). exact H.
  - eapply sde_leaf; [intros f; cbn [js_method]; apply (sound_view (fun x => x) _ _ _ (view_m_unit ar dec _) (psound_m_unit _))|]. intros u d (-> & [= <-]). reflexivity.
  - eapply sde_leaf; [intros f; cbn [js_method]; apply (sound_view (fun x => x) _ _ _ (view_m_unit ar dec _) (psound_m_unit _))|]. intros u d (-> & [= <-]). reflexivity.
  - cbn [denote]. apply sde_request. intros f. cbn [js_method]. apply sound_ws. intros c Hc. apply soundc_if; intros E.
    + assert (c = 110) as -> by lia. apply soundc_eat. eapply sound_bind; [apply (sound_view (fun x => x) _ _ _ (view_tok ar dec _) (psound_tok _))|].
      intros _ x ->. apply sound_lift. intros a [= <-] w Hw. rewrite app_nil_r. apply (vt _ UNone w JNull); auto; [apply T_null|reflexivity].
    + destruct (denote_req t) as (m & v & Et). specialize (IH W).
      eapply soundc_weaken; [apply soundc_head with (P := vtext (fun u d => exists x, u = USome x /\ reads t x d))|].
      * cbn [visit_some mk_visitor v_option on_some]. rewrite Et in *. eapply (sde_then m v); [exact IH|discriminate|]. intros a b d Px [= <-]. eauto.
      * intros a bs [(w' & d & b & -> & Hw' & Ht & x & -> & Hx) Hh] w Hw. apply vtext_blank; auto. exists w', d, b. split; auto. split; auto. split; auto.
        cbn. split; auto. intros ->. inversion Ht; subst. destruct Hw' as [|c' w' Hc' Hw'].
        { destruct Hh as [|(l & Hl)]; [discriminate|]. cbn in Hl. injection Hl as Hl _. lia. }
        destruct Hh as [|(l & Hl)]; [discriminate|]. cbn in Hl. injection Hl as <- _. unfold is_space in Hc. lia.
  - cbn [denote]. apply sde_request. intros f. cbn [js_method]. unfold j_deserialize_newtype_struct. cbn [visit_newtype mk_visitor v_newtype on_newtype]. apply IH. exact W.
  - cbn [denote]. apply sde_request. intros f. cbn [js_method].
    eapply sound_weaken; [apply sound_seq with (P := fun u ds => exists l, u = USeq (rev [] ++ l) /\ Forall2 (reads t) l ds)|].
    + cbn [visit_seq mk_visitor v_seq on_seq]. destruct f as [|f]; [apply sound_fuel|]. cbn [js_run jr_seq j_step_seq]. exact (ssq_loop _ _ (IH W) f [] true).
    + intros u bs H. eapply vtext_weaken; [|exact H]. intros d (ds & -> & l & -> & Hl). cbn. eauto.
  - cbn [denote]. destruct W as [W _]. intros f. eapply sound_weaken; [eapply (sde_tuple ts DTuple (map reads ts)); [cbn; auto|apply Forall_reads; auto]|].
    intros u bs H. eapply vtext_weaken; [|exact H]. intros d (ds & -> & l & -> & Hl). cbn. eauto.
  - cbn [denote]. destruct W as [W _]. intros f. eapply sound_weaken; [eapply (sde_tuple ts DTupleStruct (map reads ts)); [cbn; auto|apply Forall_reads; auto]|].
    intros u bs H. eapply vtext_weaken; [|exact H]. intros d (ds & -> & l & -> & Hl). cbn. eauto.
  - cbn [denote]. destruct W as [W1 W2]. apply sde_request. intros f. cbn [js_method].
    eapply sound_weaken; [apply sound_map with (P := fun u ms => exists l, u = UMap (rev [] ++ l) /\ Forall2 (fun e m => key_as any_ws k (fst e) (fst m) /\ reads v (snd e) (snd m)) l ms)|].
    + cbn [visit_map mk_visitor v_map on_map]. destruct f as [|f]; [apply sound_fuel|]. cbn [js_run jr_map j_step_map]. exact (smp_loop _ _ _ _ (key_sound k) (IHv W2) f [] true).
    + intros u bs H. eapply vtext_weaken; [|exact H]. intros d (ms & -> & l & -> & Hl). cbn. eauto.
  - cbn [denote]. destruct W as [_ W]. apply all_list_Forall in W.
    assert (F : Forall (fun f => sde (den (snd f)) (reads (snd f))) fs).
    { clear - IH W. induction IH; inversion W as [|? ? [? _] ?]; subst; constructor; auto. }
    clear IH W. apply sde_request. intros f. cbn [js_method].
    eapply sound_weaken; [apply sound_struct|].
    + cbn [visit_seq mk_visitor v_struct on_seq]. apply (ssq_tuple _ (map (fun f => reads (snd f)) fs)). clear - F. induction F; cbn; constructor; auto.
    + cbn [visit_map mk_visitor v_struct on_map]. apply (smp_struct _ (map (fun f => reads (snd f)) fs)).
      * clear - F. induction F; cbn; constructor; auto.
      * rewrite !map_length. auto.
    + intros u bs H. eapply vtext_weaken; [|exact H]. intros d [(ds & -> & l & -> & H1 & H2 & H3 & H4)|(ms & -> & l & got & -> & Ho & Hf)]; cbn [reads_as rev app].
      * left. rewrite map_length in *. exists ds. repeat split; auto. rewrite skipn_map in H4. apply all2_default. auto.
      * right. exists ms, got. split; auto. split; auto. apply finish_sound; auto. rewrite (obj_fields_length _ _ _ _ _ Ho), map_length. auto.
  - cbn [denote]. destruct W as [_ W]. apply all_list_Forall in W. apply sde_request. intros f. cbn [js_method].
    apply sound_ws. intros c Hc. cbn [visit_enum mk_visitor v_enum on_enum]. fold (eprog_of vs). apply soundc_if; intros E.
    { apply soundc_sound. eapply sound_weaken; [apply enum_unit|]. intros u bs H w Hw. apply vtext_blank; auto. eapply vtext_weaken; [|exact H].
      intros d (i & n & raw & -> & Hi & -> & Hl). cbn [reads_as]. rewrite nth_error_map in *. destruct (nth_error vs i) as [[[nm k] t]|]; [|discriminate].
      cbn in *. injection Hi as -> ->. eauto. }
    apply soundc_if; intros E2; [|apply soundc_fail]. assert (c = 123) as -> by lia. apply soundc_eat.
    eapply sound_bind with (P := fun u bs => exists w1 raw w2 w3 t d', bs = w1 ++ (34 :: raw ++ [34]) ++ w2 ++ 58 :: w3 ++ t /\ blank w1 /\ blank w2 /\ blank w3 /\
      loose_text d' t /\ quoted_span raw /\ reads (TEnum vs) u (JObj [(raw, d')])).
    + destruct f as [|f]; [apply sound_fuel|]. cbn [js_run jr_enum j_step_enum eprog_of enum_prog].
      eapply sound_try with (P := fun u bs => exists w1 raw w2, bs = w1 ++ (34 :: raw ++ [34]) ++ w2 ++ [58] /\ blank w1 /\ blank w2 /\ quoted_span raw /\ ident_post true (map name_of vs) u raw); [|intros e; apply never_lift|].
      * eapply sound_bind; [apply sde_ident|]. intros u x (w1 & d & b & -> & Hw1 & Ht & raw & -> & Hi). inversion Ht; subst. destruct H0 as [-> Hq].
        eapply sound_bind; [apply sound_colon|]. intros _ y (w2 & -> & Hw2). apply sound_ret. exists w1, raw, w2. rewrite app_nil_r, <- !app_assoc. auto.
      * intros u x (w1 & raw & w2 & -> & Hw1 & Hw2 & Hq & Hi). destruct u as [| | | | | | | | | | | | |[i|]]; cbn [ident_post] in Hi; try contradiction; [|destruct Hi; discriminate].
        rewrite nth_error_map in *. destruct (nth_error vs i) as [[[nm k] t]|] eqn:Ei; [|apply sound_never, never_lift].
        cbn [option_map attr_of name_of fst snd] in *. destruct Hi as (n & [= <-] & Hl).
        pose proof (nth_error_In _ _ Ei) as Hin. rewrite Forall_forall in IH, W. specialize (IH _ Hin). specialize (W _ Hin). cbn [attr_of fst snd] in *.
        destruct W as [W K]. specialize (IH W).
        assert (G : forall m : M val, k <> KUnit -> sound m (vtext (fun a d => exists v, a = UVar i v /\ reads t v d)) ->
          sound m (fun u y => exists w1' raw' w2' w3 t' d', ((w1 ++ (34 :: raw ++ [34]) ++ w2 ++ [58]) ++ y) = w1' ++ (34 :: raw' ++ [34]) ++ w2' ++ 58 :: w3 ++ t' /\
            blank w1' /\ blank w2' /\ blank w3 /\ loose_text d' t' /\ quoted_span raw' /\ reads (TEnum vs) u (JObj [(raw', d')]))).
        { intros m Hk Hm. eapply sound_weaken; [exact Hm|]. intros a y (w3 & d & b & -> & Hw3 & Ht & v & -> & Hv).
          exists w1, raw, w2, w3, b, d. split; [repeat (rewrite <- app_assoc; cbn [app]); auto|]. repeat (split; [assumption|]).
          cbn [reads_as]. rewrite nth_error_map, Ei. cbn [option_map attr_of name_of fst snd]. destruct k; [congruence|..]; eauto 8. }
        destruct k.
        -- cbn. apply sound_never, never_lift.
        -- cbn [j_run_variant]. apply G; [discriminate|]. eapply sound_post; [apply IH|discriminate|].
           intros a b y Pa [= <-]. eapply vtext_weaken; [|exact Pa]. eauto.
        -- destruct t; try contradiction. cbn [denote request j_run_variant] in *. apply G; [discriminate|].
           eapply sound_post; [exact (sde_method _ _ _ IH f)|discriminate|]. intros a b y Pa [= <-]. eapply vtext_weaken; [|exact Pa]. eauto.
        -- destruct t; try contradiction. cbn [denote request j_run_variant] in *. apply G; [discriminate|].
           eapply sound_post; [exact (sde_method _ _ _ IH f)|discriminate|]. intros a b y Pa [= <-]. eapply vtext_weaken; [|exact Pa]. eauto.
    + intros u x (w1 & raw & w2 & w3 & t & d' & -> & H1 & H2 & H3 & Ht & Hq & Hr). apply sound_ws. intros c2 _. apply soundc_if; intros E3; [|apply soundc_fail].
      assert (c2 = 125) as -> by lia. apply soundc_eat. apply sound_ret. intros w4 H4 w Hw.
      exists w, (JObj [(raw, d')]), (123 :: (w1 ++ (34 :: raw ++ [34]) ++ w2 ++ 58 :: w3 ++ t ++ w4) ++ [125]).
      split; [repeat (rewrite <- app_assoc; cbn [app]); auto|]. split; auto. split; [|exact Hr].
      apply T_obj. apply O_one; auto. split; auto. exists [], raw. split; auto. split; auto. constructor.
Qed.
End Sound.

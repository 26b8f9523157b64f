(** The faults of words, strings, numbers and byte strings, and the parsers for them. *)
From Verif Require Import Prelude PreludeFacts Utf8 Utf8Spec Utf8Facts SerdeDe SerdeSer MpSpec Base64Spec Base64 Base64Facts Base64Top
  JsonSpec JsonTypeSpec JsonFacts JsonDe JsonDeSafe JsonStr JsonView JsonTok JsonMeth JsonEats JsonTyped
  Types TypesFacts MpTypeSpec JsonSound JsonFaultSpec.
Ltac Zify.zify_post_hook ::= Z.div_mod_to_equations.

(** ** Whitespace *)
Lemma ws_drop l : any_ws l <-> drop_ws l = [].
Proof.
  split.
  - intros H. rewrite <- (app_nil_r l), drop_ws_blank by auto. reflexivity.
  - intros H. destruct (drop_ws_split l) as (w & E & Hw & _). rewrite H, app_nil_r in E. subst w.
    eapply Forall_impl; [|exact Hw]. intros c. apply is_space_spec.
Qed.
Lemma not_space c : ~ is_ws c <-> is_space c = false.
Proof. pose proof (is_space_spec c) as H. change (is_space c = true <-> is_ws c) in H. destruct (is_space c); intuition congruence. Qed.
Lemma begins_drop l c r : begins l c r <-> drop_ws l = c :: r.
Proof.
  split.
  - intros (w & -> & Hw & Hc). rewrite drop_ws_blank, drop_ws_char by (auto; apply not_space; auto). reflexivity.
  - intros H. destruct (drop_ws_split l) as (w & E & Hw & Hc). rewrite H in *. exists w. split; auto. split; [|apply not_space; auto].
    eapply Forall_impl; [|exact Hw]. intros x. apply is_space_spec.
Qed.
Lemma ws_cases l : any_ws l \/ exists c r, begins l c r.
Proof. destruct (drop_ws l) as [|c r] eqn:E; [left; apply ws_drop; auto|right; exists c, r; apply begins_drop; auto]. Qed.
Lemma begins_inj l c r c' r' : begins l c r -> begins l c' r' -> c = c' /\ r = r'.
Proof. rewrite !begins_drop. intros -> [= -> ->]. auto. Qed.
Lemma begins_not_ws l c r : begins l c r -> ~ any_ws l.
Proof. rewrite begins_drop, ws_drop. intros ->. discriminate. Qed.
Lemma p_ws_begins {A} (F : Z -> bytes -> pres A) l c r : begins l c r -> p_ws F l = F c r.
Proof. intros H. apply begins_drop in H. unfold p_ws. rewrite H. reflexivity. Qed.
Lemma p_ws_end {A} (F : Z -> bytes -> pres A) l : any_ws l -> p_ws F l = Err JUnexpectedEof.
Proof. intros H. apply ws_drop in H. unfold p_ws. rewrite H. reflexivity. Qed.
Lemma begins_here c r : is_space c = false -> begins (c :: r) c r.
Proof. intros H. exists []. split; auto. split; [constructor|apply not_space; auto]. Qed.

(** What is left is the end of the text. *)
Definition tail_of (k l : bytes) : Prop := exists a, l = a ++ k.
Lemma tail_refl l : tail_of l l. Proof. exists []. auto. Qed.
Lemma tail_trans a b c : tail_of a b -> tail_of b c -> tail_of a c.
Proof. intros (x & ->) (y & ->). exists (y ++ x). apply app_assoc. Qed.
Lemma tail_bytes k l : tail_of k l -> all_bytes l -> all_bytes k.
Proof. intros (a & ->) H. apply Forall_app in H. tauto. Qed.
Lemma tail_length k l : tail_of k l -> (length k <= length l)%nat.
Proof. intros (a & ->). rewrite app_length. lia. Qed.
Lemma tail_app a k : tail_of k (a ++ k). Proof. exists a. auto. Qed.
Lemma tail_cons c k : tail_of k (c :: k). Proof. exists [c]. auto. Qed.
Lemma begins_tail l c r : begins l c r -> tail_of (c :: r) l.
Proof. intros (w & -> & _). apply tail_app. Qed.
Lemma begins_tail1 l c r : begins l c r -> tail_of r l.
Proof. intros H. eapply tail_trans; [apply tail_cons|apply begins_tail; eauto]. Qed.
Lemma begins_length l c r : begins l c r -> (S (length r) <= length l)%nat.
Proof. intros H. apply begins_tail, tail_length in H. exact H. Qed.

(** ** Words *)
Lemma word_err rest l e : p_tok rest l = Err e <-> word_fault rest l e.
Proof.
  unfold p_tok. split.
  - destruct (Nat.leb_spec (length rest) (length l)) as [H|H].
    + destruct (list_eq_dec Z.eq_dec (firstn (length rest) l) rest) as [D|D]; [discriminate|]. intros [= <-].
      rewrite <- (firstn_skipn (length rest) l). apply W_other; auto. rewrite firstn_length. lia.
    + intros [= <-]. apply W_short. lia.
  - intros H. destruct H as [r H|a r L D].
    + rewrite (proj2 (Nat.leb_gt _ _)) by lia. reflexivity.
    + rewrite (proj2 (Nat.leb_le _ _)) by (rewrite app_length; lia). rewrite <- L, firstn_len. destruct (list_eq_dec Z.eq_dec a rest); [contradiction|reflexivity].
Qed.
Lemma word_ok rest l u k : p_tok rest l = Ok (u, k) <-> l = rest ++ k.
Proof.
  split.
  - unfold p_tok. destruct (length rest <=? length l)%nat; [|discriminate]. destruct (list_eq_dec Z.eq_dec (firstn (length rest) l) rest) as [D|]; [|discriminate].
    intros [= _ <-]. rewrite <- D at 1. symmetry. apply firstn_skipn.
  - intros ->. rewrite p_tok_app. destruct u. reflexivity.
Qed.

(** ** Strings *)
Lemma str_err l e : all_bytes l -> (p_str l = Err e <-> text_fault l e).
Proof.
  intros B. unfold p_str. split.
  - pose proof (unesc_cases l B) as C. destruct (unesc l) as [[x k]|e'] eqn:E; cbn [pbind].
    + destruct C as (t & -> & Ht). destruct (from_utf8_ok x) eqn:Ex; [discriminate|]. intros [= <-]. apply (TF_utf8 _ _ _ Ht).
      intros V. apply from_utf8_ok_spec in V. congruence.
    + intros [= ->]. destruct C as (f & Hf & ->). apply (TF_text _ _ Hf).
  - intros H. destruct H as [l f H|raw s r H V].
    + rewrite (unesc_err l f B H). reflexivity.
    + rewrite (unesc_body _ _ H). cbn [unesc Z.eqb Pos.eqb prep pbind]. rewrite app_nil_r. destruct (from_utf8_ok s) eqn:E; [|reflexivity].
      apply from_utf8_ok_spec in E. contradiction.
Qed.
Lemma str_ok l s k : all_bytes l -> (p_str l = Ok (s, k) <-> exists raw, l = raw ++ 34 :: k /\ literal raw s).
Proof.
  intros B. split.
  - intros E. unfold p_str in E. pose proof (unesc_cases l B) as C. destruct (unesc l) as [[x k']|e']; [|discriminate]. cbn [pbind] in E.
    destruct C as (t & -> & Ht). destruct (from_utf8_ok x) eqn:Ex; [|discriminate]. injection E as -> ->. exists t. split; auto. split; auto.
    apply from_utf8_ok_spec. auto.
  - intros (raw & -> & L). apply p_str_literal. auto.
Qed.
Lemma span_fault_app p l e : quoted_span p -> span_fault l e -> span_fault (p ++ l) e.
Proof.
  assert (A : forall a b, quoted_span a -> quoted_span b -> quoted_span (a ++ b)) by (induction 1; intros; cbn [app]; [auto|constructor 2; auto|constructor 3; auto]).
  intros Hp H. destruct H as [raw H|raw H|raw c r H Hc|raw c r H Hc].
  - apply SF_end. auto.
  - rewrite app_assoc. apply SF_escape. auto.
  - rewrite app_assoc. apply SF_control; auto.
  - rewrite app_assoc. apply SF_escaped; auto.
Qed.
Lemma span_err l e : all_bytes l -> (p_skip l = Err e <-> span_fault l e).
Proof.
  intros B. unfold p_skip. split.
  - intros E. assert (E' : skip false l = Err e) by (destruct (skip false l); [discriminate|congruence]). clear E. revert e B E'.
    induction l as [l IH] using list_ind_strong. intros e B. destruct l as [|c l]; cbn [skip].
    { intros [= <-]. apply SF_end. constructor. }
    inversion B as [|? ? Bc B1]; subst. unfold is_byte in Bc.
    destruct (Z.eqb_spec c 34); [discriminate|]. destruct (Z.leb_spec c 31).
    { intros [= <-]. apply (SF_control []); [constructor|lia]. }
    destruct (Z.eqb_spec c 92) as [->|]; cbn [negb andb].
    + destruct l as [|x l]; cbn [skip].
      { intros [= <-]. apply (SF_escape []). constructor. }
      inversion B1 as [|? ? Bx B2]; subst. unfold is_byte in Bx.
      assert (G : 32 <= x -> skip false l = Err e -> span_fault (92 :: x :: l) e).
      { intros Hx E. apply (span_fault_app [92; x] l); [constructor 3; [lia|constructor 1]|]. apply IH; auto. cbn; lia. }
      destruct (Z.eqb_spec x 34); [subst; apply G; lia|]. destruct (Z.leb_spec x 31).
      * intros [= <-]. apply (SF_escaped []); [constructor|lia].
      * rewrite andb_false_r. apply G. lia.
    + intros E. apply (span_fault_app [c] l); [constructor 2; [unfold plain_byte; lia|constructor 1]|]. apply IH; auto.
  - intros H. destruct H as [raw H|raw H|raw c r H Hc|raw c r H Hc].
    + rewrite <- (app_nil_r raw), skip_span by auto. reflexivity.
    + rewrite skip_span by auto. reflexivity.
    + rewrite skip_span by auto. cbn [skip]. replace (c =? 34) with false by lia. replace (c <=? 31) with true by lia. reflexivity.
    + rewrite skip_span by auto. cbn [skip Z.eqb Z.leb Z.compare Pos.compare Pos.compare_cont Pos.eqb negb andb].
      replace (c =? 34) with false by lia. replace (c <=? 31) with true by lia. reflexivity.
Qed.
Lemma span_ok l u k : all_bytes l -> (p_skip l = Ok (u, k) <-> exists t, l = t ++ 34 :: k /\ quoted_span t).
Proof.
  intros B. rewrite <- (skip_ok l k B). unfold p_skip. destruct u, (skip false l) as [k'|e]; split; intros E; try discriminate; congruence.
Qed.

(** ** Integers *)
Definition takes_int (k : ikind) (z : Z) (l r : bytes) : Prop :=
  exists w tok, l = w ++ tok ++ r /\ any_ws w /\ int_lit k z tok /\ int_ends tok r.
Lemma kind_sign k : signed_kind k = false -> imin k = 0.
Proof. destruct k; cbn; (reflexivity || discriminate). Qed.
Lemma p_int_begins k l c r : begins l c r -> p_int k l =
  if c =? 45 then
    if signed_kind k then match r with [] => Err JUnexpectedEof | c :: r => if c =? 48 then Ok (0, r) else if ascii_digit c then p_loop true k (- (c - 48)) r else Err JInvalidType end
    else Err JInvalidNumber
  else if c =? 48 then Ok (0, r) else if ascii_digit c then p_loop false k (c - 48) r else Err JInvalidType.
Proof. intros H. destruct k; cbn [p_int signed_kind]; unfold p_unsigned, p_signed; rewrite (p_ws_begins _ _ _ _ H); reflexivity. Qed.
Lemma p_int_end k l : any_ws l -> p_int k l = Err JUnexpectedEof.
Proof. intros H. destruct k; cbn [p_int]; unfold p_unsigned, p_signed; apply p_ws_end; auto. Qed.
Lemma not_digit c : ~ is_digit c <-> ascii_digit c = false.
Proof. pose proof (digit_spec c). destruct (ascii_digit c); intuition congruence. Qed.
Lemma range_cases k w (neg : bool) d r e : any_ws w -> is_digit d -> d <> 48 -> (neg = true -> signed_kind k = true) ->
  p_loop neg k (if neg then - (d - 48) else d - 48) r = Err e -> int_fault k (w ++ (if neg then [45] else []) ++ d :: r) e.
Proof.
  intros Hw Hd N0 Hk E. destruct (digits_span r) as (ds & t & -> & Hds & Ht). rewrite p_loop_exact in E by auto.
  destruct (in_ikindb _ _) eqn:Ek; [discriminate|]. injection E as <-. apply (IF_range k w neg (d :: ds) t); auto.
  - split; [split; [discriminate|constructor; auto]|right; eauto].
  - intros N. apply signed_min. auto.
  - fold (lit_val neg (d :: ds)). rewrite <- in_ikindb_spec, Ek. discriminate.
Qed.
Lemma int_err k l e : p_int k l = Err e <-> int_fault k l e.
Proof.
  split.
  - destruct (ws_cases l) as [Hw|(c & r & Hb)].
    { rewrite p_int_end by auto. intros [= <-]. apply IF_end. auto. }
    rewrite (p_int_begins _ _ _ _ Hb). destruct (Z.eqb_spec c 45) as [->|N45].
    + destruct (signed_kind k) eqn:Ek.
      * pose proof (signed_min _ Ek) as Hk. destruct r as [|c r]; [intros [= <-]; apply IF_minus_end; auto|].
        destruct (Z.eqb_spec c 48); [discriminate|]. destruct (ascii_digit c) eqn:Ed.
        -- intros E. destruct Hb as (w & -> & Hw & _). apply (range_cases k w true c r e); auto. apply digit_spec; auto.
        -- intros [= <-]. apply (IF_minus_kind k l c r); auto. apply not_digit; auto.
      * intros [= <-]. apply (IF_unsigned k l r); auto. apply kind_sign; auto.
    + destruct (Z.eqb_spec c 48); [discriminate|]. destruct (ascii_digit c) eqn:Ed.
      * intros E. destruct Hb as (w & -> & Hw & _). apply (range_cases k w false c r e); auto; [apply digit_spec; auto|discriminate].
      * intros [= <-]. apply (IF_kind k l c r); auto. apply not_digit; auto.
  - intros H. destruct H as [l H|l c r H N1 N2|l r Hk H|l Hk H|l c r Hk H N|w neg ds r Hw Hi Hr Hn Hz].
    + apply p_int_end; auto.
    + rewrite (p_int_begins _ _ _ _ H). apply not_digit in N1. rewrite N1. replace (c =? 45) with false by lia.
      replace (c =? 48) with false by (unfold ascii_digit in N1; lia). reflexivity.
    + rewrite (p_int_begins _ _ _ _ H). cbn [Z.eqb Pos.eqb]. destruct (signed_kind k) eqn:E; auto. apply signed_min in E. lia.
    + rewrite (p_int_begins _ _ _ _ H), signed_imin by auto. reflexivity.
    + rewrite (p_int_begins _ _ _ _ H), signed_imin by auto. cbn [Z.eqb Pos.eqb]. apply not_digit in N. rewrite N.
      replace (c =? 48) with false by (unfold ascii_digit in N; lia). reflexivity.
    + rewrite p_int_exact by auto. fold (lit_val neg ds) in Hz. rewrite <- in_ikindb_spec in Hz. destruct (in_ikindb _ _); [congruence|].
      rewrite andb_false_r. reflexivity.
Qed.
Lemma int_ok k l z r : p_int k l = Ok (z, r) <-> takes_int k z l r.
Proof.
  split.
  - intros E. apply p_int_sound in E. destruct E as (w & neg & ds & -> & Hw & Hd & Hs & Hz & Hk & Hn).
    exists w, ((if neg then [45] else []) ++ ds). split; [rewrite <- app_assoc; auto|]. split; [auto|]. split.
    + split; auto. exists neg, ds. split; auto. split; auto. split; auto. intros N. apply signed_min; auto.
    + destruct Hs as [->|H]; [|right; right; exact H]. destruct neg; [right; left|left]; reflexivity.
  - intros (w & tok & -> & Hw & Hl & [->|[->|H]]).
    + assert (z = 0) as ->.
      { destruct Hl as (_ & neg & ds & E & _ & -> & _). destruct neg; [destruct ds; discriminate|]. cbn in E. subst ds. reflexivity. }
      rewrite (p_int_begins k _ 48 r) by (exists w; split; [reflexivity|split; [auto|apply not_space; reflexivity]]). reflexivity.
    + assert (z = 0 /\ imin k < 0) as [-> Hk].
      { destruct Hl as (_ & neg & ds & E & Hi & -> & H). destruct neg; cbn in E.
        - injection E as <-. split; [reflexivity|auto].
        - exfalso. subst ds. match goal with Hi : int_part _ |- _ => destruct Hi as [[_ Hi] _]; apply Forall_inv in Hi; unfold is_digit in Hi; lia end. }
      rewrite (p_int_begins k _ 45 (48 :: r)) by (exists w; split; [reflexivity|split; [auto|apply not_space; reflexivity]]). rewrite signed_imin by auto. reflexivity.
    + apply p_int_lit; auto.
Qed.

(** ** Booleans, null and floats *)
Lemma bool_err {U} (v : visitor U js_de_error) l e : (forall x, exists u, visit_bool v x = Ok u) -> (p_m_bool v l = Err e <-> bool_fault l e).
Proof.
  intros Hv. destruct (Hv true) as (ut & Et), (Hv false) as (uf & Ef).
  assert (T : forall (r : result U js_de_error) u t k, r = Ok u -> (pbind (p_tok t k) (fun _ k => plift r k) = Err e <-> word_fault t k e)).
  { intros r u t k ->. rewrite <- word_err. destruct (p_tok t k) as [[a k']|]; cbn [pbind plift]; split; intros; congruence. }
  split.
  - destruct (ws_cases l) as [Hw|(c & r & Hb)]; [unfold p_m_bool; rewrite p_ws_end by auto; intros [= <-]; apply BF_end; auto|].
    unfold p_m_bool. rewrite (p_ws_begins _ _ _ _ Hb). destruct (Z.eqb_spec c 116) as [->|]; [|destruct (Z.eqb_spec c 102) as [->|]].
    + intros E. apply (BF_true l r); auto. apply (T (visit_bool v true) ut); auto.
    + intros E. apply (BF_false l r); auto. apply (T (visit_bool v false) uf); auto.
    + intros [= <-]. apply (BF_kind l c r); auto.
  - intros H. unfold p_m_bool. destruct H as [l H|l r e H W|l r e H W|l c r H N1 N2].
    + apply p_ws_end; auto.
    + rewrite (p_ws_begins _ _ _ _ H). apply (T (visit_bool v true) ut); auto.
    + rewrite (p_ws_begins _ _ _ _ H). apply (T (visit_bool v false) uf); auto.
    + rewrite (p_ws_begins _ _ _ _ H). replace (c =? 116) with false by lia. replace (c =? 102) with false by lia. auto.
Qed.
Lemma unit_err {U} (v : visitor U js_de_error) l e : (exists u, visit_unit v = Ok u) -> (p_m_unit v l = Err e <-> null_fault l e).
Proof.
  intros (u & Hu).
  assert (T : forall t k, pbind (p_tok t k) (fun _ k => plift (visit_unit v) k) = Err e <-> word_fault t k e).
  { intros t k. rewrite <- word_err, Hu. destruct (p_tok t k) as [[a k']|]; cbn [pbind plift]; split; intros; congruence. }
  split.
  - destruct (ws_cases l) as [Hw|(c & r & Hb)]; [unfold p_m_unit; rewrite p_ws_end by auto; intros [= <-]; apply NF_end; auto|].
    unfold p_m_unit. rewrite (p_ws_begins _ _ _ _ Hb). destruct (Z.eqb_spec c 110) as [->|].
    + intros E. apply (NF_null l r); auto. apply T; auto.
    + intros [= <-]. apply (NF_kind l c r); auto.
  - intros H. unfold p_m_unit. destruct H as [l H|l r e H W|l c r H N1].
    + apply p_ws_end; auto.
    + rewrite (p_ws_begins _ _ _ _ H). apply T; auto.
    + rewrite (p_ws_begins _ _ _ _ H). replace (c =? 110) with false by lia. auto.
Qed.
Lemma number_stop (tok r : bytes) : cannot_extend (JNum tok) r <-> match r with c :: _ => number_char c = false | [] => True end.
Proof. destruct r as [|c k]; cbn; [tauto|]. unfold number_char, ascii_digit, is_digit. lia. Qed.
Lemma number_chars tok : Forall (fun c => number_char c = true) tok <-> tok = [] \/ number_run tok.
Proof.
  split.
  - destruct tok as [|c t]; [auto|]. intros H. right. split; [discriminate|]. eapply Forall_impl; [|exact H]. intros b. apply run_char.
  - intros [->|H]; [constructor|apply run_chars; auto].
Qed.
Lemma float_err fs l e : p_float fs l = Err e <-> float_fault fs l e.
Proof.
  assert (T : forall k, pbind (p_tok tok_ull k) (fun _ k => @Ok (option Z * bytes) js_de_error (None, k)) = Err e <-> word_fault ull k e).
  { intros k. rewrite <- word_err. change tok_ull with ull. destruct (p_tok ull k) as [[a k']|]; cbn [pbind]; split; intros; congruence. }
  split.
  - destruct (ws_cases l) as [Hw|(c & r & Hb)]; [unfold p_float; rewrite p_ws_end by auto; intros [= <-]; apply FF_end; auto|].
    unfold p_float. rewrite (p_ws_begins _ _ _ _ Hb). destruct (Z.eqb_spec c 110) as [->|].
    + intros E. apply (FF_null fs l r); auto. apply T; auto.
    + cbv zeta. destruct (number_prefix_split (c :: r)) as (t & Et & Hn & Ht). destruct (fs _) as [x|] eqn:Ef; [discriminate|]. intros [= <-].
      destruct Hb as (w & -> & Hw & Hc). rewrite Et. apply FF_number; auto.
      * apply number_chars; auto.
      * apply number_stop; auto.
      * rewrite <- Et. intros c' r' [= <- <-]. auto.
      * rewrite <- Et. discriminate.
  - intros H. unfold p_float. destruct H as [l H|l r e H W|w tok r Hw Ht Hr Hf Hc Hne].
    + apply p_ws_end; auto.
    + rewrite (p_ws_begins _ _ _ _ H). apply T; auto.
    + destruct (tok ++ r) as [|c q] eqn:E; [congruence|]. destruct (Hc c q eq_refl) as [Hs H110].
      rewrite (p_ws_begins _ _ c q) by (exists w; auto). replace (c =? 110) with false by lia. cbv zeta. rewrite <- E.
      rewrite prefix_number, Hf; [reflexivity|apply number_chars; auto|apply (number_stop tok r); auto].
Qed.
Lemma float_ok fs l o k : fs [] = None -> p_float fs l = Ok (o, k) ->
  exists w d b, l = w ++ b ++ k /\ any_ws w /\ loose_text d b /\
    ((exists x, o = Some x /\ d = JNum b /\ fs b = Some x /\ cannot_extend d k) \/ (o = None /\ d = JNull)).
Proof.
  intros F0 E. apply p_ws_inv in E. destruct E as (w & c & r & -> & Hw & Hc & E). destruct (Z.eqb_spec c 110) as [->|N].
  - destruct (p_tok tok_ull r) as [[a k1]|] eqn:Et; [|discriminate]. cbn in E. injection E as <- <-. apply word_ok in Et. subst r.
    exists w, JNull, [110; 117; 108; 108]. split; [auto|]. split; [auto|]. split; [apply T_null|auto].
  - cbv zeta in E. destruct (number_prefix_split (c :: r)) as (t & Et & Hn & Ht). set (p := number_prefix (c :: r)) in *.
    destruct (fs p) as [x|] eqn:Ef; [|discriminate]. injection E as <- <-. assert (p <> []) by congruence.
    assert (Es : skipn (length p) (c :: r) = t) by (rewrite Et; apply skipn_len). rewrite Es.
    exists w, (JNum p), p. rewrite Et. split; [auto|]. split; [auto|]. split; [apply T_num; apply number_chars in Hn; tauto|]. left. exists x.
    split; [auto|]. split; [auto|]. split; [auto|]. apply number_stop; auto.
Qed.

(** ** Byte strings *)
Lemma hex_app h bs : hex_bytes h bs -> forall l, p_hex (h ++ l) = prep bs (p_hex l).
Proof.
  induction 1 as [|a b x y h bs Ha Hb H IH]; intros l; [cbn [app]; destruct (p_hex l) as [[]|]; reflexivity|]. cbn [app p_hex].
  assert (Ra : 0 <= a < 256) by (unfold hex_digit in Ha; lia). assert (Rb : 0 <= b < 256) by (unfold hex_digit in Hb; lia).
  rewrite (proj2 (hex_nib_spec a x Ra) Ha), (proj2 (hex_nib_spec b y Rb) Hb), IH. destruct (p_hex l) as [[]|]; reflexivity.
Qed.
Lemma hex_err l e : all_bytes l -> (p_hex l = Err e <-> hex_fault l e).
Proof.
  intros B. split.
  - revert B e. induction l as [l IH] using list_ind_strong. intros B e. destruct l as [|a [|b l]]; cbn [p_hex].
    + intros [= <-]. apply (HF_end [] []). constructor.
    + destruct (Z.eqb_spec a 34); [discriminate|]. intros [= <-]. apply (HF_last [] []); [constructor|auto].
    + inversion B as [|? ? Ba B1]; subst. inversion B1 as [|? ? Bb B2]; subst. unfold is_byte in *.
      destruct (parse_hex_nib a) as [x|] eqn:Ea.
      * apply hex_nib_spec in Ea; [|lia]. destruct (parse_hex_nib b) as [y|] eqn:Eb.
        -- apply hex_nib_spec in Eb; [|lia]. intros E. assert (H : hex_fault l e).
           { apply IH; [cbn; lia|auto|]. destruct (p_hex l) as [[]|]; cbn in E; [discriminate|congruence]. }
           destruct H as [h bs H|h bs c H N|h bs a' b' r H N1 N2|h bs a' x' b' r H N1 N2].
           ++ apply (HF_end (a :: b :: h) (x * 16 + y :: bs)). constructor; auto.
           ++ apply (HF_last (a :: b :: h) (x * 16 + y :: bs)); auto. constructor; auto.
           ++ apply (HF_first (a :: b :: h) (x * 16 + y :: bs)); auto. constructor; auto.
           ++ apply (HF_second (a :: b :: h) (x * 16 + y :: bs) a' x'); auto. constructor; auto.
        -- intros [= <-]. apply (HF_second [] [] a x b l); [constructor|auto|]. intros y Hy. apply hex_nib_spec in Hy; [congruence|lia].
      * destruct (Z.eqb_spec a 34); [discriminate|]. intros [= <-]. apply (HF_first [] []); [constructor| |auto].
        intros y Hy. apply hex_nib_spec in Hy; [congruence|lia].
  - intros H. destruct H as [h bs H|h bs c H N|h bs a b r H N1 N2|h bs a x b r H N1 N2].
    + rewrite <- (app_nil_r h), (hex_app h bs H). reflexivity.
    + rewrite (hex_app h bs H). cbn [p_hex]. replace (c =? 34) with false by lia. reflexivity.
    + rewrite (hex_app h bs H). apply Forall_app in B. destruct B as [_ B]. inversion B as [|? ? Ba B1]; subst. unfold is_byte in Ba.
      cbn [p_hex]. destruct (parse_hex_nib a) as [x|] eqn:Ea; [apply hex_nib_spec in Ea; [destruct (N1 _ Ea)|lia]|].
      replace (a =? 34) with false by lia. reflexivity.
    + rewrite (hex_app h bs H). apply Forall_app in B. destruct B as [_ B]. inversion B as [|? ? Ba B1]; subst. inversion B1 as [|? ? Bb B2]; subst.
      unfold is_byte in *. cbn [p_hex]. apply hex_nib_spec in N1; [|lia]. rewrite N1.
      destruct (parse_hex_nib b) as [y|] eqn:Eb; [apply hex_nib_spec in Eb; [destruct (N2 _ Eb)|lia]|]. reflexivity.
Qed.
Lemma drop_pad_head l c r : drop_pad l = c :: r -> c <> 61.
Proof. induction l as [|a l IH]; cbn [drop_pad]; [discriminate|]. destruct (Z.eqb_spec a 61); auto. intros [= <- <-]. auto. Qed.
Lemma base64_err ar l e : 3 * zlen l <= usize_max ar -> (p_base64 ar l = Err e <-> base64_fault l e).
Proof.
  intros Hr. destruct (decode_any ar l Hr) as (ds & rest & mem & E & Hd & NA & Ed & Em & Lm & Lz).
  assert (P : p_base64 ar l = match rest with
    | [] => Err JUnexpectedEof
    | c :: r => if c =? 34 then Ok (b64_bytes ds, r) else if c =? 61 then
        match drop_pad r with [] => Err JUnexpectedEof | c :: r => if c =? 34 then Ok (b64_bytes ds, r) else Err JUnexpectedChar end
      else Err JUnexpectedChar end).
  { unfold p_base64. rewrite Ed. unfold zlen. rewrite !Nat2Z.id. rewrite Em, firstn_len.
    replace (skipn (length ds) l) with rest by (rewrite E, <- (map_length b64_char ds), skipn_len; reflexivity). reflexivity. }
  rewrite P. split.
  - rewrite E. destruct rest as [|c r].
    + intros [= <-]. apply (B6_end ds 0). exact Hd.
    + destruct (Z.eqb_spec c 34); [discriminate|]. destruct (Z.eqb_spec c 61) as [->|].
      * destruct (drop_pad_split r) as (m & Er). destruct (drop_pad r) as [|c r'] eqn:Ep.
        -- intros [= <-]. rewrite Er, app_nil_r. apply (B6_end ds (S m)). exact Hd.
        -- destruct (Z.eqb_spec c 34); [discriminate|]. intros [= <-]. rewrite Er. apply (B6_pad ds m c r'); auto. eapply drop_pad_head; eauto.
      * intros [= <-]. apply B6_char; auto. intros v Hv Hc. apply (NA c r eq_refl). exists v. split; auto.
  - intros H. destruct H as [ds' n Hd'|ds' c r Hd' N1 N2 N3|ds' n c r Hd' N1 N2].
    + destruct (alphabet_unique ds Hd ds' rest (repeat 61 n)) as [_ ->]; auto.
      { intros c r Er. apply not_alphabet. right. destruct n; [discriminate|]. cbn in Er. congruence. }
      destruct n as [|n]; [reflexivity|]. cbn [repeat Z.eqb Pos.eqb]. rewrite <- (app_nil_r (repeat 61 n)), drop_pad_repeat by auto. reflexivity.
    + destruct (alphabet_unique ds Hd ds' rest (c :: r)) as [_ ->]; auto.
      { intros c' r' [= <- <-] (v & Hv & Ev). exact (N1 v Hv Ev). }
      replace (c =? 34) with false by lia. replace (c =? 61) with false by lia. reflexivity.
    + destruct (alphabet_unique ds Hd ds' rest (repeat 61 (S n) ++ c :: r)) as [_ ->]; auto.
      { cbn. intros c' r' [= <- _]. apply not_alphabet. auto. }
      cbn [repeat app Z.eqb Pos.eqb]. rewrite drop_pad_repeat by auto. replace (c =? 34) with false by lia. reflexivity.
Qed.
Lemma string_err ar dec l e : all_bytes l -> fits ar dec (length l) -> (p_bytes_str ar dec l = Err e <-> string_fault dec l e).
Proof.
  intros B F. unfold p_bytes_str, string_fault, fits in *. destruct dec.
  - split.
    + intros E. pose proof (unesc_cases l B) as C. rewrite E in C. exact C.
    + intros (f & Hf & ->). apply unesc_err; auto.
  - apply hex_err; auto.
  - apply base64_err. unfold zlen. auto.
Qed.

(** ** Arrays of bytes *)
Definition loop_fault (l : bytes) (e : js_de_error) : Prop :=
  (exists zs k, takes_bytes zs l k /\ int_fault U8 k e) \/
  (exists zs z k m, takes_bytes zs l k /\ takes_u8 z k m /\
     ((any_ws m /\ e = JUnexpectedEof) \/ exists c r, begins m c r /\ c <> 44 /\ c <> 93 /\ e = JUnexpectedChar)).
Lemma takes_u8_tail z l k : takes_u8 z l k -> tail_of k l.
Proof. intros (w & tok & -> & _). rewrite app_assoc. apply tail_app. Qed.
Lemma prep_err (q : bytes) (r : pres bytes) e : prep q r = Err e <-> r = Err e.
Proof. destruct r as [[]|]; cbn; split; congruence. Qed.
Lemma loop_err n : forall l e, (length l < n)%nat -> (p_array_loop n l = Err e <-> loop_fault l e).
Proof.
  induction n as [|n IH]; [lia|]. intros l e L. cbn [p_array_loop]. change (p_unsigned U8) with (p_int U8). split.
  - destruct (p_int U8 l) as [[z m]|e'] eqn:Ei; cbn [pbind].
    + apply int_ok in Ei. destruct (ws_cases m) as [Hw|(c & r & Hb)].
      { rewrite p_ws_end by auto. intros [= <-]. right. exists [], z, l, m. split; [apply TB_nil|]. auto. }
      rewrite (p_ws_begins _ _ _ _ Hb). destruct (Z.eqb_spec c 44) as [->|N].
      * intros E. apply prep_err in E. pose proof (begins_length _ _ _ Hb) as Lr. pose proof (tail_length _ _ (takes_u8_tail _ _ _ Ei)) as Lm.
        apply IH in E; [|lia]. destruct E as [(zs & k & Hz & Hk)|(zs & z' & k & m' & Hz & Hk & E)].
        -- left. exists (z :: zs), k. split; auto. eapply TB_cons; eauto.
        -- right. exists (z :: zs), z', k, m'. split; auto. eapply TB_cons; eauto.
      * destruct (Z.eqb_spec c 93); [discriminate|]. intros [= <-]. right. exists [], z, l, m. split; [apply TB_nil|]. split; auto. right. eauto 6.
    + intros [= ->]. left. exists [], l. split; [apply TB_nil|]. apply int_err. auto.
  - assert (G : forall zs k, takes_bytes zs l k -> zs <> [] -> exists z m r zs', p_int U8 l = Ok (z, m) /\ begins m 44 r /\ takes_bytes zs' r k /\ (length r < n)%nat).
    { intros zs k Hz Hne. destruct Hz as [|z zs l m r k Hz Hb Ht]; [congruence|]. pose proof (begins_length _ _ _ Hb) as Lr.
      pose proof (tail_length _ _ (takes_u8_tail _ _ _ Hz)) as Lm. exists z, m, r, zs. split; [apply int_ok; auto|]. split; auto. split; auto. lia. }
    intros [(zs & k & Hz & Hk)|(zs & z & k & m & Hz & Hk & E)].
    + destruct zs as [|z zs].
      * inversion Hz; subst. apply int_err in Hk. rewrite Hk. reflexivity.
      * destruct (G _ _ Hz) as (z' & m & r & zs' & E & Hb & Ht & Lr); [discriminate|]. rewrite E. cbn [pbind].
        rewrite (p_ws_begins _ _ _ _ Hb). cbn [Z.eqb Pos.eqb]. apply prep_err. apply IH; auto. left. eauto.
    + destruct zs as [|z' zs].
      * inversion Hz; subst. apply int_ok in Hk. rewrite Hk. cbn [pbind]. destruct E as [[Hm ->]|(c & r & Hb & N1 & N2 & ->)].
        -- apply p_ws_end; auto.
        -- rewrite (p_ws_begins _ _ _ _ Hb). replace (c =? 44) with false by lia. replace (c =? 93) with false by lia. reflexivity.
      * destruct (G _ _ Hz) as (z2 & m2 & r & zs' & E2 & Hb & Ht & Lr); [discriminate|]. rewrite E2. cbn [pbind].
        rewrite (p_ws_begins _ _ _ _ Hb). cbn [Z.eqb Pos.eqb]. apply prep_err. apply IH; auto. right. eauto 8.
Qed.
Lemma drop_ws_begins l c r : begins l c r -> begins (c :: r) c r.
Proof. intros (w & _ & _ & H). exists []. split; auto. split; auto. constructor. Qed.
Lemma p_int_drop k l c r : begins l c r -> p_int k l = p_int k (c :: r).
Proof. intros H. rewrite (p_int_begins _ _ _ _ H), (p_int_begins _ _ _ _ (drop_ws_begins _ _ _ H)). reflexivity. Qed.
Lemma takes_bytes_drop zs l c r k : begins l c r -> takes_bytes zs l k -> zs <> [] -> takes_bytes zs (c :: r) k.
Proof.
  intros Hb H N. destruct H as [|z zs l m q k Hz Hm Ht]; [congruence|]. eapply TB_cons; eauto. apply int_ok. apply int_ok in Hz. rewrite <- Hz. symmetry. eapply p_int_drop; eauto.
Qed.
Lemma takes_bytes_undrop zs l c r k : begins l c r -> takes_bytes zs (c :: r) k -> zs <> [] -> takes_bytes zs l k.
Proof.
  intros Hb H N. inversion H as [|z zs' l' m q k' Hz Hm Ht]; subst; [congruence|]. eapply TB_cons; eauto. apply int_ok. apply int_ok in Hz. rewrite <- Hz. eapply p_int_drop; eauto.
Qed.
Lemma array_err l e : p_array l = Err e <-> array_fault l e.
Proof.
  destruct (ws_cases l) as [Hw|(c & r & Hb)].
  { unfold p_array. rewrite p_ws_end by auto. split.
    - intros [= <-]. apply (AF_num [] l l); [apply TB_nil| |apply IF_end; auto]. intros _ r Hb. apply (begins_not_ws _ _ _ Hb). auto.
    - intros H. assert (Q : forall zs k, takes_bytes zs l k -> zs = [] /\ k = l).
      { intros zs k Hz. destruct Hz as [|z zs l m r k Hz]; auto. apply int_ok in Hz. rewrite p_int_end in Hz by auto. discriminate. }
      assert (Q2 : forall z k, ~ takes_u8 z l k). { intros z k Hz. apply int_ok in Hz. rewrite p_int_end in Hz by auto. discriminate. }
      inversion H as [zs l' k e' Hz _ He|zs z l' k m Hz Hu _|zs z l' k m c r Hz Hu]; subst; destruct (Q _ _ Hz) as [-> ->].
      + apply int_err in He. rewrite p_int_end in He by auto. injection He as <-. reflexivity.
      + destruct (Q2 _ _ Hu).
      + destruct (Q2 _ _ Hu). }
  unfold p_array. rewrite (p_ws_begins _ _ _ _ Hb). destruct (Z.eqb_spec c 93) as [->|N].
  - split; [discriminate|]. intros H. exfalso.
    assert (Q2 : forall z k, ~ takes_u8 z l k). { intros z k Hz. apply int_ok in Hz. rewrite (p_int_begins _ _ _ _ Hb) in Hz. discriminate. }
    assert (Q : forall zs k, takes_bytes zs l k -> zs = [] /\ k = l).
    { intros zs k Hz. destruct Hz as [|z zs l m q k Hz]; auto. destruct (Q2 _ _ Hz). }
    inversion H as [zs l' k e' Hz Hn He|zs z l' k m Hz Hu _|zs z l' k m c r' Hz Hu]; subst; destruct (Q _ _ Hz) as [-> ->].
    + apply (Hn eq_refl r). auto.
    + destruct (Q2 _ _ Hu).
    + destruct (Q2 _ _ Hu).
  - rewrite loop_err by lia. split.
    + intros [(zs & k & Hz & Hk)|(zs & z & k & m & Hz & Hk & E)].
      * destruct zs as [|z zs].
        -- inversion Hz; subst. apply (AF_num [] l l); [apply TB_nil|intros _ r' Hb'; destruct (begins_inj _ _ _ _ _ Hb Hb'); congruence|].
           apply int_err. apply int_err in Hk. rewrite <- Hk. eapply p_int_drop; eauto.
        -- apply (AF_num (z :: zs) l k); auto; [|discriminate]. eapply takes_bytes_undrop; eauto. discriminate.
      * assert (X : exists k', takes_bytes zs l k' /\ takes_u8 z k' m).
        { destruct zs as [|z' zs].
          - inversion Hz; subst. exists l. split; [apply TB_nil|]. apply int_ok. apply int_ok in Hk. rewrite <- Hk. eapply p_int_drop; eauto.
          - exists k. split; auto. eapply takes_bytes_undrop; eauto. discriminate. }
        destruct X as (k' & X1 & X2). destruct E as [[Hm ->]|(c' & r' & Hb' & N1 & N2 & ->)]; [eapply AF_end; eauto|eapply AF_gap; eauto].
    + assert (X : forall zs z k m, takes_bytes zs l k -> takes_u8 z k m -> exists k', takes_bytes zs (c :: r) k' /\ takes_u8 z k' m).
      { intros zs z k m Hz Hk. destruct zs as [|z' zs].
        - inversion Hz; subst. exists (c :: r). split; [apply TB_nil|]. apply int_ok. apply int_ok in Hk. rewrite <- Hk. symmetry. eapply p_int_drop; eauto.
        - exists k. split; auto. eapply takes_bytes_drop; eauto. discriminate. }
      intros H. inversion H as [zs l' k e' Hz Hn He|zs z l' k m Hz Hu Hm|zs z l' k m c' r' Hz Hu Hb' N1 N2]; subst.
      * left. destruct zs as [|z zs].
        -- inversion Hz; subst. exists [], (c :: r). split; [apply TB_nil|]. apply int_err. apply int_err in He. rewrite <- He. symmetry. eapply p_int_drop; eauto.
        -- exists (z :: zs), k. split; auto. eapply takes_bytes_drop; eauto. discriminate.
      * right. destruct (X _ _ _ _ Hz Hu) as (k' & X1 & X2). exists zs, z, k', m. auto.
      * right. destruct (X _ _ _ _ Hz Hu) as (k' & X1 & X2). exists zs, z, k', m. split; auto. split; auto. right. eauto 6.
Qed.

(** [deserialize_any] gives the value a JSON document stands for, and nothing else
    (C52). *)
From Verif Require Import Prelude PreludeFacts Utf8 Utf8Spec Utf8Facts SerdeDe SerdeSer MpSpec Base64Spec
  JsonSpec JsonTypeSpec JsonAnySpec JsonFacts JsonDe JsonDeSafe JsonStr JsonView JsonTok JsonMeth JsonEats JsonTyped
  Types TypesFacts MpTypeSpec MpTyped MpSound JsonSound JsonSoundTop JsonTypedTop.
Ltac Zify.zify_post_hook ::= Z.div_mod_to_equations.

Local Notation any := (any JDeserializeError).
Local Notation any_seq := (any_seq JDeserializeError).
Local Notation any_map := (any_map JDeserializeError).

Definition j_any_visitor : visitor val js_de_error :=
  Visitor (fun b => Ok (UBool b)) (fun _ z => Ok (UInt z)) (fun b => Ok (UF32 b)) (fun b => Ok (UF64 b))
    (fun c => Ok (UChar c)) (fun s => Ok (UStr s)) (fun s => Ok (UBytes s)) (Ok UNone) (Ok UUnit) any any
    (any_seq []) (any_map []) (ERet (Err JDeserializeError)).
Lemma any_eq : any = DReq DAny j_any_visitor (fun r => r).
Proof. transitivity (dfrob any); [destruct any; reflexivity|reflexivity]. Qed.
Lemma any_seq_eq acc : any_seq acc = SNext any (fun r =>
    match r with
    | Ok (Some v) => any_seq (v :: acc)
    | Ok None => SRet (Ok (USeq (rev acc)))
    | Err e => SRet (Err e)
    end).
Proof. rewrite (sfrob_eq (any_seq acc)). reflexivity. Qed.
Lemma any_map_eq acc : any_map acc = MKey any (fun r =>
    match r with
    | Ok (Some k) => MVal any (fun r =>
        match r with
        | Ok v => any_map ((k, v) :: acc)
        | Err e => MRet (Err e)
        end)
    | Ok None => MRet (Ok (UMap (rev acc)))
    | Err e => MRet (Err e)
    end).
Proof. rewrite (mfrob_eq (any_map acc)). reflexivity. Qed.

(** ** Numbers *)
Section Num.
Context (fl : float_parser) (any_f32 : bool).
Definition number_val (tok : bytes) : option val :=
  let is_float := existsb (fun b => (b =? 46) || (b =? 101) || (b =? 69)) tok in
  match (if is_float then option_map AnyFloat (any_from_str fl any_f32 tok)
         else if hd 0 tok =? 45 then option_map NegInt (int_from_str I64 tok)
         else option_map PosInt (int_from_str U64 tok)) with
  | Some (PosInt n) => Some (UInt n)
  | Some (NegInt n) => Some (UInt n)
  | Some (AnyFloat f) => Some (if any_f32 then UF32 f else UF64 f)
  | None => None
  end.
Lemma all_digits_spec l : forall acc z, all_digits acc l = Some z <-> Forall is_digit l /\ z = fold_left (fun a c => a * 10 + (c - 48)) l acc.
Proof.
  induction l as [|c l IH]; intros acc z; cbn [all_digits fold_left].
  - split; [intros [= <-]; split; auto|intros [_ ->]; auto].
  - destruct (ascii_digit c) eqn:E.
    + rewrite IH. split; intros [H ->]; split; auto; [constructor; auto; unfold is_digit, ascii_digit in *; lia|inversion H; auto].
    + split; [discriminate|]. intros [H _]. inversion H; subst. unfold is_digit, ascii_digit in *. lia.
Qed.
Lemma digits_from_str_spec l z : digits_from_str l = Some z <-> digits l /\ z = dec_val l.
Proof.
  unfold digits_from_str, digits, dec_val. destruct l as [|c l]; [split; [discriminate|intros [[H _] _]; congruence]|].
  rewrite all_digits_spec. split; [intros [H ->]; split; auto; split; [discriminate|auto]|intros [[_ H] ->]; auto].
Qed.
Lemma dec_val_pos l : Forall is_digit l -> 0 <= dec_val l.
Proof.
  unfold dec_val. cut (forall a, 0 <= a -> Forall is_digit l -> 0 <= fold_left (fun a c => a * 10 + (c - 48)) l a); [intros H F; apply H; auto; lia|].
  induction l as [|c l IH]; intros a Ha F; cbn; auto. inversion F; subst. apply IH; auto. unfold is_digit in *. lia.
Qed.
Lemma digits_not_float l : digits l -> has_float_char l -> False.
Proof. intros [_ H] (x & Hx & F). rewrite Forall_forall in H. specialize (H x Hx). unfold is_digit in H. lia. Qed.
Lemma digits_not_neg l : digits (45 :: l) -> False.
Proof. intros [_ H]. inversion H; subst. unfold is_digit in *. lia. Qed.
Lemma number_val_spec v tok : number_start tok -> (number_val tok = Some v <-> number_as any_f32 (any_from_str fl any_f32) v tok).
Proof.
  intros (c & r & -> & Hc). unfold number_val. destruct (existsb _ (c :: r)) eqn:E.
  - assert (F : has_float_char (c :: r)). { apply existsb_exists in E. destruct E as (x & Hx & Hb). exists x. split; auto. lia. }
    split.
    + destruct (any_from_str fl any_f32 (c :: r)) as [b|] eqn:Eb; [|discriminate]. intros [= <-]. apply N_float; auto. exists c, r; auto.
    + intros H. inversion H; subst.
      * match goal with X : any_from_str _ _ _ = _ |- _ => rewrite X end. reflexivity.
      * exfalso. eapply digits_not_float; eauto.
      * exfalso. destruct F as (x & [Hx|Hx] & F); [lia|]. eapply digits_not_float; eauto. exists x; auto.
  - assert (F : ~ has_float_char (c :: r)).
    { intros (x & Hx & F). assert (X : existsb (fun b => (b =? 46) || (b =? 101) || (b =? 69)) (c :: r) = true); [|congruence].
      apply existsb_exists. exists x. split; auto. lia. }
    cbn [hd]. destruct (Z.eqb_spec c 45) as [->|N].
    + unfold int_from_str. destruct (digits_from_str r) as [z|] eqn:Ez.
      * apply digits_from_str_spec in Ez. destruct Ez as [Hd ->]. cbn [option_map]. pose proof (dec_val_pos r (proj2 Hd)) as P. unfold try_from.
        destruct (in_ikindb I64 (- dec_val r)) eqn:Er; cbn [option_map].
        -- split; [intros [= <-]|intros H; inversion H; subst; auto].
           ++ apply N_neg; auto. apply in_ikindb_spec in Er. unfold in_ikind in Er. cbn in Er. lia.
           ++ contradiction.
           ++ exfalso. eapply digits_not_neg; eauto.
        -- split; [discriminate|]. intros H. inversion H; subst; [contradiction|exfalso; eapply digits_not_neg; eauto|].
           exfalso. assert (X : in_ikindb I64 (- dec_val r) = true); [|congruence]. apply in_ikindb_spec. unfold in_ikind. cbn. lia.
      * cbn. split; [discriminate|]. intros H. inversion H; subst; [contradiction|exfalso; eapply digits_not_neg; eauto|].
        assert (X : digits_from_str r = Some (dec_val r)) by (apply digits_from_str_spec; auto). congruence.
    + assert (I : int_from_str U64 (c :: r) = match digits_from_str (c :: r) with Some z => try_from U64 z | None => None end).
      { unfold int_from_str. unfold is_digit in Hc. destruct c as [|p|p]; auto. do 6 (destruct p as [p|p|]; auto); exfalso; lia. }
      rewrite I. destruct (digits_from_str (c :: r)) as [z|] eqn:Ez.
      * apply digits_from_str_spec in Ez. destruct Ez as [Hd ->]. pose proof (dec_val_pos _ (proj2 Hd)) as P. unfold try_from.
        destruct (in_ikindb U64 (dec_val (c :: r))) eqn:Er; cbn [option_map].
        -- split; [intros [= <-]|intros H; inversion H; subst; auto; [contradiction|congruence]].
           apply N_pos; auto. apply in_ikindb_spec in Er. unfold in_ikind in Er. cbn [imin imax] in Er. lia.
        -- split; [discriminate|]. intros H. inversion H; subst; [contradiction| |congruence].
           exfalso. assert (X : in_ikindb U64 (dec_val (c :: r)) = true); [|congruence]. apply in_ikindb_spec. unfold in_ikind. cbn [imin imax]. lia.
      * cbn. split; [discriminate|]. intros H. inversion H; subst; [contradiction| |congruence].
        assert (X : digits_from_str (c :: r) = Some (dec_val (c :: r))) by (apply digits_from_str_spec; auto). congruence.
Qed.
End Num.

Section Any.
Context (ar : arch) (fl : float_parser) (any_f32 : bool) (dec : byte_decoder).
Local Notation M := (DM jde js_de_error).
Local Notation inside := (inside ar dec).
Local Notation run := (js_run ar fl any_f32 dec).
Local Notation eats := (eats ar dec).
Local Notation accepts := (accepts ar fl any_f32 dec).
Local Notation kaccepts := (kaccepts ar fl any_f32 dec).
Local Notation sound := (sound ar dec).
Local Notation soundc := (soundc ar dec).
Local Notation any_as := (any_as any_f32 (any_from_str fl any_f32)).
Local Notation number_as := (number_as any_f32 (any_from_str fl any_f32)).

Definition visit_number (n : any_number) : result val js_de_error :=
  match n with
  | PosInt n => visit_int j_any_visitor U64 n
  | NegInt n => visit_int j_any_visitor I64 n
  | AnyFloat f => if any_f32 then visit_f32 j_any_visitor f else visit_f64 j_any_visitor f
  end.
Lemma any_number_run c s l : inside s -> unparsed s = c :: l -> number_char c = true ->
  (n <-- parse_float_or_int fl any_f32 c ;; dlift (visit_number n)) s =
  match number_val fl any_f32 (number_prefix (c :: l)) with
  | Some v => Done (jset (j_input s) (j_index s + length (number_prefix (c :: l))) s) (Ok v)
  | None => Done s (Err JInvalidNumber)
  end.
Proof.
  intros I Hl Hc. assert (Ix : (j_index s <= length (j_input s))%nat) by apply I.
  unfold parse_float_or_int, dbind, match_float. rewrite (proj2 (Nat.leb_le _ _) Ix). fold (unparsed s). rewrite Hl.
  assert (Hh : hd 0 (number_prefix (c :: l)) = c).
  { destruct (number_prefix_split (c :: l)) as (t & Et & Hn & Hh). destruct (number_prefix (c :: l)) as [|c' l']; [|cbn in Et; injection Et as <-; auto].
    cbn in Et. rewrite <- Et in Hh. congruence. }
  unfold number_val. rewrite Hh.
  destruct (existsb _ _); [|destruct (c =? 45)].
  - destruct (any_from_str fl any_f32 _); cbn [option_map]; unfold dlift, dret, j_eat_some, dfail; auto. unfold visit_number. destruct any_f32; reflexivity.
  - destruct (int_from_str I64 _); cbn [option_map]; reflexivity.
  - destruct (int_from_str U64 _); cbn [option_map]; reflexivity.
Qed.

Lemma any_num_eats v tok k : number_run tok -> number_start tok -> number_as v tok -> cannot_extend (JNum tok) k ->
  eats (fun _ => n <-- parse_float_or_int fl any_f32 (hd 0 tok) ;; dlift (visit_number n)) v (tok ++ k) k.
Proof.
  intros Hr Hs Hv Hk. exists O. intros f _ s I H. pose proof Hs as (c & r & -> & Hc). cbn [hd].
  rewrite (any_number_run c s (r ++ k)); auto; [|unfold number_char, ascii_digit, is_digit in *; lia].
  change (c :: r ++ k) with ((c :: r) ++ k). rewrite (prefix_number (c :: r) k); [|apply run_chars; auto|eapply extend_prefix; eauto].
  rewrite (proj2 (number_val_spec fl any_f32 v (c :: r) Hs) Hv).
  destruct (eat_state ar dec s (c :: r) k I H) as [I' U']. eexists. split; [reflexivity|]. auto.
Qed.

Lemma number_as_start v tok : number_as v tok -> number_start tok.
Proof.
  intros H. inversion H; subst; auto.
  - destruct H0 as [Hn Hd]. destruct tok as [|c r]; [congruence|]. inversion Hd; subst. exists c, r. auto.
  - exists 45, ds. auto.
Qed.

Lemma any_accepts d : forall v, any_as v d -> accepts any d v.
Proof.
  induction d as [|x|tok|raw|l IH|l IH] using jv_ind'; intros v Hv; rewrite any_eq; apply (proj1 (accepts_req ar fl any_f32 dec DAny j_any_visitor _ _)); intros b w k Hb Hw Hk;
    cbn [js_method]; unfold j_deserialize_any; inversion Hv; subst.
  - inversion Hb; subst. cbn [app]. apply eats_ws; auto. cbn [Z.eqb Pos.eqb]. apply (unit_eats ar dec j_any_visitor UUnit [110; 117; 108; 108] [] k); auto. constructor.
  - inversion Hb; subst; cbn [app]; apply eats_ws; auto; cbn [Z.eqb Pos.eqb orb].
    + apply (bool_eats ar dec j_any_visitor _ true _ [] k Hb); auto. constructor.
    + apply (bool_eats ar dec j_any_visitor _ false _ [] k Hb); auto. constructor.
  - inversion Hb; subst. pose proof (number_as_start _ _ H1) as Hs. pose proof Hs as (c & r & E & Hc). pose proof E as E'. subst b. cbn [app]. unfold is_digit in Hc.
    apply eats_ws; auto; [unfold is_space; lia|].
    replace (c =? 110) with false by lia. replace ((c =? 116) || (c =? 102)) with false by lia. replace (c =? 34) with false by lia.
    replace (ascii_digit c || (c =? 45)) with true by (unfold ascii_digit; lia).
    apply (any_num_eats v (c :: r) k); auto.
  - inversion Hb; subst. destruct H0 as [-> Hq]. cbn [app]. rewrite <- app_assoc. apply eats_ws; auto. cbn [Z.eqb Pos.eqb orb].
    apply (str_eats ar dec j_any_visitor (UStr s) raw s [] k); auto. constructor.
  - destruct (arr_text _ _ Hb) as (b' & Eb & _). rewrite Eb. cbn [app]. apply eats_ws; auto.
    replace (ascii_digit 91) with false by reflexivity. cbn [Z.eqb Pos.eqb orb].
    change (91 :: (b' ++ [93]) ++ k) with ([] ++ (91 :: b' ++ [93]) ++ k). rewrite <- Eb.
    apply (seq_eats ar fl any_f32 dec j_any_visitor l); [|auto|constructor]. cbn [visit_seq j_any_visitor].
    assert (G : forall acc vs, Forall2 any_as vs l -> feeds ar fl any_f32 dec (any_seq acc) l (USeq (rev acc ++ vs))); [|apply (G []); auto].
    clear - IH. induction IH as [|d l Hd _ IHl]; intros acc vs F; rewrite any_seq_eq; inversion F; subst.
    + rewrite app_nil_r. apply FS_end, FS_ret.
    + eapply FS_next; [apply Hd; eauto|]. specialize (IHl (x :: acc) l0 H3). cbn [rev] in IHl. rewrite <- app_assoc in IHl. exact IHl.
  - destruct (obj_text _ _ Hb) as (b' & Eb & _). rewrite Eb. cbn [app]. apply eats_ws; auto.
    replace (ascii_digit 123) with false by reflexivity. cbn [Z.eqb Pos.eqb orb].
    change (123 :: (b' ++ [125]) ++ k) with ([] ++ (123 :: b' ++ [125]) ++ k). rewrite <- Eb.
    apply (map_eats ar fl any_f32 dec j_any_visitor l); [|auto|constructor]. cbn [visit_map j_any_visitor].
    match goal with |- feedm _ _ _ _ _ _ (UMap ?vs) => 
    assert (G : forall acc vs, Forall2 (fun e m => (exists s, fst e = UStr s /\ literal (fst m) s) /\ any_as (snd e) (snd m)) vs l ->
      feedm ar fl any_f32 dec (any_map acc) l (UMap (rev acc ++ vs))); [|apply (G [] vs); auto] end.
    clear - IH. induction IH as [|[raw d] l Hd _ IHl]; intros acc vs F; rewrite any_map_eq; inversion F as [|[kv vv] ? vs' ? [(s & Ek & L) Hx] F']; subst.
    + rewrite app_nil_r. apply FM_end, FM_ret.
    + cbn [fst snd] in *. subst kv.
      assert (HK : kaccepts any raw (UStr s)) by (rewrite any_eq; eapply key_str_eats; [exact I|exact L|reflexivity|reflexivity]).
      eapply FM_next; [exact HK|reflexivity|apply Hd; eauto|]. specialize (IHl ((UStr s, vv) :: acc) vs' F'). cbn [rev] in IHl. rewrite <- app_assoc in IHl. exact IHl.
Qed.

Lemma soundc_any_number c : number_char c = true -> is_digit c \/ c = 45 ->
  soundc c (n <-- parse_float_or_int fl any_f32 c ;; dlift (visit_number n)) (fun u bs => number_run bs /\ number_as u bs).
Proof.
  intros Hc Hd s s' a I B (l & Hl) E. rewrite (any_number_run c s l) in E; auto. rewrite <- Hl in E.
  destruct (number_prefix_split (unparsed s)) as (t & Et & Hn & Hh).
  destruct (number_val fl any_f32 (number_prefix (unparsed s))) as [v|] eqn:Ev; [|discriminate].
  destruct (eat_state ar dec s _ t I Et) as [I1 U1]. injection E as <- <-. exists (number_prefix (unparsed s)). rewrite U1. split; auto. split; auto.
  assert (Ex : exists l', number_prefix (unparsed s) = c :: l').
  { destruct (number_prefix (unparsed s)) as [|c' l']; [|exists l'; rewrite Hl in Et; cbn in Et; congruence].
    cbn in Et. rewrite <- Et, Hl in Hh. congruence. }
  destruct Ex as (l' & El). split.
  - split; [rewrite El; discriminate|]. eapply Forall_impl; [|exact Hn]. intros b. apply run_char.
  - apply number_val_spec; auto. exists c, l'. auto.
Qed.

Definition any_members (l : list (val * val)) (ms : list (bytes * jv)) : Prop :=
  Forall2 (fun e m => (exists s, fst e = UStr s /\ literal (fst m) s) /\ any_as (snd e) (snd m)) l ms.
Lemma any_sound_all f :
  sound (jr_de (run f) false any) (vtext any_as) /\
  (forall acc first, sound (jr_seq (run f) (any_seq acc) first) (fun u b => exists ds, arr_part first ds b /\ exists l, u = USeq (rev acc ++ l) /\ Forall2 any_as l ds)) /\
  (forall acc first, sound (jr_map (run f) (any_map acc) first) (fun u b => exists ms, obj_part first ms b /\ exists l, u = UMap (rev acc ++ l) /\ any_members l ms)).
Proof.
  induction f as [f IH] using (well_founded_induction lt_wf).
  destruct f as [|f]; [split; [|split]; intros; apply sound_fuel|]. split; [|split].
  - rewrite any_eq. cbn [js_run jr_de j_step_de]. eapply sound_post with (P := vtext any_as); [|discriminate|intros a b x Px [= ->]; exact Px].
    cbn [js_method]. apply sound_ws. intros c Hc.
    apply soundc_if; intros E1.
    { apply soundc_sound. eapply sound_weaken; [apply (sound_view ar dec (fun x => x) _ _ _ (view_m_unit ar dec j_any_visitor) (psound_m_unit ar dec j_any_visitor))|].
      intros u bs H w Hw. apply vtext_blank; auto. eapply vtext_weaken; [|exact H]. intros d [-> [= <-]]. constructor. }
    apply soundc_if; intros E2.
    { apply soundc_sound. eapply sound_weaken; [apply (sound_view ar dec (fun x => x) _ _ _ (view_m_bool ar dec j_any_visitor) (psound_m_bool ar dec j_any_visitor))|].
      intros u bs H w Hw. apply vtext_blank; auto. eapply vtext_weaken; [|exact H]. intros d (x & -> & [= <-]). constructor. }
    apply soundc_if; intros E3.
    { apply soundc_sound. eapply sound_weaken; [apply (sound_view ar dec (fun x => x) _ _ _ (view_m_str ar dec j_any_visitor) (psound_m_str ar dec j_any_visitor))|].
      intros u bs H w Hw. apply vtext_blank; auto. eapply vtext_weaken; [|exact H]. intros d (raw & s & -> & Hl & [= <-]). constructor. auto. }
    apply soundc_if; intros E4.
    { destruct (digit_number c E4) as [Hn Hd]. eapply soundc_weaken; [apply soundc_any_number; auto|]. intros u bs (Hr & Ha) w Hw.
      apply (vt _ u w (JNum bs)); auto; [apply T_num; auto|]. constructor. auto. }
    apply soundc_if; intros E5.
    { apply soundc_sound. eapply sound_weaken; [apply sound_seq; apply (IH f); auto|].
      intros u bs H w Hw. apply vtext_blank; auto. eapply vtext_weaken; [|exact H]. intros d (ds & -> & l & -> & Hd). constructor. exact Hd. }
    apply soundc_if; intros E6; [|apply soundc_fail].
    { apply soundc_sound. eapply sound_weaken; [apply sound_map; apply (IH f); auto|].
      intros u bs H w Hw. apply vtext_blank; auto. eapply vtext_weaken; [|exact H]. intros d (ds & -> & l & -> & Hd). constructor. exact Hd. }
  - intros acc first. rewrite any_seq_eq. eapply (next_elem ar fl any_f32 dec f _ _ first any_as (fun u ds => exists l, u = USeq (rev acc ++ l) /\ Forall2 any_as l ds)).
    + apply (IH f). auto.
    + eauto.
    + apply seq_ret. split; auto. exists []. rewrite app_nil_r. auto.
    + intros x d Hd. eapply sound_weaken; [apply (IH f); auto|]. intros u b (ds & Hb & l & -> & Hl). exists ds. split; auto. exists (x :: l).
      cbn [rev]. rewrite <- app_assoc. split; auto.
  - intros acc first. rewrite any_map_eq.
    eapply (next_member ar fl any_f32 dec f _ _ first (fun x raw => exists s, x = UStr s /\ literal raw s) (fun u ms => exists l, u = UMap (rev acc ++ l) /\ any_members l ms)).
    + destruct f as [|f]; [apply soundc_fuel|]. rewrite any_eq. cbn [js_run jr_de j_step_de]. eapply soundc_post; [apply soundc_key_str|discriminate|].
      intros a b x (raw & Hk & s & Hl & [= <-]) [= <-]. exists raw. eauto.
    + eauto.
    + apply map_ret. intros v [= <-]. split; auto. exists []. rewrite app_nil_r. split; auto. constructor.
    + intros x raw Hl. right. eexists; eexists; exists any_as. split; [reflexivity|]. split; [|split].
      * intros f' Hf'. apply (IH f'). lia.
      * eauto.
      * intros y d f' Hf' Hd. eapply sound_weaken; [apply (IH f'); lia|]. intros u b (ms & Hb & l & -> & Hl'). exists ms. split; auto.
        exists ((x, y) :: l). cbn [rev]. rewrite <- app_assoc. split; auto. constructor; auto.
Qed.
Lemma sde_any : sde ar fl any_f32 dec any any_as.
Proof. intros f. apply any_sound_all. Qed.

Theorem any_exact v input : all_bytes input -> (dec = Base64Decoder -> 3 * zlen input <= usize_max ar) ->
  ((exists fuel s, js_from_mut_slice ar fl any_f32 dec fuel any input = Done s (Ok v)) <->
   (exists d w1 text w2, input = w1 ++ text ++ w2 /\ any_ws w1 /\ any_ws w2 /\ loose_text d text /\ any_as v d)).
Proof.
  intros B R. split.
  - intros (fuel & s & E). eapply (sound_top ar fl any_f32 dec any any_as); eauto. apply sde_any.
  - intros (d & w1 & text & w2 & -> & W1 & W2 & T & H).
    destruct (accepts_top ar fl any_f32 dec any d v text w1 w2) as [N HN]; auto.
    { apply any_accepts. auto. }
    destruct (HN N (le_n N)) as [s E]. eauto.
Qed.
End Any.

Theorem self_describing_exact ar fl any_f32 dec v input : all_bytes input -> (dec = Base64Decoder -> 3 * zlen input <= usize_max ar) ->
  ((exists fuel s, js_from_mut_slice ar fl any_f32 dec fuel any input = Done s (Ok v)) <->
   (exists d w1 text w2, input = w1 ++ text ++ w2 /\ any_ws w1 /\ any_ws w2 /\ loose_text d text /\
      any_as any_f32 (if any_f32 then f32_from_str fl else f64_from_str fl) v d)).
Proof. intros B R. destruct any_f32; apply any_exact; auto. Qed.
Theorem self_describing_reads ar fl any_f32 dec v d text w1 w2 :
  any_as any_f32 (if any_f32 then f32_from_str fl else f64_from_str fl) v d -> raw_text d text -> any_ws w1 -> any_ws w2 ->
  (dec = Base64Decoder -> 3 * zlen (w1 ++ text ++ w2) <= usize_max ar) ->
  exists N, forall fuel, (N <= fuel)%nat ->
    exists s, js_from_mut_slice ar fl any_f32 dec fuel any (w1 ++ text ++ w2) = Done s (Ok v).
Proof.
  intros H T W1 W2 R. apply (accepts_top ar fl any_f32 dec any d v text w1 w2); auto; [|apply raw_loose; auto].
  apply any_accepts. destruct any_f32; exact H.
Qed.

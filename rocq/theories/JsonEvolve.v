(** What one program writes as JSON reads as the specified value of another program's
    type (C68). *)
From Verif Require Import Prelude PreludeFacts Utf8 Utf8Spec Utf8Facts SerdeDe SerdeSer MpSpec Base64Spec Base64Facts
  JsonSpec JsonTypeSpec JsonFacts JsonSer JsonErrMap JsonSerFacts JsonDe JsonDeSafe JsonStr JsonView JsonTok JsonMeth JsonEats JsonTyped
  Types TypesFacts MpTypeSpec MpTyped MpSerSim MpTypedSer JsonTypedTop JsonTypedSer EvolveSpec EvolveFacts.
From Verif Require MpBytes.
Ltac Zify.zify_post_hook ::= Z.div_mod_to_equations.

Lemma canon_skippable :
  (forall d b, jtext no_ws canon canon json_number d b -> skippable (tok_doc d)) /\
  (forall l b, elements no_ws canon canon json_number l b -> all_list skippable (map tok_doc l)) /\
  (forall l b, members no_ws canon canon json_number l b ->
     all_list (fun m => (exists s, literal (fst m) s) /\ skippable (snd m)) (map (fun m => (esc_text (fst m), tok_doc (snd m))) l)).
Proof.
  assert (L : forall s t, canon s t -> exists s', literal (esc_text s) s') by (intros s t [V _]; exists s; apply esc_literal; auto).
  apply jtext_mutind; intros; cbn [tok_doc map fst snd skippable all_list]; auto; try (split; [split|]); eauto using number_head.
Qed.

Section E.
Context (fp : float_printer) (fl : float_parser) (enc : byte_encoder) (dec : byte_decoder) (Hm : matching enc dec).
Local Notation doc := (js_value fp enc).
Local Notation reads := (reads_as no_ws (f32_from_str fl) (f64_from_str fl) (bytes_of dec)).
Definition good (x : sval) (j : jv) : Prop := strings_ok x /\ doc x = Some j /\ skippable (tok_doc j).

Lemma bare_doc x : doc (bare x) = doc x.
Proof. induction x using sval_ind'; auto. Qed.
Lemma bare_strings x : strings_ok x -> strings_ok (bare x).
Proof. induction x using sval_ind'; auto. Qed.
Lemma bare_good x j : good x j -> good (bare x) j.
Proof. intros (H1 & H2 & H3). split; [apply bare_strings; auto|]. rewrite bare_doc. auto. Qed.
Lemma bare_bare x : match bare x with SSome _ | SNewtypeStruct _ => False | _ => True end.
Proof. induction x using sval_ind'; cbn; auto. Qed.

Lemma fmt_text_utf8 p : fmt_all valid_utf8 p -> forall s, fmt_text p = Some s -> valid_utf8 s.
Proof.
  induction p as [ok|c k1 IH1 k2 IH2]; cbn; intros H s E.
  - destruct ok; [|discriminate]. injection E as <-. apply valid_utf8_nil.
  - destruct (fmt_text k1) as [r|]; [|discriminate]. injection E as <-. apply valid_utf8_app; [tauto|]. apply IH1; tauto.
Qed.
Lemma text_doc x s j : js_text x = Some s -> good x j -> valid_utf8 s /\ j = JStr s.
Proof.
  intros T (Hv & Hd & _). destruct x; cbn [js_text] in T; try discriminate; cbn [strings_ok] in Hv; cbn in Hd.
  - injection T as <-. injection Hd as <-. split; auto. apply valid_utf8_char; auto.
  - injection T as <-. injection Hd as <-. auto.
  - injection T as <-. injection Hd as <-. auto.
  - rewrite T in Hd. injection Hd as <-. split; auto. eapply fmt_text_utf8; eauto.
Qed.
Lemma text_key x s n : js_text (bare x) = Some s -> key_doc x = Some n -> s = n.
Proof. induction x using sval_ind'; cbn; intros T K; try discriminate; auto; congruence. Qed.
Lemma key_valid x n : strings_ok x -> key_doc x = Some n -> valid_utf8 n.
Proof.
  induction x using sval_ind'; cbn; intros T K; try discriminate; auto; try (injection K as <-); auto.
  - apply valid_utf8_ascii. destruct b; repeat constructor; lia.
  - apply valid_utf8_ascii. unfold dec_text. destruct (Z.ltb_spec z 0) as [L|L].
    + destruct (dec_nat_spec (- z)) as [[[_ D] _] _]; [lia|]. constructor; [lia|]. eapply Forall_impl; [|exact D]. unfold is_digit. lia.
    + destruct (dec_nat_spec z L) as [[[_ D] _] _]. eapply Forall_impl; [|exact D]. unfold is_digit. lia.
  - apply valid_utf8_char; auto.
  - eapply fmt_text_utf8; eauto.
Qed.

(** Only these are null. *)
Lemma null_doc x j : js_null x = true -> good x j -> j = JNull.
Proof.
  intros N (_ & D & _). destruct x; try discriminate; cbn in D; try congruence.
  - unfold f32_num in D. cbn in N. cbn in D. rewrite N in D. cbn in D. congruence.
  - unfold f64_num in D. cbn in N. cbn in D. rewrite N in D. cbn in D. congruence.
Qed.
Lemma tok_null j : tok_doc j = JNull -> j = JNull.
Proof. destruct j; auto; discriminate. Qed.
Lemma not_null x j : js_null (bare x) = false -> good x j -> tok_doc j <> JNull.
Proof.
  intros N G E. apply tok_null in E. subst j. apply bare_good in G. destruct G as (Hv & D & _). pose proof (bare_bare x) as Hb.
  destruct (bare x); try discriminate; try contradiction; cbn in D; try discriminate.
  - unfold f32_num in D. cbn in N, D. rewrite N in D. discriminate.
  - unfold f64_num in D. cbn in N, D. rewrite N in D. discriminate.
  - apply (bytes_reads fl enc dec Hm) in D; auto. tauto.
  - destruct (doc s); discriminate.
  - destruct (doc_list _ _); discriminate.
  - destruct (doc_list _ _); discriminate.
  - destruct (doc_list _ _); discriminate.
  - destruct (doc_list _ _); discriminate.
  - destruct (doc_entries _ _); discriminate.
  - destruct (doc_fields _ _); discriminate.
  - destruct (doc_fields _ _); discriminate.
  - destruct (fmt_text _); discriminate.
Qed.

(** ** The parts *)
Lemma list_good l : all_list strings_ok l -> forall js, doc_list doc l = Some js -> all_list skippable (map tok_doc js) -> Forall2 good l js.
Proof.
  induction l as [|x l IH]; intros Hv js D K; cbn [doc_list] in D; [injection D as <-; constructor|]. fold (doc_list doc) in D.
  destruct (doc x) as [j|] eqn:E; [|discriminate]. destruct (doc_list doc l) as [js'|] eqn:E'; [|discriminate]. injection D as <-.
  destruct Hv as [V1 V2], K as [K1 K2]. constructor; [split; auto|auto].
Qed.
Lemma items_good x xs j : items_of x = Some xs -> good x j -> exists js, j = JArr js /\ Forall2 good xs js.
Proof.
  intros I (Hv & Hd & K). destruct x; try discriminate; injection I as ->; cbn [strings_ok] in Hv; cbn in Hd; fold doc in Hd;
    (destruct (doc_list _ xs) as [js|] eqn:D; [|discriminate]); injection Hd as <-; exists js; (split; [auto|]); apply list_good; auto.
Qed.
Definition egood (e : sval * sval) (m : bytes * jv) : Prop := strings_ok (fst e) /\ key_doc (fst e) = Some (fst m) /\ good (snd e) (snd m).
Lemma fields_good fs : all_list (fun f : bytes * option sval => valid_utf8 (fst f) /\ match snd f with Some x => strings_ok x | None => True end) fs ->
  forall ms, doc_fields doc fs = Some ms -> all_list (fun m => (exists s, literal (fst m) s) /\ skippable (snd m)) (map (fun m => (esc_text (fst m), tok_doc (snd m))) ms) ->
  Forall2 egood (map (fun f => (SStr (fst f), snd f)) (written fs)) ms.
Proof.
  induction fs as [|[n [x|]] fs IH]; intros Hv ms D K; cbn [doc_fields] in D; fold (doc_fields doc) in D; unfold written; cbn [flat_map map app fst snd].
  - injection D as <-. constructor.
  - destruct (doc x) as [j|] eqn:E; [|discriminate]. destruct (doc_fields doc fs) as [ms'|] eqn:E'; [|discriminate]. injection D as <-.
    destruct Hv as [[V1 V1'] V2], K as [[_ K1] K2]. constructor; [|apply (IH V2 ms' eq_refl K2)]. split; [exact V1|]. split; [reflexivity|]. split; auto.
  - apply IH; auto. apply Hv.
Qed.
Lemma entries_good x es j : entries_of SNameMap x = Some es -> good x j -> exists ms, j = JObj ms /\ Forall2 egood es ms.
Proof.
  intros I (Hv & Hd & K). destruct x; try discriminate; cbn [entries_of] in I; cbn [strings_ok] in Hv; cbn in Hd; fold doc in Hd.
  - destruct (doc_entries _ ops) as [ms|] eqn:D; [|discriminate]. injection Hd as <-. exists ms. split; auto. cbn [tok_doc skippable] in K.
    revert es ms I D K. induction ops as [l IH] using list_ind_strong. intros es ms I D K. destruct l as [|[[] k] l]; cbn [pair_up] in I; try discriminate.
    { injection I as <-. injection D as <-. constructor. }
    destruct l as [|[[] v] l]; try discriminate. destruct (pair_up l) as [es'|] eqn:P; [|discriminate]. injection I as <-.
    cbn [doc_entries] in D. fold (doc_entries doc) in D. destruct (key_doc k) as [n|] eqn:En; [|discriminate]. destruct (doc v) as [jx|] eqn:Ej; [|discriminate].
    destruct (doc_entries doc l) as [ms'|] eqn:E'; [|discriminate]. injection D as <-. destruct Hv as (V1 & V2 & V3), K as [[_ K1] K2]. cbn [snd] in V1, V2.
    constructor; [|apply (IH l ltac:(cbn; lia) V3 es' ms' P E' K2)]. split; [exact V1|]. split; [exact En|]. split; auto.
  - destruct (doc_fields _ fields) as [ms|] eqn:D; [|discriminate]. injection Hd as <-. injection I as <-. exists ms. split; auto. apply fields_good; auto.
Qed.
Lemma variant_good x i n c j : variant_of x = Some (i, n, c) -> good x j -> valid_utf8 n /\ exists jc, j = JObj [(n, jc)] /\ good c jc.
Proof.
  intros V (Hv & Hd & K). destruct x; try discriminate; injection V as <- <- <-; cbn [strings_ok] in Hv; cbn in Hd; fold doc in Hd.
  - destruct (doc x) as [jc|] eqn:D; [|discriminate]. injection Hd as <-. split; [tauto|]. exists jc. split; auto. split; [tauto|]. split; auto. apply K.
  - destruct (doc_list _ _) as [js|] eqn:D; [|discriminate]. injection Hd as <-. split; [tauto|]. exists (JArr js). split; auto. split; [cbn; tauto|]. split; [|apply K].
    cbn. fold doc. rewrite D. auto.
  - destruct (doc_fields _ _) as [js|] eqn:D; [|discriminate]. injection Hd as <-. split; [tauto|]. exists (JObj js). split; auto. split; [cbn; tauto|]. split; [|apply K].
    cbn. fold doc. rewrite D. auto.
Qed.

(** ** Structs *)
Lemma fields_array look fs : forall ps (qs : list (val -> jv -> Prop)) l xs js k, fits_fields look has_default k fs ps l -> length qs = length fs ->
  (forall i n, look (k + i)%nat n = nth_error xs i) -> (length xs <= length fs)%nat -> Forall2 good xs js ->
  (forall i p q v x j, nth_error ps i = Some p -> nth_error qs i = Some q -> good x j -> p v x -> q v (tok_doc j)) ->
  length l = length fs /\ all3 (fun q v d => q v d) (firstn (length xs) qs) (firstn (length xs) l) (map tok_doc js) /\
  all2 (fun f v => attr_of f = FDefault v) (skipn (length xs) fs) (skipn (length xs) l).
Proof.
  induction fs as [|f fs IH]; intros [|p ps] [|q qs] [|v l] xs js k H L Hl Hx G Hp; cbn in H, L; try tauto; try discriminate.
  - destruct xs; cbn in *; [inversion G; subst; cbn; auto|lia].
  - destruct H as [H1 H2]. pose proof (Hl 0%nat (name_of f)) as Hl0. rewrite Nat.add_0_r in Hl0. rewrite Hl0 in H1. destruct xs as [|x xs]; cbn [nth_error] in H1.
    + destruct (IH ps qs l [] js (S k) H2 ltac:(lia)) as (A1 & A2 & A3); auto; cbn in *; try lia.
      { intros i n. replace (S (k + i)) with (k + S i)%nat by lia. rewrite Hl. destruct i; auto. }
      { intros i. apply (Hp (S i)). }
      repeat split; auto.
    + cbn [length] in Hx. inversion G as [|? j ? js' G1 G2]; subst. destruct (IH ps qs l xs js' (S k) H2 ltac:(lia)) as (A1 & A2 & A3); auto; try lia.
      { intros i n. replace (S k + i)%nat with (k + S i)%nat by lia. rewrite Hl. auto. }
      { intros i. apply (Hp (S i)). }
      cbn [length firstn skipn all3 map]. repeat split; auto; try lia. apply (Hp 0%nat p q v x); cbn; auto.
Qed.

Local Notation keyed := (map (fun m : bytes * jv => (esc_text (fst m), tok_doc (snd m)))).
Lemma by_name fs ps (qs : list (val -> jv -> Prop)) l (xs : list (bytes * sval)) ms : names_ok (map name_of fs) -> fits_fields (field_named xs) absent_ok 0 fs ps l -> length qs = length fs ->
  Forall2 (fun x m => fst x = fst m /\ valid_utf8 (fst m) /\ good (snd x) (snd m)) xs ms -> NoDup (map fst xs) ->
  (forall i p q v x j, nth_error ps i = Some p -> nth_error qs i = Some q -> good x j -> p v x -> q v (tok_doc j)) ->
  exists got, obj_fields (map name_of fs) qs (map (fun _ => None) fs) (keyed ms) got /\ all_fields fs got l.
Proof.
  intros (Hnd & Hu & _) Hf Hq H2 Hxs Hp. set (r := fun x : bytes * sval => find_name (fst x) (map name_of fs) 0).
  destruct (fits_fields_nth _ _ _ _ _ _ Hf) as (L1 & L2 & Hn).
  assert (X : forall xs' ms', Forall2 (fun x m => fst x = fst m /\ valid_utf8 (fst m) /\ good (snd x) (snd m)) xs' ms' -> incl xs' xs -> NoDup (map fst xs') ->
     forall got, length got = length fs -> (forall x i, In x xs' -> r x = Some i -> nth_error got i = Some None) ->
     obj_fields (map name_of fs) qs got (keyed ms') (mark l r xs' got)).
  { induction 1 as [|x m xs' ms' (E & V & G) _ IH]; intros Hi N got Lg H; [constructor|]. cbn [map] in N. inversion N as [|? ? N1 N2]; subst.
    assert (Hx : In x xs) by (apply Hi; left; auto). assert (Hi' : incl xs' xs) by (intros y Hy; apply Hi; right; auto).
    cbn [map]. change (mark l r (x :: xs') got) with (mark l r xs' (match r x with Some i => set_nth got i (nth_error l i) | None => got end)).
    destruct (r x) as [i|] eqn:R.
    - pose proof R as R'. unfold r in R'. apply find_name_nth in R'; auto. pose proof R' as R2. rewrite nth_error_map in R2. destruct (nth_error fs i) as [f|] eqn:Ef; [|discriminate].
      injection R2 as Enm. assert (Hlt : (i < length fs)%nat) by (apply nth_error_Some; congruence).
      destruct (nth_error l i) as [v|] eqn:Ev; [|apply nth_error_None in Ev; lia].
      destruct (nth_error ps i) as [p|] eqn:Ep; [|apply nth_error_None in Ep; lia].
      destruct (nth_error qs i) as [q|] eqn:Eq; [|apply nth_error_None in Eq; lia].
      specialize (Hn i f p v Ef Ep Ev). cbn [Nat.add] in Hn.
      rewrite Enm, (field_named_of xs i (fst x) (snd x)) in Hn; auto; [|destruct x; auto].
      eapply OF_field; [apply (H x i (or_introl eq_refl) R)|exact Eq|exact R'| |eapply Hp; eauto|].
      + rewrite E. apply esc_literal; auto.
      + apply IH; auto; [rewrite set_nth_len; auto|]. intros y j Hy Rj. rewrite nth_set_nth. destruct (Nat.eqb_spec i j) as [->|D].
        * exfalso. unfold r in Rj. apply find_name_nth in Rj; auto. assert (fst y = fst x) by congruence. apply N1. apply in_map_iff. exists y. auto.
        * apply (H y); auto. right. auto.
    - unfold r in R. apply find_name_out in R; auto. rewrite E in R. eapply OF_unknown; [apply esc_literal; exact V|exact R|apply G|].
      apply IH; auto. intros y j Hy. apply H. right. auto. }
  exists (mark l r xs (map (fun _ => None) fs)). split.
  - apply X; auto; [intros y Hy; auto|apply map_length|]. intros x i Hx R. unfold r in R. apply find_name_nth in R; auto. rewrite nth_error_map in R. destruct (nth_error fs i) eqn:Ef; [|discriminate].
    rewrite nth_error_map, Ef. auto.
  - apply all_fields_nth; [rewrite mark_len; apply map_length|auto|]. intros i f g v Ef Eg Ev.
    assert (Hlt : (i < length fs)%nat) by (apply nth_error_Some; congruence).
    destruct (nth_error ps i) as [p|] eqn:Ep; [|apply nth_error_None in Ep; lia]. specialize (Hn i f p v Ef Ep Ev). cbn [Nat.add] in Hn.
    apply mark_nth in Eg. destruct Eg as [(-> & e & He & R)|[E1 E2]].
    + rewrite Ev. auto.
    + rewrite nth_error_map, Ef in E1. injection E1 as <-. destruct (field_named xs i (name_of f)) as [x|] eqn:Lk; auto.
      apply field_named_in in Lk. destruct (E2 _ Lk). unfold r. cbn [fst]. apply find_name_nth; auto. rewrite nth_error_map, Ef. auto.
Qed.

(** ** Every type *)
Local Notation F := (js_fits (format_f32 fp) (format_f64 fp) (f32_from_str fl) (f64_from_str fl)).
Definition reads_all t : Prop := forall v x j, F t v x -> good x j -> reads t v (tok_doc j).

Lemma float_reads (parse : bytes -> option Z) nan x b j : js_float_as (format_f32 fp) (format_f64 fp) parse nan x b -> good x j ->
  (exists tok, tok_doc j = JNum tok /\ parse tok = Some b) \/ (tok_doc j = JNull /\ b = nan).
Proof.
  intros [[N ->]|[N (tok & T & P)]] G.
  - right. rewrite (null_doc _ _ N G). auto.
  - left. exists tok. split; auto. destruct G as (_ & D & _). destruct x; try discriminate; cbn in T, D, N; injection T as <-; injection D as <-; auto.
    + unfold f32_num. cbn. rewrite N. auto.
    + unfold f64_num. cbn. rewrite N. auto.
Qed.
Lemma key_reads k v x n : js_key_as k v x -> strings_ok x -> key_doc x = Some n -> key_as no_ws k v (esc_text n).
Proof.
  intros H Hs E. pose proof (key_valid x n Hs E) as V. destruct k; destruct v; cbn [js_key_as] in H; try contradiction; cbn [key_as].
  - rewrite E in H. injection H as ->. exists []. split; [reflexivity|]. destruct b; reflexivity.
  - destruct H as [Hk H]. rewrite E in H. injection H as ->. exists [], (dec_text z). rewrite esc_text_plain by apply dec_text_plain. split; [reflexivity|]. split; [auto|]. apply int_lit_dec; auto.
  - destruct H as [Hc H]. rewrite E in H. injection H as ->. split; auto. apply esc_literal; auto.
  - rewrite E in H. injection H as ->. apply esc_literal; auto.
  - rewrite E in H. injection H as ->. apply esc_literal; auto.
  - destruct H as (Hu & n' & Hn & H). rewrite E in H. injection H as ->. split; auto. exists n'. split; auto. apply esc_literal; auto.
Qed.
Lemma items_all t l xs js : reads_all t -> Forall2 (F t) l xs -> Forall2 good xs js -> Forall2 (reads t) l (map tok_doc js).
Proof.
  intros Ht H. revert js. induction H as [|v x l xs H _ IH]; intros js G; inversion G; subst; cbn; constructor; auto. eapply Ht; eauto.
Qed.
Lemma tuple_all ts : Forall (fun t => wf t -> reads_all t) ts -> all_list wf ts -> forall l xs js, all3 (fun p v x => p v x) (map F ts) l xs -> Forall2 good xs js ->
  all3 (fun p v d => p v d) (map reads ts) l (map tok_doc js).
Proof.
  induction 1 as [|t ts Ht _ IH]; intros W [|v l] [|x xs] js H G; cbn in H; try tauto; inversion G; subst; cbn; auto. destruct W as [W1 W2], H as [Ha Hb].
  split; [eapply Ht; eauto|]. eapply IH; eauto.
Qed.
Lemma struct_all fs l x j : Forall (fun f => wf (snd f) -> reads_all (snd f)) fs -> wf (TStruct fs) -> F (TStruct fs) (USeq l) x -> good x j -> reads (TStruct fs) (USeq l) (tok_doc j).
Proof.
  intros IH [Hn Hw] H G. assert (Hp : forall i p q v y jy, nth_error (map (fun f => F (snd f)) fs) i = Some p -> nth_error (map (fun f => reads (snd f)) fs) i = Some q ->
     good y jy -> p v y -> q v (tok_doc jy)).
  { intros i p q v y jy E1 E2. rewrite nth_error_map in E1, E2. destruct (nth_error fs i) as [f|] eqn:Ef; [|discriminate]. injection E1 as <-. injection E2 as <-. intros Gy Hy.
    apply nth_error_In in Ef. rewrite Forall_forall in IH. eapply IH; eauto. apply all_list_Forall in Hw. rewrite Forall_forall in Hw. apply Hw; auto. }
  assert (Hq : length (map (fun f => reads (snd f)) fs) = length fs) by apply map_length.
  unfold js_fits in H. cbn [fits] in H. fold F in H. apply bare_good in G.
  change (struct_as fs (map (fun f => reads (snd f)) fs) l (tok_doc j)).
  assert (ARR : forall xs, items_of (bare x) = Some xs /\ (length xs <= length fs)%nat /\ fits_fields (fun i _ => nth_error xs i) has_default 0 fs (map (fun f => F (snd f)) fs) l ->
     struct_as fs (map (fun f => reads (snd f)) fs) l (tok_doc j)).
  { intros xs (I & Hx & Hf). destruct (items_good _ _ _ I G) as (js & -> & Gx). left. exists (map tok_doc js). split; [reflexivity|].
    destruct (fields_array (fun i _ => nth_error xs i) fs _ (map (fun f => reads (snd f)) fs) l xs js 0 Hf Hq) as (A1 & A2 & A3); auto.
    rewrite map_length. assert (El : length js = length xs) by (clear - Gx; induction Gx; cbn; auto). rewrite El. auto. }
  assert (OBJ : forall ms xs, j = JObj ms -> fits_fields (field_named xs) absent_ok 0 fs (map (fun f => F (snd f)) fs) l -> NoDup (map fst xs) ->
     Forall2 (fun x m => fst x = fst m /\ valid_utf8 (fst m) /\ good (snd x) (snd m)) xs ms -> struct_as fs (map (fun f => reads (snd f)) fs) l (tok_doc j)).
  { intros ms xs -> Hf Hd H2. destruct (by_name fs _ (map (fun f => reads (snd f)) fs) l xs ms Hn Hf Hq H2 Hd Hp) as (got & A1 & A2).
    right. eexists. exists got. split; [reflexivity|]. auto. }
  destruct (bare x) as [ | | | | | | | | | | | | | | |len its|len its|len its| |len ops|len its| | | ] eqn:Hx;
    try (destruct H as (xs & I & _); discriminate I); try (destruct H as (xs & H); apply (ARR xs H)).
  - destruct H as (xs & M & Hd & Hf). cbn [members_of] in M. destruct (pair_up ops) as [es|] eqn:P; [|discriminate].
    destruct (entries_good (SMap len ops) es j P G) as (ms & Ej & Ge). apply (OBJ ms xs Ej Hf Hd). clear - M Ge. revert xs M.
    induction Ge as [|e m es ms (S1 & K & G) _ IH]; intros xs M; [injection M as <-; constructor|]. apply MpBytes.omap_cons in M. destruct M as (y & zs & E1 & M & ->).
    destruct (js_text (bare (fst e))) as [n|] eqn:T; [|discriminate]. injection E1 as <-. constructor; auto. cbn [fst snd]. rewrite (text_key _ _ _ T K). split; auto. split; auto. eapply key_valid; eauto.
  - destruct H as [Hd Hf]. destruct (entries_good (SStruct len its) _ j eq_refl G) as (ms & Ej & Ge). apply (OBJ ms (written its) Ej Hf Hd). clear - Ge.
    revert ms Ge. induction (written its) as [|[n y] xs IH]; intros ms Ge; cbn [map] in Ge; inversion Ge as [|? m ? ms' (S1 & K & G) G']; subst; constructor; auto. cbn [fst snd] in *. injection K as ->. auto.
Qed.

Theorem fits_reads t : wf t -> reads_all t.
Proof.
  unfold reads_all. induction t as [ |k| | | | | | | |t IH|t IH|t IH|l IH|l IH|k v IHk IHv|fs IH|vs IH] using ty_ind'; intros Hw u x j H G;
    try (destruct u; unfold js_fits in H; cbn [fits] in H; try contradiction; [idtac]); try (destruct u; contradiction).
  - apply bare_good in G. rewrite H in G. destruct G as (_ & [= <-] & _). reflexivity.
  - destruct H as [Hk [k' E]]. apply bare_good in G. rewrite E in G. destruct G as (_ & [= <-] & _). eexists. split; [reflexivity|]. apply int_lit_dec; auto.
  - apply bare_good in G. exact (float_reads _ _ _ _ _ H G).
  - apply bare_good in G. exact (float_reads _ _ _ _ _ H G).
  - destruct H as [Hc Ht]. apply bare_good in G. destruct (text_doc _ _ _ Ht G) as [V ->]. eexists. split; [reflexivity|]. split; auto. apply esc_literal; auto.
  - apply bare_good in G. destruct (text_doc _ _ _ H G) as [V ->]. eexists. split; [reflexivity|]. apply esc_literal; auto.
  - apply bare_good in G. rewrite H in G. destruct G as (V & D & _). apply (bytes_reads fl enc dec Hm); auto.
  - apply bare_good in G. rewrite (null_doc _ _ H G). reflexivity.
  - apply bare_good in G. rewrite (null_doc _ _ H G). reflexivity.
  - destruct u; unfold js_fits in H; cbn [fits] in H; try contradiction.
    + apply bare_good in G. rewrite (null_doc _ _ H G). reflexivity.
    + destruct H as [N H]. split; [eapply IH; eauto|]. eapply not_null; eauto.
  - assert (H' : F t u x) by (destruct u; exact H). replace (reads (TNewtype t) u (tok_doc j)) with (reads t u (tok_doc j)) by (destruct u; reflexivity). eapply IH; eauto.
  - destruct H as (xs & I & H). apply bare_good in G. destruct (items_good _ _ _ I G) as (js & -> & Gx). eexists. split; [reflexivity|]. eapply items_all; eauto. exact (IH Hw).
  - destruct H as (xs & I & H). apply bare_good in G. destruct (items_good _ _ _ I G) as (js & -> & Gx). eexists. split; [reflexivity|]. eapply tuple_all; eauto. apply Hw.
  - destruct H as (xs & I & H). apply bare_good in G. destruct (items_good _ _ _ I G) as (js & -> & Gx). eexists. split; [reflexivity|]. eapply tuple_all; eauto. apply Hw.
  - destruct H as (es & I & H). apply bare_good in G. destruct (entries_good _ _ _ I G) as (ms & -> & Ge). destruct Hw as [Wk Wv]. eexists. split; [reflexivity|].
    clear - H Ge IHv Wv. revert ms Ge. induction H as [|e f l es [H1 H2] _ IH]; intros ms Ge; inversion Ge as [|? m ? ms' (S1 & K & G1) Ge']; subst; cbn [map]; constructor; auto.
    cbn [fst snd]. split; [eapply key_reads; eauto|eapply IHv; eauto].
  - eapply struct_all; eauto.
  - cbn [reads_as]. rewrite nth_error_map in *. destruct (nth_error vs i) as [f|] eqn:Ef; [|contradiction]. cbn [option_map] in *.
    apply bare_good in G. destruct Hw as [_ Hw].
    assert (Hv : forall i0 n c, variant_of (bare x) = Some (i0, n, c) -> same_variant SNameMap (map name_of vs) i i0 n -> F (snd f) u c ->
       exists raw d, tok_doc j = JObj [(raw, d)] /\ literal raw (name_of f) /\ reads (snd f) u d).
    { intros i0 n c V S1 Hf. destruct (variant_good _ _ _ _ _ V G) as (Vn & jc & -> & Gc). exists (esc_text n), (tok_doc jc). split; [reflexivity|].
      cbn in S1. rewrite nth_error_map, Ef in S1. injection S1 as ->. split; [apply esc_literal; auto|].
      apply nth_error_In in Ef. rewrite Forall_forall in IH. eapply IH; eauto. apply all_list_Forall in Hw. rewrite Forall_forall in Hw. apply Hw in Ef. tauto. }
    destruct (attr_of f); try (destruct H as (j0 & n & c & V & S1 & Hf); eapply Hv; eauto).
    destruct H as [-> H]. split; auto. assert (exists n, js_text (bare x) = Some n /\ nth_error (map name_of vs) i = Some n) as (n & T & Hn) by (clear - H; destruct (bare x); try exact H; eexists; split; [reflexivity|exact H]).
    destruct (text_doc _ _ _ T G) as [V ->]. rewrite nth_error_map, Ef in Hn. injection Hn as ->. eexists. split; [reflexivity|]. apply esc_literal; auto.
Qed.
End E.

(** The value read is the one that fits. *)
Theorem evolves ar fl fp any_f32 enc dec t v x out w1 w2 : matching enc dec -> printer_ok fp -> wf t -> strings_ok x -> maps_ok x ->
  js_to_string fp enc x = Ok out -> js_fits (format_f32 fp) (format_f64 fp) (f32_from_str fl) (f64_from_str fl) t v x -> any_ws w1 -> any_ws w2 ->
  (dec = Base64Decoder -> 3 * zlen (w1 ++ out ++ w2) <= usize_max ar) ->
  exists N, forall fuel, (N <= fuel)%nat ->
    exists s, js_from_mut_slice ar fl any_f32 dec fuel (denote JDeserializeError t) (w1 ++ out ++ w2) = Done s (Ok v).
Proof.
  intros Hm P W Hs Hk E Hf W1 W2 R. pose proof (to_string_canon fp enc x (matching_pass _ _ Hm) P Hs Hk) as C.
  destruct (js_value fp enc x) as [j|] eqn:Ej; [|destruct C as (e & C & _); congruence].
  destruct C as (out' & C & T). assert (out' = out) by congruence. subst out'.
  eapply (from_slice_reads ar fl any_f32 dec no_ws); eauto; [intros w ->; constructor| |apply raw_loose, canon_raw; exact T].
  eapply (fits_reads fp fl enc dec Hm t W v x j Hf). split; auto. split; auto. eapply (proj1 canon_skippable). exact T.
Qed.

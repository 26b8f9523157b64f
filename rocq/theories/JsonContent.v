(** Untagged enums in JSON (C65). *)
From Verif Require Import Prelude PreludeFacts Utf8Spec Utf8 Utf8Facts SerdeSer SerdeDe FloatOps Arch MpSpec Base64Spec JsonSpec JsonTypeSpec JsonFacts JsonSer JsonErrMap
  JsonSerFacts JsonDe JsonTyped Types TypesFacts MpTypeSpec MpTyped MpTypedSer JsonTypedTop JsonTypedSer JsonAnySpec JsonAny JsonReadBack JsonErrMap Content ContentSpec ContentFacts.
Ltac Zify.zify_post_hook ::= Z.div_mod_to_equations.

Lemma number_det any_f32 float_of w1 w2 t : number_as any_f32 float_of w1 t -> number_as any_f32 float_of w2 t -> w1 = w2.
Proof.
  assert (D : forall ds, digits ds -> ~ has_float_char ds).
  { intros ds [_ H] (c & I & X). rewrite Forall_forall in H. specialize (H c I). unfold is_digit in H. lia. }
  assert (E : forall ds, digits ds -> ~ has_float_char (45 :: ds)).
  { intros ds H (c & [<-|I] & X); [lia|]. apply (D ds H). exists c. auto. }
  assert (F : forall ds, ~ digits (45 :: ds)).
  { intros ds [_ H]. inversion H as [|? ? Q _]; subst. unfold is_digit in Q. lia. }
  intros H1 H2. destruct H1; inversion H2; subst; auto; try congruence; try (destruct any_f32; congruence); try (exfalso; eapply D; eauto; fail); try (exfalso; eapply E; eauto; fail); exfalso; eapply F; eauto.
Qed.
Lemma number_dec any_f32 float_of w z : number_as any_f32 float_of w (dec_text z) -> - 2 ^ 63 <= z < 2 ^ 64 -> w = UInt z.
Proof.
  intros H B. apply (number_det _ _ _ _ _ H). unfold dec_text. destruct (Z.ltb_spec z 0) as [L|L].
  - destruct (dec_nat_spec (- z)) as [[P _] E]; [lia|]. replace z with (- dec_val (dec_nat (- z))) at 1 by lia. apply N_neg; [exact P|lia].
  - destruct (dec_nat_spec z L) as [[P _] E]. replace z with (dec_val (dec_nat z)) at 1 by lia. apply N_pos; [exact P|lia].
Qed.

Section C.
Context (fo : float_ops) (any_f32 : bool) (float_of : bytes -> option Z) (fp : float_printer) (enc : byte_encoder).
Local Notation doc := (js_value fp enc).
Local Notation get := (from_content fo).
Local Notation value := (value_as any_f32 float_of).
Definition good32 (b : Z) : Prop := finite32 b /\ told32 fo any_f32 float_of (format_f32 fp b) b.
Definition good64 (b : Z) : Prop := finite64 b /\ told64 fo any_f32 float_of (format_f64 fp b) b.
Local Notation floats := (all_floats good32 good64).
Local Notation keys := (text_keys (enc = ArrayByteEncoder)).

(** What is written for [v] is read back from its content. *)
Definition jback (t : ty) : Prop := wf t -> strict t -> keys t -> forall v j w, hastype t v -> floats (trace t v) -> doc (trace t v) = Some j -> value w j ->
  get t w = Some v /\ exists s, shape_of w = Some s /\ In s (written Arr Obj t).

Lemma shape_not_null t : ~ nullable t -> ~ In Null (written Arr Obj t).
Proof. induction t using ty_ind'; cbn; intros N; try (intuition discriminate); auto. Qed.

(** ** Keys *)
Lemma key_back k : wf k -> text_key k -> forall v raw, hastype k v -> key_doc (trace k v) = Some raw -> get k (UStr raw) = Some v.
Proof.
  induction k as [ |k| | | | | | | |t IH|t IH|t IH|ts IH|ts IH|kt vt IHk IHv|fs IH|vs IH] using ty_ind'; intros W T v raw H E; cbn in T; try contradiction.
  - destruct v; cbn [hastype] in H; try tauto. cbn in E. injection E as <-. cbn. rewrite (proj2 (char_from_str_spec (utf8_char c) c)); auto.
  - destruct v; cbn [hastype] in H; try tauto. cbn in E. injection E as <-. reflexivity.
  - exact (IH W T v raw H E).
  - destruct v; cbn [hastype] in H; try tauto. cbn [trace] in E. destruct W as [Wn W]. rewrite nth_error_map in *.
    destruct (nth_error vs i) as [[[n kd] ct]|] eqn:En; cbn [option_map] in *; [|tauto]. cbn [name_of attr_of fst snd] in *.
    destruct (all_list_In' _ _ W _ (nth_error_In _ _ En)) as [Wc Kc]. cbn [attr_of fst snd] in Kc.
    unfold variant_call in E. destruct kd; [|discriminate|destruct (trace ct v); discriminate|destruct (trace ct v); discriminate].
    cbn in E. injection E as <-. cbn. rewrite (find_name_spec _ (proj1 Wn) i n 0); [|rewrite nth_error_map, En; reflexivity].
    cbn [Nat.add]. rewrite nth_error_map, En. cbn. destruct ct; cbn in Kc; try contradiction. destruct v; cbn in H; try contradiction. reflexivity.
Qed.

(** ** Structs *)
Local Notation ps := (map (fun f : bytes * fattr * ty => get (snd f))).
Definition gv (f : bytes * fattr * ty) (v : val) : option val := if skipped (attr_of f) v then None else Some v.
Definition kv (e : val * val) (m : bytes * jv) : Prop := fst e = UStr (fst m) /\ value (snd e) (snd m).
Definition fback (f : bytes * fattr * ty) (v : val) : Prop :=
  skipped (attr_of f) v = false -> forall j w, doc (trace (snd f) v) = Some j -> value w j -> get (snd f) w = Some v.
Lemma fields_back fs : names_ok (map name_of fs) -> forall fs2 l fs1 g1 js ws, fs = fs1 ++ fs2 -> length g1 = length fs1 -> all2 fback fs2 l ->
  doc_fields doc (zip item fs2 l) = Some js -> Forall2 kv ws js ->
  content_fields (map name_of fs) (ps fs) (g1 ++ map (fun _ => None) fs2) ws = Some (g1 ++ zip gv fs2 l).
Proof.
  intros (D & _ & _). induction fs2 as [|f fs2 IH]; intros [|v l] fs1 g1 js ws Hfs Hg H E F; cbn [all2] in H; try tauto.
  - cbn in E. injection E as <-. inversion F; subst. reflexivity.
  - destruct H as [Hf H]. cbn [zip map] in *. unfold item at 1 in E. unfold gv at 1. unfold fback in Hf.
    destruct (skipped (attr_of f) v) eqn:Es; cbn [doc_fields] in E.
    + specialize (IH l (fs1 ++ [f]) (g1 ++ [None]) js ws). rewrite <- !app_assoc in IH. apply IH; auto. rewrite !app_length. cbn. lia.
    + destruct (doc (trace (snd f) v)) as [j|] eqn:Ej; [|discriminate]. cbn in E.
      destruct (doc_fields doc (zip item fs2 l)) as [js'|] eqn:Ejs; [|discriminate]. injection E as <-.
      inversion F as [|[k w] ? ws' ? [K V] F']; subst ws. cbn [fst snd] in K, V. subst k.
      cbn [content_fields content_ident]. rewrite (find_name_spec (map name_of fs) D (length fs1) (name_of f) 0); [|rewrite nth_error_map, Hfs, nth_error_mid; reflexivity].
      cbn [Nat.add]. rewrite nth_error_map, Hfs, nth_error_mid. cbn [option_map]. rewrite <- Hg, nth_error_mid, (Hf eq_refl j w eq_refl V), set_nth_app, <- Hfs.
      specialize (IH l (fs1 ++ [f]) (g1 ++ [Some v]) js' ws'). rewrite <- !app_assoc in IH. rewrite <- !app_assoc. apply IH; auto. rewrite !app_length. cbn. lia.
Qed.
Lemma finish_gv fs : forall l, length fs = length l -> finish (zip gv fs l) (map absent_val fs) = Some l.
Proof.
  induction fs as [|f fs IH]; intros [|v l] H; cbn in H; try discriminate; cbn; auto. unfold gv at 1. rewrite (IH l) by lia. destruct (skipped (attr_of f) v) eqn:Es.
  - unfold absent_val. rewrite (skipped_eq f v Es). reflexivity.
  - destruct (absent_val f); reflexivity.
Qed.

Lemma list_back {A} (f : A -> sval) g l : Forall (fun v => forall j w, doc (f v) = Some j -> value w j -> g w = Some v) l ->
  forall js ws, doc_list doc (map f l) = Some js -> Forall2 value ws js -> content_list g ws = Some l.
Proof.
  induction 1 as [|v l Hv _ I]; intros js ws E F; cbn in E.
  - injection E as <-. inversion F; subst. reflexivity.
  - destruct (doc (f v)) as [j|] eqn:Ej; [|discriminate]. cbn in E. fold (doc_list doc (map f l)) in E. destruct (doc_list doc (map f l)) as [js'|] eqn:Ejs; [|discriminate].
    injection E as <-. inversion F as [|w ? ws' ? V F']; subst. cbn. rewrite (Hv j w eq_refl V). fold (content_list g ws'). rewrite (I js' ws' eq_refl F'). reflexivity.
Qed.
Lemma jtuple_back ts : Forall jback ts -> all_list wf ts -> all_list strict ts -> all_list keys ts ->
  forall l js ws, all2 (fun h v => h v) (map hastype ts) l -> all_list floats (zip (fun f v => f v) (map trace ts) l) ->
  doc_list doc (zip (fun f v => f v) (map trace ts) l) = Some js -> Forall2 value ws js -> content_tuple (map get ts) ws = Some l.
Proof.
  induction 1 as [|t ts B _ IH]; intros W S N [|v l] js ws H Hf D E; cbn in H; try tauto.
  - cbn in D. injection D as <-. inversion E; subst. reflexivity.
  - destruct H as [H1 H2], W as [W1 W2], S as [S1 S2], N as [N1 N2]. cbn [map zip doc_list all_list] in D, Hf. destruct Hf as [F1 F2].
    destruct (doc (trace t v)) as [j|] eqn:Ej; [|discriminate]. cbn in D. fold (doc_list doc (zip (fun f v => f v) (map trace ts) l)) in D.
    destruct (doc_list doc _) as [js'|] eqn:Ejs; [|discriminate]. injection D as <-.
    inversion E as [|w ? ws' ? V F']; subst. cbn [map content_tuple]. destruct (B W1 S1 N1 v j w H1 F1 Ej V) as [-> _]. rewrite (IH W2 S2 N2 l js' ws' H2 F2 Ejs F'). reflexivity.
Qed.

Theorem jcontent_back t : jback t.
Proof.
  induction t as [ |k| | | | | | | |t IH|t IH|t IH|ts IH|ts IH|kt vt IHk IHv|fs IH|vs IH] using ty_ind'; intros W S N v j w H Hf D E.
  11:{ exact (IH W S N v j w H Hf D E). }
  all: destruct v; cbn [hastype] in H; try tauto; cbn [trace] in D, Hf.
  all: try (injection D as <-; inversion E; subst; (split; [reflexivity|eexists; split; [reflexivity|cbn; auto]]); fail).
  - injection D as <-. inversion E as [| |? ? Nm| | |]; subst. apply number_dec in Nm; [|unfold in_ikind in H; destruct k; cbn in H; lia]. subst w.
    split; [cbn; rewrite (proj2 (in_ikindb_spec k z) H); reflexivity|eexists; split; [reflexivity|cbn; auto]].
  - injection D as <-. destruct Hf as [Fi (w0 & Nm & Fw)]. unfold f32_num, finite32 in *. destruct (Z.eqb_spec (bits / 2 ^ 23 mod 256) 255); [contradiction|]. cbn in E.
    inversion E as [| |? ? Nm'| | |]; subst. rewrite (number_det _ _ _ _ _ Nm' Nm). destruct w0; try contradiction; subst; (split; [reflexivity|eexists; split; [reflexivity|cbn; auto]]).
  - injection D as <-. destruct Hf as [Fi (w0 & Nm & Fw)]. unfold f64_num, finite64 in *. destruct (Z.eqb_spec (bits / 2 ^ 52 mod 2048) 2047); [contradiction|]. cbn in E.
    inversion E as [| |? ? Nm'| | |]; subst. rewrite (number_det _ _ _ _ _ Nm' Nm). destruct w0; try contradiction; subst; (split; [reflexivity|eexists; split; [reflexivity|cbn; auto]]).
  - injection D as <-. inversion E; subst. split; [|eexists; split; [reflexivity|cbn; auto]]. cbn. rewrite (proj2 (char_from_str_spec (utf8_char c) c)); auto.
  - cbn in N. rewrite N in D. cbn in D. injection D as <-. inversion E as [| | | |ws ? F|]; subst. split; [|eexists; split; [reflexivity|cbn; auto]].
    cbn [from_content]. match goal with |- option_map _ (content_list ?g ws) = _ => enough (G : content_list g ws = Some b) by (rewrite G; reflexivity) end.
    destruct H as [H _]. clear E Hf. revert ws F. induction H as [|x s Hx _ I]; intros ws F; cbn in F; inversion F as [|w ? ws' ? V F']; subst; [reflexivity|].
    inversion V as [| |? ? Nm| | |]; subst. apply number_dec in Nm; [|unfold is_byte in Hx; lia]. subst w. cbn [content_list].
    rewrite (proj2 (in_ikindb_spec U8 x)) by (unfold is_byte in Hx; unfold in_ikind; cbn; lia). rewrite (I ws' F'). reflexivity.
  - destruct S as [S Nn]. cbn [wf text_keys] in *. destruct (IH W S N v j w H Hf D E) as (G & s & Es & Is). split; [|exists s; split; [exact Es|right; exact Is]].
    cbn [from_content]. rewrite G. assert (s <> Null) by (intros ->; exact (shape_not_null t Nn Is)). destruct w; cbn in Es; try reflexivity; congruence.
  - cbn in D. destruct (doc_list _ _) as [js|] eqn:Ejs; [|discriminate]. injection D as <-. inversion E as [| | | |ws ? F|]; subst. split; [|eexists; split; [reflexivity|cbn; auto]].
    destruct H as [H _]. cbn [from_content]. rewrite (list_back (trace t) (get t) l) with js ws; auto. cbn [all_floats] in Hf.
    clear Ejs E F. induction H as [|v l Hv _ I]; constructor; cbn in Hf; [|apply I; tauto]. intros j w' Ej V. apply (IH W S N v j w'); tauto.
  - cbn in D. destruct (doc_list _ _) as [js|] eqn:Ejs; [|discriminate]. injection D as <-. inversion E as [| | | |ws ? F|]; subst. split; [|eexists; split; [reflexivity|cbn; auto]].
    cbn [from_content]. rewrite (jtuple_back ts IH (proj1 W) S N l js ws H Hf Ejs F). reflexivity.
  - cbn in D. destruct (doc_list _ _) as [js|] eqn:Ejs; [|discriminate]. injection D as <-. inversion E as [| | | |ws ? F|]; subst. split; [|eexists; split; [reflexivity|cbn; auto]].
    cbn [from_content]. rewrite (jtuple_back ts IH (proj1 W) S N l js ws H Hf Ejs F). reflexivity.
  - cbn in D. destruct (doc_entries _ _) as [js|] eqn:Ejs; [|discriminate]. injection D as <-. inversion E as [| | | | |ws ? F]; subst. split; [|eexists; split; [reflexivity|cbn; auto]].
    destruct H as [H _], W as [W1 W2], S as [S1 S2], N as [N1 N2]. cbn [all_floats] in Hf. cbn [from_content].
    match goal with |- option_map UMap (?f ws) = _ => enough (G : f ws = Some l) by (rewrite G; reflexivity) end. clear E.
    revert js ws Hf Ejs F. induction H as [|[x y] l [Hx Hy] _ I]; intros js ws Hf Ejs F; cbn in Ejs.
    + injection Ejs as <-. inversion F; subst. reflexivity.
    + destruct (key_doc (trace kt x)) as [raw|] eqn:Er; [|discriminate]. destruct (doc (trace vt y)) as [jx|] eqn:Ej; [|discriminate]. cbn in Ejs.
      destruct (doc_entries _ _) as [js'|] eqn:Ejs'; [|discriminate]. injection Ejs as <-. inversion F as [|[k w] ? ws' ? [K V] F']; subst. cbn [fst snd] in *. subst k.
      cbn in Hf. rewrite (key_back kt W1 N1 x raw Hx Er). destruct (IHv W2 S2 N2 y jx w Hy (proj1 (proj2 Hf)) Ej V) as [-> _]. rewrite (I js' ws'); tauto.
  - cbn in D. destruct (doc_fields _ _) as [js|] eqn:Ejs; [|discriminate]. injection D as <-. inversion E as [| | | | |ws ? F]; subst. split; [|eexists; split; [reflexivity|cbn; auto]].
    destruct W as [Wn W]. cbn [strict text_keys] in S, N. unfold struct_call in Hf. cbn [all_floats] in Hf. rewrite zip_map in Ejs, Hf. fold item in Ejs, Hf.
    assert (Hl : length fs = length l). { apply all2_length in H. rewrite map_length in H. auto. }
    cbn [from_content]. unfold content_struct. assert (Q : content_fields (map name_of fs) (ps fs) ([] ++ map (fun _ => None) fs) ws = Some ([] ++ zip gv fs l)).
    { apply (fields_back fs Wn fs l [] [] js ws); auto. clear Wn Ejs E F Hl. revert l H Hf. induction IH as [|f fs B _ I]; intros [|v l] H Hf; cbn in *; try tauto.
      destruct H as [H1 H2], W as [[W1 _] W2], S as [S1 S2], N as [N1 N2], Hf as [F1 F2]. split; [|auto]. intros Sk j w' D' E'.
      unfold item in F1. rewrite Sk in F1. cbn in F1. apply (B W1 S1 N1 v j w'); auto. }
    cbn [app] in Q. rewrite Q, (finish_gv fs l Hl). reflexivity.
  - destruct W as [Wn W]. rewrite nth_error_map in D, H, Hf. destruct (nth_error vs i) as [[[n kd] ct]|] eqn:En; cbn [option_map] in D, H, Hf; [|tauto]. cbn [name_of attr_of fst snd] in *.
    pose proof (nth_error_In _ _ En) as Hin. rewrite Forall_forall in IH. specialize (IH _ Hin). cbn [snd] in IH.
    destruct (all_list_In' _ _ W _ Hin) as [Wc Kc]. pose proof (all_list_In' _ _ S _ Hin) as Sc. pose proof (all_list_In' _ _ N _ Hin) as Nc. cbn [snd attr_of fst] in *.
    assert (F : find_name n (map name_of vs) 0 = Some i).
    { rewrite (find_name_spec _ (proj1 Wn) i n 0); auto. rewrite nth_error_map, En. reflexivity. }
    assert (G : forall c, doc (trace ct v) = Some c -> floats (trace ct v) -> j = JObj [(n, c)] ->
      get (TEnum vs) w = Some (UVar i v) /\ exists s, shape_of w = Some s /\ In s (written Arr Obj (TEnum vs))).
    { intros c Ec Fc ->. inversion E as [| | | | |ws ? F2]; subst. inversion F2 as [|[k wc] ? ? ? [K V] F3]; subst. inversion F3; subst. cbn [fst snd] in K, V. subst k.
      split; [|eexists; split; [reflexivity|cbn; auto]]. cbn [from_content content_ident]. rewrite F. rewrite nth_error_map, En. cbn [option_map snd].
      destruct (IH Wc Sc Nc v c wc H Fc Ec V) as [-> _]. reflexivity. }
    unfold variant_call in D, Hf. destruct kd.
    + cbn in D. injection D as <-. inversion E; subst. split; [|eexists; split; [reflexivity|cbn; auto]]. cbn. rewrite F, nth_error_map, En. cbn.
      destruct ct; cbn in Kc; try contradiction. destruct v; cbn in H; try contradiction. reflexivity.
    + cbn in D. destruct (doc (trace ct v)) as [jx|] eqn:Ej; [|discriminate]. injection D as <-. apply (G jx); auto.
    + destruct ct; try (cbn in Kc; tauto). destruct v; try (cbn in H; tauto). cbn in D.
      destruct (doc_list _ _) as [js|] eqn:Ejs; [|discriminate]. injection D as <-. apply (G (JArr js)); auto. cbn. rewrite Ejs. reflexivity.
    + destruct ct; try (cbn in Kc; tauto). destruct v; try (cbn in H; tauto). cbn in D.
      destruct (doc_fields _ _) as [js|] eqn:Ejs; [|discriminate]. injection D as <-. apply (G (JObj js)); auto. cbn. rewrite Ejs. reflexivity.
Qed.
End C.

Lemma all_floats_mono (p q p' q' : Z -> Prop) v : (forall b, p b -> p' b) -> (forall b, q b -> q' b) -> all_floats p q v -> all_floats p' q' v.
Proof.
  intros Hp Hq. induction v using sval_ind'; cbn; auto.
  1,2,3,4,5: match goal with IH : Forall _ _ |- _ => induction IH; cbn in *; intuition end.
  all: match goal with IH : Forall _ _ |- _ => induction IH as [|[? [?|]] ? ? ? ?]; cbn in *; intuition end.
Qed.

(** ** Running *)
Section Top.
Context (ar : arch) (fl : float_parser) (fo : float_ops) (any_f32 : bool) (dec : byte_decoder).
Local Notation run fuel := (js_run ar fl any_f32 dec fuel).
Local Notation float_of := (if any_f32 then f32_from_str fl else f64_from_str fl).

Lemma js_then fuel (g : result val js_de_error -> result val js_de_error) b s :
  jr_de (run fuel) b (then_ (any JDeserializeError) g) s =
  match jr_de (run fuel) b (any JDeserializeError) s with Done s' r => Done s' (g r) | Panic => Panic | OutOfFuel => OutOfFuel end.
Proof.
  destruct fuel; [reflexivity|]. cbn [js_run jr_de]. unfold any, then_, j_step_de, dpost, dtry, dlift.
  match goal with |- match ?x with _ => _ end = _ => destruct x; reflexivity end.
Qed.
Lemma js_from_buffered fuel f input s w : js_from_mut_slice ar fl any_f32 dec fuel (any JDeserializeError) input = Done s (Ok w) ->
  exists s', js_from_mut_slice ar fl any_f32 dec fuel (buffered JDeserializeError f) input =
    Done s' (match f w with Some v => Ok v | None => Err JDeserializeError end).
Proof.
  unfold js_from_mut_slice, dbind. unfold buffered. rewrite js_then. destruct (jr_de _ _ _ _) as [s' [w'|e]| |]; try discriminate.
  intros E. destruct (j_end s') as [s2 [tl|]| |] eqn:Ee; try discriminate. injection E as -> <-.
  destruct (f w'); eexists; reflexivity.
Qed.

Theorem js_untagged_trip fp enc vs i k t v out w1 w2 :
  enc <> PassThroughByteEncoder -> printer_ok fp -> nth_error vs i = Some (k, t) -> kind_ok k t -> wf t -> strict t -> hastype t v ->
  text_keys (enc = ArrayByteEncoder) t -> all_floats (good32 fo any_f32 float_of fp) (good64 fo any_f32 float_of fp) (trace t v) ->
  apart (firstn i vs) (written Arr Obj t) ->
  js_to_string fp enc (untagged_trace vs (UVar i v)) = Ok out -> any_ws w1 -> any_ws w2 ->
  (dec = Base64Decoder -> 3 * zlen (w1 ++ out ++ w2) <= usize_max ar) ->
  exists N, forall fuel, (N <= fuel)%nat ->
    exists s, js_from_mut_slice ar fl any_f32 dec fuel (untagged fo JDeserializeError vs) (w1 ++ out ++ w2) = Done s (Ok (UVar i v)).
Proof.
  intros Ne P En K W S H T F Ap E W1 W2 R. cbn [untagged_trace] in E. rewrite En in E. cbn [snd] in E. destruct (typed_strings t W v H) as [St M].
  assert (F' : all_floats (fun b => finite32 b -> exists w, number_as any_f32 float_of w (format_f32 fp b))
             (fun b => finite64 b -> exists w, number_as any_f32 float_of w (format_f64 fp b)) (trace t v)).
  { revert F. apply all_floats_mono; intros b [_ (w & Nw & _)] _; exists w; exact Nw. }
  destruct (js_read_back ar fl fp any_f32 enc dec (trace t v) out w1 w2 Ne P St M F' E W1 W2 R) as (j & w & D & V & N & HN).
  exists N. intros fuel Hf. destruct (HN fuel Hf) as [s Rs]. destruct (js_from_buffered fuel (untagged_pick fo vs 0) _ _ _ Rs) as [s' Rs']. exists s'. unfold untagged. rewrite Rs'. clear Rs Rs' HN Hf.
  destruct (jcontent_back fo any_f32 float_of fp enc t W S T v j w H F D V) as (B & sh & Sh & In_).
  assert (Vr : untagged_variant fo (k, t) w = Some v).
  { unfold untagged_variant. cbn [fst snd]. destruct k; auto.
    - destruct t; cbn in K; try contradiction. destruct v; cbn in H; try contradiction. cbn in D. injection D as <-. inversion V; subst. reflexivity.
    - destruct t; cbn in K; try contradiction. destruct In_ as [I|[]]. subst sh. destruct w; try discriminate. exact B. }
  assert (Pk : untagged_pick fo (firstn i vs ++ (k, t) :: skipn (Datatypes.S i) vs) 0 w = Some (UVar (0 + length (firstn i vs)) v)) by (eapply pick_first; eauto).
  rewrite <- (vs_split vs i (k, t) En) in Pk. rewrite Pk. assert (Li : (i < length vs)%nat) by (apply nth_error_Some; congruence). rewrite firstn_length_le by lia. reflexivity.
Qed.

(** Bytes written as text are read as that text. *)
Lemma hex_longer b : (length b <= length (hex_text b))%nat /\ (b <> [] -> (length b < length (hex_text b))%nat).
Proof. induction b as [|x b IH]; cbn; [split; [lia|tauto]|]. unfold hex_text in IH. split; lia. Qed.
Lemma b64_longer n : forall b, (length b <= n)%nat -> (length b <= length (b64_digits b))%nat /\ (b <> [] -> (length b < length (b64_digits b))%nat).
Proof.
  induction n as [|n IH]; intros [|x [|y [|z b]]] L; cbn in L |- *; try (split; [lia|intros; try lia; tauto]).
  destruct (IH b) as [IH1 _]; [lia|]. split; lia.
Qed.
Lemma bytes_text enc b : In enc [HexStrByteEncoder; Base64ByteEncoder] -> b <> [] -> exists text, bytes_doc_of enc b = Some (JStr text) /\ text <> b.
Proof.
  intros I Nb. assert (L : forall t : bytes, (length b < length t)%nat -> t <> b) by (intros t L ->; lia). destruct I as [<-|[<-|[]]]; eexists; (split; [reflexivity|]); apply L.
  - apply hex_longer, Nb.
  - unfold b64_text. rewrite map_length. apply (b64_longer (length b) b); auto.
Qed.
Theorem js_untagged_bytes fp enc vs i b out w1 w2 :
  In enc [HexStrByteEncoder; Base64ByteEncoder] -> printer_ok fp -> nth_error vs i = Some (KNewtype, TBytes) -> hastype TBytes (UBytes b) -> b <> [] ->
  apart (firstn i vs) [Text] ->
  js_to_string fp enc (untagged_trace vs (UVar i (UBytes b))) = Ok out -> any_ws w1 -> any_ws w2 ->
  (dec = Base64Decoder -> 3 * zlen (w1 ++ out ++ w2) <= usize_max ar) ->
  exists text N, text <> b /\ forall fuel, (N <= fuel)%nat ->
    exists s, js_from_mut_slice ar fl any_f32 dec fuel (untagged fo JDeserializeError vs) (w1 ++ out ++ w2) = Done s (Ok (UVar i (UBytes text))).
Proof.
  intros Ie P En H Nb Ap E W1 W2 R. cbn [untagged_trace] in E. rewrite En in E. cbn [snd] in E. destruct (typed_strings TBytes I (UBytes b) H) as [St M].
  assert (Ne : enc <> PassThroughByteEncoder) by (destruct Ie as [<-|[<-|[]]]; discriminate).
  destruct (js_read_back ar fl fp any_f32 enc dec (trace TBytes (UBytes b)) out w1 w2 Ne P St M I E W1 W2 R) as (j & w & D & V & N & HN).
  destruct (bytes_text enc b Ie Nb) as (text & Et & Nt). cbn in D. rewrite Et in D. injection D as <-. inversion V; subst.
  exists text, N. split; [exact Nt|]. intros fuel Hf. destruct (HN fuel Hf) as [s Rs]. destruct (js_from_buffered fuel (untagged_pick fo vs 0) _ _ _ Rs) as [s' Rs']. exists s'. unfold untagged. rewrite Rs'.
  assert (Pk : untagged_pick fo (firstn i vs ++ (KNewtype, TBytes) :: skipn (Datatypes.S i) vs) 0 (UStr text) = Some (UVar (0 + length (firstn i vs)) (UBytes text)))
    by (eapply pick_first; eauto; [reflexivity|left; reflexivity]).
  rewrite <- (vs_split vs i _ En) in Pk. rewrite Pk. assert (Li : (i < length vs)%nat) by (apply nth_error_Some; congruence). rewrite firstn_length_le by lia. reflexivity.
Qed.

(** Maps whose keys are not text are not read. *)
Theorem js_untagged_keys fp enc k t e l out w1 w2 :
  enc <> PassThroughByteEncoder -> printer_ok fp -> In k [TBool] \/ (exists ik, k = TInt ik) ->
  wf (TMap k t) -> hastype (TMap k t) (UMap (e :: l)) -> let vs := [(KNewtype, TMap k t)] in
  all_floats (fun b => finite32 b -> exists w, number_as any_f32 float_of w (format_f32 fp b))
             (fun b => finite64 b -> exists w, number_as any_f32 float_of w (format_f64 fp b)) (trace (TMap k t) (UMap (e :: l))) ->
  js_to_string fp enc (untagged_trace vs (UVar 0 (UMap (e :: l)))) = Ok out -> any_ws w1 -> any_ws w2 ->
  (dec = Base64Decoder -> 3 * zlen (w1 ++ out ++ w2) <= usize_max ar) ->
  exists N, forall fuel, (N <= fuel)%nat ->
    exists s, js_from_mut_slice ar fl any_f32 dec fuel (untagged fo JDeserializeError vs) (w1 ++ out ++ w2) = Done s (Err JDeserializeError).
Proof.
  intros Ne P Hk W H vs F E W1 W2 R. cbn [untagged_trace nth_error vs snd] in E. destruct (typed_strings _ W _ H) as [St M].
  destruct (js_read_back ar fl fp any_f32 enc dec _ out w1 w2 Ne P St M F E W1 W2 R) as (j & w & D & V & N & HN).
  exists N. intros fuel Hf. destruct (HN fuel Hf) as [s Rs]. destruct (js_from_buffered fuel (untagged_pick fo vs 0) _ _ _ Rs) as [s' Rs']. exists s'. unfold untagged. rewrite Rs'.
  destruct e as [x y]. cbn in D. destruct (key_doc (trace k x)) as [raw|]; [|discriminate]. destruct (js_value fp enc (trace t y)); [|discriminate]. cbn in D.
  destruct (doc_entries _ _); [|discriminate]. cbn in D. injection D as <-. inversion V as [| | | | |ws ? F2]; subst. inversion F2 as [|[kk ww] ? ? ? [K _] _]; subst. cbn in K. subst kk.
  destruct Hk as [[<-|[]]|[ik ->]]; reflexivity.
Qed.

(** A float that is not finite is not read. *)
Theorem js_untagged_nan fp enc vs i b out w1 w2 :
  enc <> PassThroughByteEncoder -> printer_ok fp -> nth_error vs i = Some (KNewtype, TF64) -> 0 <= b < 2 ^ 64 -> ~ finite64 b ->
  (forall f, In f vs -> ~ In Null (variant_readable f)) ->
  js_to_string fp enc (untagged_trace vs (UVar i (UF64 b))) = Ok out -> any_ws w1 -> any_ws w2 ->
  (dec = Base64Decoder -> 3 * zlen (w1 ++ out ++ w2) <= usize_max ar) ->
  exists N, forall fuel, (N <= fuel)%nat ->
    exists s, js_from_mut_slice ar fl any_f32 dec fuel (untagged fo JDeserializeError vs) (w1 ++ out ++ w2) = Done s (Err JDeserializeError).
Proof.
  intros Ne P En H Nf Nr E W1 W2 R. cbn [untagged_trace] in E. rewrite En in E. cbn [snd] in E. destruct (typed_strings TF64 I (UF64 b) H) as [St M].
  assert (F' : all_floats (fun b => finite32 b -> exists w, number_as any_f32 float_of w (format_f32 fp b))
             (fun b => finite64 b -> exists w, number_as any_f32 float_of w (format_f64 fp b)) (trace TF64 (UF64 b))) by (cbn; tauto).
  destruct (js_read_back ar fl fp any_f32 enc dec _ out w1 w2 Ne P St M F' E W1 W2 R) as (j & w & D & V & N & HN).
  exists N. intros fuel Hf. destruct (HN fuel Hf) as [s Rs]. destruct (js_from_buffered fuel (untagged_pick fo vs 0) _ _ _ Rs) as [s' Rs']. exists s'. unfold untagged. rewrite Rs'.
  cbn in D. injection D as <-. unfold f64_num, finite64 in *. destruct (Z.eqb_spec (b / 2 ^ 52 mod 2048) 2047); [|tauto]. cbn in V. inversion V; subst.
  rewrite (pick_none fo vs UUnit Null eq_refl Nr). reflexivity.
Qed.
End Top.

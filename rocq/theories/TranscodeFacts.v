(** From MessagePack to JSON and back by way of a self-describing value (C73). *)
From Verif Require Import Prelude PreludeFacts Utf8 Utf8Spec Utf8Facts SerdeSer SerdeDe FloatOps Arch MpSpec MpSer MpSerRel MpSerFacts
  MpDe MpDeTop MpErrMap Types TypesFacts MpTypeSpec MpAny MpTypedTop MpReadBack Base64Spec JsonSpec JsonTypeSpec JsonFacts JsonSer JsonErrMap JsonSerFacts
  JsonDe JsonAnySpec JsonAny JsonReadBack JsonContent Transcode TranscodeSpec.

(** ** A document has one compact text *)
Lemma compact_one :
  (forall d a, jtext no_ws canon canon json_number d a -> forall b, jtext no_ws canon canon json_number d b -> a = b) /\
  (forall l a, elements no_ws canon canon json_number l a -> forall b, elements no_ws canon canon json_number l b -> a = b) /\
  (forall l a, members no_ws canon canon json_number l a -> forall b, members no_ws canon canon json_number l b -> a = b).
Proof.
  assert (C : forall s a b, canon s a -> canon s b -> a = b) by (intros s a b [_ ->] [_ ->]; reflexivity).
  apply jtext_mutind.
  - intros b H. inversion H. auto.
  - intros b H. inversion H. auto.
  - intros b H. inversion H. auto.
  - intros tok _ b H. inversion H. auto.
  - intros s t Ht b H. inversion H; subst. eauto.
  - intros w -> b H. inversion H as [| | | | |w' Hw|? ? Q| |]; subst; [rewrite Hw; auto|inversion Q].
  - intros l a Ha IH b H. inversion H as [| | | | |w' Hw|? ? Q| |]; subst; [inversion Ha|rewrite (IH _ Q); auto].
  - intros w -> b H. inversion H as [| | | | | | |w' Hw|? ? Q]; subst; [rewrite Hw; auto|inversion Q].
  - intros l a Ha IH b H. inversion H as [| | | | | | |w' Hw|? ? Q]; subst; [inversion Ha|rewrite (IH _ Q); auto].
  - intros v a w1 w2 -> _ IH -> b H. inversion H as [? c ? ? V1 Hc V2|? ? ? ? ? ? ? ? ? Q]; subst; [|inversion Q]. rewrite V1, V2, (IH _ Hc). auto.
  - intros v a l r w1 w2 -> _ IH -> Hr IHr b H. inversion H as [|? c ? r' ? ? V1 Hc V2 Q]; subst; [inversion Hr|]. rewrite V1, V2, (IH _ Hc), (IHr _ Q). auto.
  - intros k kt v a w1 w2 w3 w4 -> Hk -> -> _ IH -> b H. inversion H as [? kt' ? c ? ? ? ? V1 Hk' V2 V3 Hc V4|? ? ? ? ? ? ? ? ? ? ? ? ? ? ? ? Q]; subst; [|inversion Q].
    rewrite V1, V2, V3, V4, (IH _ Hc), (C _ _ _ Hk Hk'). auto.
  - intros k kt v a l r w1 w2 w3 w4 -> Hk -> -> _ IH -> Hr IHr b H. inversion H as [|? kt' ? c ? r' ? ? ? ? V1 Hk' V2 V3 Hc V4 Q]; subst; [inversion Hr|].
    rewrite V1, V2, V3, V4, (IH _ Hc), (IHr _ Q), (C _ _ _ Hk Hk'). auto.
Qed.

Lemma value_int k z : in_ikind k z -> in_ikind (if 0 <=? z then U64 else I64) z.
Proof. unfold in_ikind. intros H. destruct (Z.leb_spec 0 z); destruct k; cbn in *; lia. Qed.
Lemma alt_pairs {A} (h1 h2 : A -> sval) l : alternates (flat_map (fun e => [(true, h1 e); (false, h2 e)]) l).
Proof. induction l; cbn; auto. Qed.

(** ** MessagePack, then JSON *)
Section To.
Context (fp : float_printer) (enc : byte_encoder).
Local Notation doc := (js_value fp enc).
Local Notation mdoc := (mp_doc SNameMap).
Definition ok (x : sval) : Prop := strings_ok x /\ maps_ok x.
Definition goes (v : sval) : Prop := sval_ok v -> forall j m u, doc v = Some j -> mdoc v = Some m -> denotes m (inl u) -> doc (value_trace u) = Some j /\ ok (value_trace u).

Lemma str_goes s m u : doc_str s = Some m -> denotes m (inl u) -> u = UStr s /\ valid_utf8 s.
Proof. unfold doc_str. destruct (lt32 (zlen s)); [|discriminate]. intros [= <-] D. inversion D; subst. auto. Qed.
Lemma key_goes v : sval_ok v -> forall raw m u, key_doc v = Some raw -> mdoc v = Some m -> denotes m (inl u) -> key_doc (value_trace u) = Some raw /\ ok (value_trace u).
Proof.
  induction v using sval_ind'; intros Hok raw m u K D Du; cbn [key_doc] in K; try discriminate; cbn [mp_doc] in D; cbn [sval_ok] in Hok.
  - injection D as <-. inversion Du; subst. cbn. repeat split; auto.
  - injection D as <-. inversion Du; subst. split; [exact K|]. split; [exact (value_int _ _ Hok)|exact I].
  - injection D as <-. inversion Du; subst. cbn. injection K as <-. repeat split; auto.
  - destruct (str_goes _ _ _ D Du) as [-> V]. injection K as <-. cbn. repeat split; auto.
  - destruct (str_goes _ _ _ D Du) as [-> V]. injection K as <-. cbn. repeat split; auto.
  - apply (IHv Hok raw m u K D Du).
  - rewrite K in D. destruct (str_goes _ _ _ D Du) as [-> V]. cbn. repeat split; auto.
Qed.
Lemma list_goes l : Forall goes l -> all_list sval_ok l -> forall js ms us, doc_list doc l = Some js -> omap mdoc l = Some ms -> denotes_list ms (inl us) ->
  doc_list doc (map value_trace us) = Some js /\ all_list strings_ok (map value_trace us) /\ all_list maps_ok (map value_trace us).
Proof.
  induction 1 as [|v l Hv _ IH]; intros Hok js ms us E M D.
  - cbn in E, M. injection E as <-. injection M as <-. inversion D; subst. cbn. auto.
  - cbn in E, M. fold (doc_list doc l) in E. fold (omap mdoc l) in M. destruct Hok as [Ho Hok].
    destruct (doc v) as [j|] eqn:Ej; [|discriminate]. destruct (doc_list doc l) as [js'|] eqn:Ejs; [|discriminate]. injection E as <-.
    destruct (mdoc v) as [m|] eqn:Em; [|discriminate]. destruct (omap mdoc l) as [ms'|] eqn:Ems; [|discriminate]. injection M as <-.
    inversion D as [|? ? u us' D1 D2| |]; subst. destruct (Hv Ho j m u Ej Em D1) as [G1 [G2 G3]]. destruct (IH Hok js' ms' us' eq_refl eq_refl D2) as (G4 & G5 & G6).
    cbn. rewrite G1. fold (doc_list doc (map value_trace us')). rewrite G4. cbn. auto.
Qed.
Local Notation pairs us := (flat_map (fun e => [(true, value_trace (fst e)); (false, value_trace (snd e))]) us).
Definition entries_ok (us : list (val * val)) : Prop := all_list (fun o => strings_ok (snd o)) (pairs us) /\ all_list (fun o => maps_ok (snd o)) (pairs us).
Lemma entries_cons k v us raw j js : key_doc (value_trace k) = Some raw -> ok (value_trace k) -> doc (value_trace v) = Some j -> ok (value_trace v) ->
  doc_entries doc (pairs us) = Some js -> entries_ok us -> doc_entries doc (pairs ((k, v) :: us)) = Some ((raw, j) :: js) /\ entries_ok ((k, v) :: us).
Proof.
  intros K [K1 K2] V [V1 V2] E [E1 E2]. split.
  - cbn. rewrite K, V. fold (doc_entries doc (pairs us)). rewrite E. reflexivity.
  - split; cbn; auto.
Qed.
Lemma entries_go l : Forall (fun o => goes (snd o)) l -> all_list (fun o => sval_ok (snd o)) l -> forall js r ps us, doc_entries doc l = Some js ->
  omap (fun o => option_map (pair (fst o)) (mdoc (snd o))) l = Some r -> pair_up r = Some ps -> denotes_pairs ps (inl us) ->
  doc_entries doc (pairs us) = Some js /\ entries_ok us.
Proof.
  remember (length l) as n eqn:Hn. revert l Hn. induction n as [n IH] using lt_wf_ind. intros l Hn H Hok js r ps us E M P D.
  destruct l as [|[ka k] l].
  - cbn in E, M. injection E as <-. injection M as <-. cbn in P. injection P as <-. inversion D; subst. repeat split.
  - destruct l as [|[kb v] l]; [cbn in E; destruct ka; discriminate|]. cbn [doc_entries] in E. destruct ka; [|discriminate]. destruct kb; [discriminate|]. fold (doc_entries doc l) in E.
    cbn in Hok. destruct Hok as (O1 & O2 & Hok). inversion H as [|? ? H1 H']; subst. inversion H' as [|? ? H2 H3]; subst. cbn [snd] in H1, H2.
    destruct (key_doc k) as [raw|] eqn:Ek; [|discriminate]. destruct (doc v) as [j|] eqn:Ev; [|discriminate]. destruct (doc_entries doc l) as [js'|] eqn:Ejs; [|discriminate]. cbn in E. injection E as <-.
    cbn in M. destruct (mdoc k) as [mk|] eqn:Mk; [|discriminate]. destruct (mdoc v) as [mv|] eqn:Mv; [|discriminate]. cbn in M.
    match type of M with context [omap ?f l] => destruct (omap f l) as [r'|] eqn:Er; [|discriminate] end. injection M as <-.
    cbn [pair_up] in P. destruct (pair_up r') as [ps'|] eqn:Ep; [|discriminate]. injection P as <-.
    inversion D as [|? ? ? u w us' D1 D2 D3| | |]; subst. destruct (key_goes k O1 raw mk u Ek Mk D1) as [K1 K2]. destruct (H2 O2 j mv w Ev Mv D2) as [V1 V2].
    destruct (IH (length l)) with l js' r' ps' us' as [E1 E2]; auto; [cbn; lia|]. apply entries_cons; auto.
Qed.
Lemma fields_go fs : Forall (fun f => forall v, snd f = Some v -> goes v) fs ->
  all_list (fun f => valid_utf8 (fst f) /\ match snd f with Some x => sval_ok x | None => True end) fs ->
  forall js r ps us, doc_fields doc fs = Some js ->
  omap (fun f => match snd f with None => Some (fst f, None) | Some x => option_map (fun m => (fst f, Some m)) (mdoc x) end) fs = Some r ->
  doc_fields_name r = Some ps -> denotes_pairs ps (inl us) -> doc_entries doc (pairs us) = Some js /\ entries_ok us.
Proof.
  induction 1 as [|[n [v|]] fs Hf _ IH]; intros Hok js r ps us E M P D.
  - cbn in E, M. injection E as <-. injection M as <-. cbn in P. injection P as <-. inversion D; subst. repeat split.
  - cbn in Hok. destruct Hok as ([O1 O2] & Hok). cbn [doc_fields] in E. fold (doc_fields doc fs) in E. destruct (doc v) as [j|] eqn:Ej; [|discriminate]. cbn in E.
    destruct (doc_fields doc fs) as [js'|] eqn:Ejs; [|discriminate]. injection E as <-.
    cbn in M. destruct (mdoc v) as [m|] eqn:Em; [|discriminate]. cbn in M.
    match type of M with context [omap ?f fs] => destruct (omap f fs) as [r'|] eqn:Er; [|discriminate] end. injection M as <-.
    cbn [doc_fields_name] in P. destruct (doc_str n) as [k|] eqn:En; [|discriminate]. destruct (doc_fields_name r') as [ps'|] eqn:Ep; [|discriminate]. injection P as <-.
    inversion D as [|? ? ? u w us' D1 D2 D3| | |]; subst. destruct (str_goes _ _ _ En D1) as [-> V]. destruct (Hf v eq_refl O2 j m w Ej Em D2) as [V1 V2].
    destruct (IH Hok js' r' ps' us' eq_refl eq_refl Ep D3) as [E1 E2]. apply entries_cons; auto. split; cbn; auto.
  - cbn in Hok. destruct Hok as ([O1 O2] & Hok). cbn [doc_fields] in E. fold (doc_fields doc fs) in E. cbn in M.
    match type of M with context [omap ?f fs] => destruct (omap f fs) as [r'|] eqn:Er; [|discriminate] end. injection M as <-.
    cbn [doc_fields_name] in P. apply (IH Hok js r' ps us E eq_refl P D).
Qed.
Lemma array_goes n l ms m u js : doc_array n ms = Some m -> denotes m (inl u) -> ms = omap mdoc l -> Forall goes l -> all_list sval_ok l -> doc_list doc l = Some js ->
  doc (value_trace u) = Some (JArr js) /\ ok (value_trace u).
Proof.
  unfold doc_array. intros A D -> H O E. destruct (omap mdoc l) as [ms|] eqn:Em; [|discriminate]. destruct (_ && _); [|discriminate]. injection A as <-. inversion D as [| | | | | | | |? us D'| | | |]; subst.
  destruct (list_goes l H O js ms us E Em D') as (G1 & G2 & G3). split; [|split; auto]. unfold js_value in *. cbn [value_trace js_doc]. rewrite G1. reflexivity.
Qed.
Lemma map_goes n ps m u js : doc_map n (Some ps) = Some m -> denotes m (inl u) ->
  (forall us, denotes_pairs ps (inl us) -> doc_entries doc (pairs us) = Some js /\ entries_ok us) -> doc (value_trace u) = Some (JObj js) /\ ok (value_trace u).
Proof.
  unfold doc_map. intros A D H. destruct (_ && _); [|discriminate]. injection A as <-. inversion D as [| | | | | | | | | |? us D'| |]; subst.
  destruct (H us D') as (G1 & G2 & G3). split; [|split; [exact G2|split; [apply alt_pairs|exact G3]]]. unfold js_value in *. cbn [value_trace js_doc]. rewrite G1. reflexivity.
Qed.
Lemma struct_goes n fs m u js : doc_struct SNameMap n (omap (fun f => match snd f with None => Some (fst f, None) | Some x => option_map (fun m => (fst f, Some m)) (mdoc x) end) fs) = Some m ->
  denotes m (inl u) -> Forall (fun f => forall v, snd f = Some v -> goes v) fs ->
  all_list (fun f => valid_utf8 (fst f) /\ match snd f with Some x => sval_ok x | None => True end) fs -> doc_fields doc fs = Some js ->
  doc (value_trace u) = Some (JObj js) /\ ok (value_trace u).
Proof.
  intros S D H O E. unfold doc_struct in S. destruct (omap _ fs) as [r|] eqn:Er; [|discriminate]. destruct (doc_fields_name r) as [ps|] eqn:Ep; [|unfold doc_map in S; discriminate].
  eapply map_goes; eauto. intros us Du. eapply fields_go; eauto.
Qed.
Lemma variant_goes n c m u j : variant_map (doc_str n) c = Some m -> denotes m (inl u) ->
  (forall mc w, c = Some mc -> denotes mc (inl w) -> doc (value_trace w) = Some j /\ ok (value_trace w)) -> doc (value_trace u) = Some (JObj [(n, j)]) /\ ok (value_trace u).
Proof.
  intros V D H. unfold variant_map in V. destruct (doc_str n) as [t|] eqn:En; [|discriminate]. destruct c as [mc|]; [|discriminate]. injection V as <-.
  inversion D as [| | | | | | | | | |? us D'| |]; subst. inversion D' as [|? ? ? k w us' D1 D2 D3| | |]; subst. inversion D3; subst.
  destruct (str_goes _ _ _ En D1) as [-> V]. destruct (H mc w eq_refl D2) as [G1 [G2 G3]]. split; [|cbn; unfold ok; cbn; auto 8].
  unfold js_value in *. cbn [value_trace flat_map app fst snd js_doc doc_entries key_doc]. rewrite G1. reflexivity.
Qed.

Lemma all_go v : goes v.
Proof.
  induction v using sval_ind'; intros Hok j m u E M D; unfold js_value in E; cbn [js_doc] in E; fold (js_value fp enc) in E; cbn [mp_doc] in M; cbn [sval_ok] in Hok; try discriminate;
    try (injection M as <-; inversion D; subst; injection E as <-; (repeat split; cbn; auto); fail);
    try (injection M as <-; inversion D; subst; injection E as <-; (split; [reflexivity|]; split; [exact Hok|exact I]); fail).
  - injection M as <-. inversion D; subst. injection E as <-. split; [reflexivity|]. split; [exact (value_int _ _ Hok)|exact I].
  - destruct (str_goes _ _ _ M D) as [-> V]. injection E as <-. repeat split; auto.
  - destruct (lt32 _); [|discriminate]. injection M as <-. inversion D; subst. repeat split; cbn; auto.
  - apply (IHv Hok j m u E M D).
  - destruct (str_goes _ _ _ M D) as [-> V]. injection E as <-. repeat split; auto.
  - apply (IHv Hok j m u E M D).
  - destruct (doc v) as [jc|] eqn:Ej; [|discriminate]. injection E as <-. eapply variant_goes; eauto. intros mc w Ec Dw. apply (IHv (proj2 (proj2 Hok)) jc mc w Ej Ec Dw).
  - destruct l as [n|]; [|discriminate]. destruct (doc_list doc items) as [js|] eqn:Ej; [|discriminate]. injection E as <-. eapply array_goes; eauto. tauto.
  - destruct (doc_list doc items) as [js|] eqn:Ej; [|discriminate]. injection E as <-. eapply array_goes; eauto. tauto.
  - destruct (doc_list doc items) as [js|] eqn:Ej; [|discriminate]. injection E as <-. eapply array_goes; eauto. tauto.
  - destruct (doc_list doc items) as [js|] eqn:Ej; [|discriminate]. injection E as <-. eapply variant_goes; eauto. intros mc w Ec Dw. eapply array_goes; eauto. tauto.
  - destruct l as [n|]; [|discriminate]. destruct (doc_entries doc ops) as [js|] eqn:Ej; [|discriminate]. injection E as <-.
    destruct (omap _ ops) as [r|] eqn:Er; [|discriminate]. destruct (pair_up r) as [ps|] eqn:Ep; [|unfold doc_map in M; discriminate].
    eapply map_goes; eauto. intros us Du. eapply entries_go; eauto. tauto.
  - destruct (doc_fields doc fs) as [js|] eqn:Ej; [|discriminate]. injection E as <-. eapply struct_goes; eauto. tauto.
  - destruct (doc_fields doc fs) as [js|] eqn:Ej; [|discriminate]. injection E as <-. eapply variant_goes; eauto. intros mc w Ec Dw. eapply struct_goes; eauto. tauto.
  - destruct (fmt_text a) as [t|] eqn:Et; [|discriminate]. injection E as <-. destruct (str_goes _ _ _ M D) as [-> V]. repeat split; auto.
Qed.
End To.

Theorem msgpack_to_json ar fo cfg fp enc v b out tail :
  arch32up ar -> sval_ok v -> strings_ok v -> maps_ok v -> 2 ^ 32 - 1 <= cfg_usize_max cfg -> enc <> PassThroughByteEncoder -> printer_ok fp ->
  mp_to_vec cfg StructMapStr v = Ok b -> js_to_string fp enc v = Ok out -> slice_of ar (b ++ tail) ->
  exists w, js_to_string fp enc (value_trace w) = Ok out /\
    exists N, forall fuel, (N <= fuel)%nat -> exists s, mp_from_slice ar fo fuel (any DeserializeError) (b ++ tail) = Done s (Ok (w, zlen b)).
Proof.
  intros A O S M C Ne P E J Sl. destruct (mp_read_back ar fo cfg StructMapStr v b tail A O C E Sl) as (m & w & Dm & Dw & R). exists w. split; [|exact R].
  pose proof (to_string_canon fp enc v Ne P S M) as Cv. destruct (js_value fp enc v) as [j|] eqn:Ej; [|destruct Cv as (e & Ce & _); congruence].
  destruct Cv as (out' & Ce & T). assert (out' = out) by congruence. subst out'.
  destruct (all_go fp enc v O j m w Ej Dm Dw) as [G [G1 G2]]. pose proof (to_string_canon fp enc _ Ne P G1 G2) as Cw. rewrite G in Cw. destruct Cw as (out' & Cw & T').
  rewrite Cw. f_equal. apply (proj1 compact_one _ _ T' _ T).
Qed.

(** ** JSON, then MessagePack *)
Section Fro.
Context (fp : float_printer) (enc : byte_encoder) (any_f32 : bool) (float_of : bytes -> option Z) (st : style).
Local Notation doc := (js_value fp enc).
Local Notation mdoc := (mp_doc SNameMap).
Local Notation value := (value_as any_f32 float_of).
Definition kept32 (b : Z) : Prop := finite32 b /\ number_as any_f32 float_of (UF32 b) (format_f32 fp b).
Definition kept64 (b : Z) : Prop := finite64 b /\ number_as any_f32 float_of (UF64 b) (format_f64 fp b).
Local Notation floats := (all_floats kept32 kept64).
Definition back (m : mpv) (w : val) : Prop := mp_doc st (value_trace w) = Some m /\ sval_ok (value_trace w).
Definition comes (v : sval) : Prop := sval_ok v -> json_native v -> floats v -> forall j m w, doc v = Some j -> mdoc v = Some m -> value w j -> back m w.

Lemma char_len c : lt32 (zlen (utf8_char c)) = true.
Proof. unfold utf8_char. repeat match goal with |- context [if ?b then _ else _] => destruct b end; reflexivity. Qed.
Lemma str_back s m : valid_utf8 s -> doc_str s = Some m -> back m (UStr s).
Proof. intros V E. split; [exact E|exact V]. Qed.
Lemma key_comes k : sval_ok k -> text_call k -> forall raw m, key_doc k = Some raw -> mdoc k = Some m -> back m (UStr raw).
Proof.
  induction k using sval_ind'; intros O T raw m K D; cbn in T; try contradiction; cbn [key_doc] in K; cbn [mp_doc] in D; cbn [sval_ok] in O.
  - injection K as <-. injection D as <-. split; [cbn; unfold doc_str; rewrite char_len; reflexivity|]. apply valid_utf8_char. auto.
  - injection K as <-. apply str_back; auto.
  - injection K as <-. apply str_back; tauto.
  - apply (IHk O T raw m K D).
  - rewrite K in D. apply str_back; auto. eapply fmt_text_valid; [|exact K]. destruct O as (_ & _ & _ & V & _). exact V.
Qed.
Lemma list_comes l : Forall comes l -> all_list sval_ok l -> all_list json_native l -> all_list floats l -> forall js ms ws, doc_list doc l = Some js -> omap mdoc l = Some ms -> Forall2 value ws js ->
  omap (mp_doc st) (map value_trace ws) = Some ms /\ all_list sval_ok (map value_trace ws) /\ length ws = length ms.
Proof.
  induction 1 as [|v l Hv _ IH]; intros O Nt F js ms ws E M D.
  - cbn in E, M. injection E as <-. injection M as <-. inversion D; subst. cbn. auto.
  - cbn in E, M. fold (doc_list doc l) in E. fold (omap mdoc l) in M. destruct O as [O1 O2], Nt as [N1 N2], F as [F1 F2].
    destruct (doc v) as [j|] eqn:Ej; [|discriminate]. destruct (doc_list doc l) as [js'|] eqn:Ejs; [|discriminate]. injection E as <-.
    destruct (mdoc v) as [m|] eqn:Em; [|discriminate]. destruct (omap mdoc l) as [ms'|] eqn:Ems; [|discriminate]. injection M as <-.
    inversion D as [|w ? ws' ? D1 D2]; subst. destruct (Hv O1 N1 F1 j m w Ej Em D1) as [G1 G2]. destruct (IH O2 N2 F2 js' ms' ws' eq_refl eq_refl D2) as (G3 & G4 & G5).
    cbn. rewrite G1. fold (omap (mp_doc st) (map value_trace ws')). rewrite G3. cbn. auto.
Qed.
Local Notation pairs us := (flat_map (fun e => [(true, value_trace (fst e)); (false, value_trace (snd e))]) us).
Local Notation mops := (omap (fun o : bool * sval => option_map (pair (fst o)) (mp_doc st (snd o)))).
Definition entries_back (ps : list (mpv * mpv)) (ws : list (val * val)) : Prop :=
  (exists r, mops (pairs ws) = Some r /\ pair_up r = Some ps) /\ all_list (fun o => sval_ok (snd o)) (pairs ws) /\ length ws = length ps.
Local Notation kv := (fun (e : val * val) (m : bytes * jv) => fst e = UStr (fst m) /\ value (snd e) (snd m)).
Lemma back_nil : entries_back [] [].
Proof. split; [exists []; split; reflexivity|]. split; reflexivity. Qed.
Lemma back_cons k mk m w ps ws : back mk k -> back m w -> entries_back ps ws -> entries_back ((mk, m) :: ps) ((k, w) :: ws).
Proof.
  intros [K1 K2] [W1 W2] ((r & R1 & R2) & A & L). split; [|split; [cbn; auto|cbn; auto]]. exists ((true, mk) :: (false, m) :: r).
  cbn. rewrite K1, W1. cbn. match goal with |- context [match ?y with Some _ => _ | None => _ end] => change y with (mops (pairs ws)) end. rewrite R1, R2. auto.
Qed.
Lemma entries_come l : Forall (fun o => comes (snd o)) l -> all_list (fun o => sval_ok (snd o)) l -> all_list (fun o : bool * sval => if fst o then text_call (snd o) else json_native (snd o)) l -> all_list (fun o => floats (snd o)) l ->
  forall js r ps ws, doc_entries doc l = Some js ->
  omap (fun o => option_map (pair (fst o)) (mdoc (snd o))) l = Some r -> pair_up r = Some ps -> Forall2 kv ws js -> entries_back ps ws.
Proof.
  remember (length l) as n eqn:Hn. revert l Hn. induction n as [n IH] using lt_wf_ind. intros l Hn H O Nt F js r ps us E M P D.
  destruct l as [|[ka k] l].
  - cbn in E, M. injection E as <-. injection M as <-. cbn in P. injection P as <-. inversion D; subst. apply back_nil.
  - destruct l as [|[kb v] l]; [cbn in E; destruct ka; discriminate|]. cbn [doc_entries] in E. destruct ka; [|discriminate]. destruct kb; [discriminate|]. fold (doc_entries doc l) in E.
    cbn in O, Nt, F. destruct O as (O1 & O2 & O), Nt as (N1 & N2 & Nt), F as (F1 & F2 & F). inversion H as [|? ? H1 H']; subst. inversion H' as [|? ? H2 H3]; subst. cbn [snd] in H1, H2.
    destruct (key_doc k) as [raw|] eqn:Ek; [|discriminate]. destruct (doc v) as [j|] eqn:Ev; [|discriminate]. destruct (doc_entries doc l) as [js'|] eqn:Ejs; [|discriminate]. cbn in E. injection E as <-.
    cbn in M. destruct (mdoc k) as [mk|] eqn:Mk; [|discriminate]. destruct (mdoc v) as [mv|] eqn:Mv; [|discriminate]. cbn in M.
    match type of M with context [omap ?f l] => destruct (omap f l) as [r'|] eqn:Er; [|discriminate] end. injection M as <-.
    cbn [pair_up] in P. destruct (pair_up r') as [ps'|] eqn:Ep; [|discriminate]. injection P as <-.
    inversion D as [|[u w] ? us' ? [D1 D2] D3]; subst. cbn [fst snd] in D1, D2. subst u. apply back_cons.
    + apply (key_comes k O1 N1 raw mk Ek Mk).
    + apply (H2 O2 N2 F2 j mv w Ev Mv D2).
    + apply (IH (length l)) with l js' r'; auto. cbn. lia.
Qed.
Lemma fields_come fs : Forall (fun f => forall v, snd f = Some v -> comes v) fs ->
  all_list (fun f => valid_utf8 (fst f) /\ match snd f with Some x => sval_ok x | None => True end) fs ->
  all_list (fun f => match snd f with Some x => json_native x | None => True end) fs -> all_list (fun f => match snd f with Some x => floats x | None => True end) fs ->
  forall js r ps us, doc_fields doc fs = Some js ->
  omap (fun f => match snd f with None => Some (fst f, None) | Some x => option_map (fun m => (fst f, Some m)) (mdoc x) end) fs = Some r ->
  doc_fields_name r = Some ps -> Forall2 kv us js -> entries_back ps us.
Proof.
  induction 1 as [|[n [v|]] fs Hf _ IH]; intros O Nt F js r ps us E M P D.
  - cbn in E, M. injection E as <-. injection M as <-. cbn in P. injection P as <-. inversion D; subst. apply back_nil.
  - cbn in O, Nt, F. destruct O as ([O1 O2] & O), Nt as [N1 N2], F as [F1 F2]. cbn [doc_fields] in E. fold (doc_fields doc fs) in E. destruct (doc v) as [j|] eqn:Ej; [|discriminate]. cbn in E.
    destruct (doc_fields doc fs) as [js'|] eqn:Ejs; [|discriminate]. injection E as <-.
    cbn in M. destruct (mdoc v) as [m|] eqn:Em; [|discriminate]. cbn in M.
    match type of M with context [omap ?f fs] => destruct (omap f fs) as [r'|] eqn:Er; [|discriminate] end. injection M as <-.
    cbn [doc_fields_name] in P. destruct (doc_str n) as [k|] eqn:En; [|discriminate]. destruct (doc_fields_name r') as [ps'|] eqn:Ep; [|discriminate]. injection P as <-.
    inversion D as [|[u w] ? us' ? [D1 D2] D3]; subst. cbn [fst snd] in D1, D2. subst u. apply back_cons.
    + apply str_back; auto.
    + apply (Hf v eq_refl O2 N1 F1 j m w Ej Em D2).
    + apply (IH O N2 F2 js' r' ps' us' eq_refl eq_refl Ep D3).
  - cbn in O, Nt, F. destruct O as ([O1 O2] & O), Nt as [N1 N2], F as [F1 F2]. cbn [doc_fields] in E. fold (doc_fields doc fs) in E. cbn in M.
    match type of M with context [omap ?f fs] => destruct (omap f fs) as [r'|] eqn:Er; [|discriminate] end. injection M as <-.
    cbn [doc_fields_name] in P. apply (IH O N2 F2 js r' ps us E eq_refl P D).
Qed.
Lemma same_len {A B} (l : list A) (l' : list B) : length l = length l' -> zlen l = zlen l'.
Proof. unfold zlen. congruence. Qed.
Lemma array_comes n l m w js : doc_array n (omap mdoc l) = Some m -> Forall comes l -> all_list sval_ok l -> all_list json_native l -> all_list floats l ->
  doc_list doc l = Some js -> value w (JArr js) -> back m w.
Proof.
  unfold doc_array. intros A H O Nt F E V. destruct (omap mdoc l) as [ms|] eqn:Em; [|discriminate]. destruct (_ && _) eqn:En; [|discriminate]. injection A as <-.
  apply andb_prop in En. destruct En as [E1 E2]. apply Z.eqb_eq in E1. inversion V as [| | | |ws ? D|]; subst.
  destruct (list_comes l H O Nt F js ms ws E Em D) as (G1 & G2 & G3). split.
  - cbn [value_trace mp_doc]. rewrite G1. unfold doc_array. rewrite (same_len _ _ G3), Z.eqb_refl, E2. reflexivity.
  - cbn [value_trace sval_ok]. split; [|exact G2]. rewrite (same_len _ _ G3). unfold lt32 in E2. unfold is_len. lia.
Qed.
Lemma map_comes n ps m ws : doc_map n (Some ps) = Some m -> entries_back ps ws -> back m (UMap ws).
Proof.
  unfold doc_map. intros A ((r & R1 & R2) & O & L). destruct (_ && _) eqn:En; [|discriminate]. injection A as <-. apply andb_prop in En. destruct En as [E1 E2]. apply Z.eqb_eq in E1. subst n. split.
  - cbn [value_trace mp_doc]. rewrite R1, R2. unfold doc_map. rewrite (same_len _ _ L), Z.eqb_refl, E2. reflexivity.
  - cbn [value_trace sval_ok]. split; [rewrite (same_len _ _ L); unfold lt32 in E2; unfold is_len; lia|]. split; [|exact O].
    clear. induction ws as [|[a b] ws IH]; cbn; [discriminate|]. destruct (pair_up _); [discriminate|auto].
Qed.
Lemma struct_comes n fs m w js : doc_struct SNameMap n (omap (fun f => match snd f with None => Some (fst f, None) | Some x => option_map (fun m => (fst f, Some m)) (mdoc x) end) fs) = Some m ->
  Forall (fun f => forall v, snd f = Some v -> comes v) fs ->
  all_list (fun f => valid_utf8 (fst f) /\ match snd f with Some x => sval_ok x | None => True end) fs ->
  all_list (fun f => match snd f with Some x => json_native x | None => True end) fs -> all_list (fun f => match snd f with Some x => floats x | None => True end) fs ->
  doc_fields doc fs = Some js -> value w (JObj js) -> back m w.
Proof.
  intros S H O Nt F E V. unfold doc_struct in S. destruct (omap _ fs) as [r|] eqn:Er; [|discriminate]. destruct (doc_fields_name r) as [ps|] eqn:Ep; [|unfold doc_map in S; discriminate].
  inversion V as [| | | | |ws ? D]; subst. eapply map_comes; eauto. eapply fields_come; eauto.
Qed.
Lemma variant_comes n c m w j : valid_utf8 n -> variant_map (doc_str n) c = Some m -> value w (JObj [(n, j)]) ->
  (forall mc u, c = Some mc -> value u j -> back mc u) -> back m w.
Proof.
  intros U V D H. unfold variant_map in V. destruct (doc_str n) as [t|] eqn:En; [|discriminate]. destruct c as [mc|]; [|discriminate]. injection V as <-.
  inversion D as [| | | | |ws ? D']; subst. inversion D' as [|[k u] ? ws' ? [D1 D2] D3]; subst. inversion D3; subst. cbn [fst snd] in D1, D2. subst k.
  apply (map_comes 1 [(t, mc)]); [reflexivity|]. apply back_cons; [apply str_back; auto|eauto|apply back_nil].
Qed.

Lemma all_come v : comes v.
Proof.
  induction v using sval_ind'; intros O Nt F j m w E M D; unfold js_value in E; cbn [js_doc] in E; fold (js_value fp enc) in E; cbn [mp_doc] in M; cbn [sval_ok] in O; cbn [json_native] in Nt; cbn [all_floats] in F; try discriminate;
    try (injection M as <-; injection E as <-; inversion D; subst; split; reflexivity).
  - injection M as <-. injection E as <-. inversion D; subst. match goal with Q : number_as _ _ _ _ |- _ => apply number_dec in Q; [|unfold in_ikind in O; destruct k; cbn in O; lia] end. subst. split; [reflexivity|exact (value_int _ _ O)].
  - injection M as <-. injection E as <-. destruct F as [F1 F2]. unfold f32_num in D. unfold finite32 in F1. destruct (Z.eqb_spec (b / 2 ^ 23 mod 256) 255) as [X|_]; [contradiction|]. cbn in D. inversion D; subst.
    match goal with Q : number_as _ _ _ _ |- _ => rewrite (number_det _ _ _ _ _ Q F2) end. split; [reflexivity|exact O].
  - injection M as <-. injection E as <-. destruct F as [F1 F2]. unfold f64_num in D. unfold finite64 in F1. destruct (Z.eqb_spec (b / 2 ^ 52 mod 2048) 2047) as [X|_]; [contradiction|]. cbn in D. inversion D; subst.
    match goal with Q : number_as _ _ _ _ |- _ => rewrite (number_det _ _ _ _ _ Q F2) end. split; [reflexivity|exact O].
  - injection M as <-. injection E as <-. inversion D; subst. split; [cbn; unfold doc_str; rewrite char_len; reflexivity|]. apply valid_utf8_char. auto.
  - injection E as <-. inversion D; subst. apply str_back; auto.
  - contradiction.
  - apply (IHv O Nt F j m w E M D).
  - injection E as <-. inversion D; subst. apply str_back; tauto.
  - apply (IHv O Nt F j m w E M D).
  - destruct (doc v) as [jc|] eqn:Ej; [|discriminate]. injection E as <-. eapply variant_comes; eauto; [tauto|]. intros mc u Ec Du. eapply IHv; eauto. tauto.
  - destruct l as [n|]; [|discriminate]. destruct (doc_list doc items) as [js|] eqn:Ej; [|discriminate]. injection E as <-. eapply array_comes; eauto. tauto.
  - destruct (doc_list doc items) as [js|] eqn:Ej; [|discriminate]. injection E as <-. eapply array_comes; eauto. tauto.
  - destruct (doc_list doc items) as [js|] eqn:Ej; [|discriminate]. injection E as <-. eapply array_comes; eauto. tauto.
  - destruct (doc_list doc items) as [js|] eqn:Ej; [|discriminate]. injection E as <-. eapply variant_comes; eauto; [tauto|]. intros mc u Ec Du. eapply array_comes; eauto. tauto.
  - destruct l as [n|]; [|discriminate]. destruct (doc_entries doc ops) as [js|] eqn:Ej; [|discriminate]. injection E as <-.
    destruct (omap _ ops) as [r|] eqn:Er; [|discriminate]. destruct (pair_up r) as [ps|] eqn:Ep; [|unfold doc_map in M; discriminate].
    inversion D as [| | | | |ws ? D']; subst. eapply map_comes; eauto. eapply entries_come; eauto. tauto.
  - destruct (doc_fields doc fs) as [js|] eqn:Ej; [|discriminate]. injection E as <-. eapply struct_comes; eauto. tauto.
  - destruct (doc_fields doc fs) as [js|] eqn:Ej; [|discriminate]. injection E as <-. eapply variant_comes; eauto; [tauto|]. intros mc u Ec Du. eapply struct_comes; eauto. tauto.
  - destruct (fmt_text a) as [t|] eqn:Et; [|discriminate]. injection E as <-. inversion D; subst. apply str_back; auto. eapply fmt_text_valid; [|exact Et]. destruct O as (_ & _ & _ & V & _). exact V.
Qed.
End Fro.

Theorem json_to_msgpack ar fl (any_f32 : bool) dec cfg fp enc v b out w1 w2 : let float_of := if any_f32 then f32_from_str fl else f64_from_str fl in
  sval_ok v -> strings_ok v -> maps_ok v -> json_native v ->
  all_floats (fun b => finite32 b /\ number_as any_f32 float_of (UF32 b) (format_f32 fp b)) (fun b => finite64 b /\ number_as any_f32 float_of (UF64 b) (format_f64 fp b)) v ->
  2 ^ 32 - 1 <= cfg_usize_max cfg -> enc <> PassThroughByteEncoder -> printer_ok fp ->
  mp_to_vec cfg StructMapStr v = Ok b -> js_to_string fp enc v = Ok out -> any_ws w1 -> any_ws w2 ->
  (dec = Base64Decoder -> 3 * zlen (w1 ++ out ++ w2) <= usize_max ar) ->
  exists w, (forall fv, exists b' m, mp_to_vec cfg fv (value_trace w) = Ok b' /\ mp_fmt m b /\ mp_fmt m b' /\ length b' = length b) /\
    exists N, forall fuel, (N <= fuel)%nat -> exists s, js_from_mut_slice ar fl any_f32 dec fuel (any JDeserializeError) (w1 ++ out ++ w2) = Done s (Ok w).
Proof.
  intros float_of O S M Nt F C Ne P E J W1 W2 R.
  destruct (js_read_back ar fl fp any_f32 enc dec v out w1 w2 Ne P S M) as (j & w & Ej & V & N); auto.
  { revert F. apply all_floats_mono; intros x [_ Q] _; eexists; exact Q. }
  exists w. split; [|exact N]. intros fv. pose proof (to_vec_documented cfg StructMapStr v O C) as D. cbn [style_of] in D.
  destruct (mp_doc SNameMap v) as [m|] eqn:Em; [|destruct D as [e D]; congruence]. destruct D as (b0 & D0 & Fm & Sh). assert (b0 = b) by congruence. subst b0.
  destruct (all_come fp enc any_f32 float_of (style_of fv) v O Nt F j m w Ej Em V) as [G1 G2].
  pose proof (to_vec_documented cfg fv (value_trace w) G2 C) as D'. rewrite G1 in D'. destruct D' as (b' & D1 & Fm' & Sh'). exists b', m. repeat split; auto.
  apply Nat.le_antisymm; auto.
Qed.

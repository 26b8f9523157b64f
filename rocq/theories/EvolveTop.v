(** Reading with a struct whose fields changed (C68). *)
From Verif Require Import MpDe MpDeTop Prelude PreludeFacts Utf8Spec SerdeSer SerdeDe MpSpec MpBytesSpec MpSer MpErrMap MpBytes
  MpSerSim FloatOps Types TypesFacts MpTypeSpec JsonTypeSpec MpTyped MpTypedSer MpTypedTop ContentFacts EvolveSpec EvolveFacts EvolveSelf.
From Verif Require JsonSpec JsonTypeSpec JsonSer JsonErrMap JsonDe JsonTypedSer JsonCases MpEvolve JsonEvolve.

Section Mp.
Context (ar : arch) (fo : float_ops) (cfg : mp_cfg).
Local Notation prog t := (denote DeserializeError t).
Context (A32 : arch32up ar) (Hc : 2 ^ 32 - 1 <= cfg_usize_max cfg).

Theorem same_type fl t v out tail : wf t -> hastype t v -> mp_to_vec cfg fl (trace t v) = Ok out -> slice_of ar (out ++ tail) ->
  exists N, forall fuel, (N <= fuel)%nat -> exists s, mp_from_slice ar fo fuel (prog t) (out ++ tail) = Done s (Ok (collapse nullish t v, zlen out)).
Proof. intros W H Ho Hs. eapply MpEvolve.evolves; eauto using typed_sval_ok, mp_self. Qed.
Theorem fields_name fs l fs' l' out tail : wf (TStruct fs) -> wf (TStruct fs') -> hastype (TStruct fs) (USeq l) -> fields_by_name (collapse nullish) fs l fs' l' ->
  mp_to_vec cfg StructMapStr (trace (TStruct fs) (USeq l)) = Ok out -> slice_of ar (out ++ tail) ->
  exists N, forall fuel, (N <= fuel)%nat -> exists s, mp_from_slice ar fo fuel (prog (TStruct fs')) (out ++ tail) = Done s (Ok (USeq l', zlen out)).
Proof. intros W W' H R Ho Hs. eapply MpEvolve.evolves; eauto using typed_sval_ok. apply mp_by_name; auto. Qed.
Theorem fields_index fs l fs' l' out tail : wf (TStruct fs) -> wf (TStruct fs') -> hastype (TStruct fs) (USeq l) -> fields_by_position (collapse nullish) absent_ok fs l fs' l' ->
  mp_to_vec cfg StructMapIdx (trace (TStruct fs) (USeq l)) = Ok out -> slice_of ar (out ++ tail) ->
  exists N, forall fuel, (N <= fuel)%nat -> exists s, mp_from_slice ar fo fuel (prog (TStruct fs')) (out ++ tail) = Done s (Ok (USeq l', zlen out)).
Proof. intros W W' H R Ho Hs. eapply MpEvolve.evolves; eauto using typed_sval_ok. apply mp_by_index; auto. Qed.
Theorem fields_compact fs l fs' l' out tail : wf (TStruct fs) -> wf (TStruct fs') -> hastype (TStruct fs) (USeq l) -> (length fs <= length fs')%nat ->
  fields_by_position (collapse nullish) has_default fs l fs' l' ->
  mp_to_vec cfg Compact (trace (TStruct fs) (USeq l)) = Ok out -> slice_of ar (out ++ tail) ->
  exists N, forall fuel, (N <= fuel)%nat -> exists s, mp_from_slice ar fo fuel (prog (TStruct fs')) (out ++ tail) = Done s (Ok (USeq l', zlen out)).
Proof. intros W W' H L R Ho Hs. eapply MpEvolve.evolves; eauto using typed_sval_ok. apply mp_by_position; auto. Qed.

(** What is written means one thing to a type. *)
Theorem fits_once fl t v v' x out : wf t -> sval_ok x -> mp_to_vec cfg fl x = Ok out -> slice_of ar out ->
  mp_fits fo (style_of fl) t v x -> mp_fits fo (style_of fl) t v' x -> v = v'.
Proof.
  intros W Hx Ho Hs F1 F2. rewrite <- (app_nil_r out) in Hs.
  destruct (MpEvolve.evolves ar fo cfg fl t v x out [] A32 W Hx Hc Ho F1 Hs) as [N1 H1].
  destruct (MpEvolve.evolves ar fo cfg fl t v' x out [] A32 W Hx Hc Ho F2 Hs) as [N2 H2].
  destruct (H1 (N1 + N2)%nat ltac:(lia)) as [s1 E1], (H2 (N1 + N2)%nat ltac:(lia)) as [s2 E2]. rewrite E1 in E2. congruence.
Qed.

(** The compact form cannot lose fields. *)
Lemma wf_prefix fs1 fs2 : wf (TStruct (fs1 ++ fs2)) -> wf (TStruct fs1).
Proof.
  cbn [wf]. intros [(H1 & H2 & H3) H4]. rewrite map_app in *. apply all_list_Forall in H4. apply Forall_app in H2, H4. split.
  - split; [|split; [tauto|]].
    + clear - H1. induction (map name_of fs1) as [|n l IH]; [constructor|]. cbn in H1. inversion H1; subst. constructor; auto. intros I. apply H2. apply in_or_app. auto.
    + unfold short, zlen in *. rewrite app_length in H3. lia.
  - apply all_list_Forall. tauto.
Qed.
Lemma prefix_enc fs1 : forall fs2 l, wf (TStruct fs1) -> all2 (fun h v => h v) (map (fun f => hastype (snd f)) (fs1 ++ fs2)) l ->
  Forall (MpEvolve.good SArray) (zip (fun f v => trace (snd f) v) (fs1 ++ fs2) l) ->
  all3 (fun p v x => p v (mp_bytes SArray x)) (map (adm fo) (map snd fs1)) (zip (fun f v => collapse nullish (snd f) v) fs1 (firstn (length fs1) l))
    (firstn (length fs1) (zip (fun f v => trace (snd f) v) (fs1 ++ fs2) l)).
Proof.
  intros fs2 l [_ W]. revert l W. induction fs1 as [|f fs1 IH]; intros [|v l] W H G; cbn [app map all2 zip] in *; try contradiction; try exact I.
  destruct W as [[W1 _] W2], H as [H1 H2]. inversion G as [|? ? G1 G2]; subst. cbn [length firstn zip map all3]. split; [|apply IH; auto].
  apply (MpEvolve.fits_adm SArray fo (snd f) W1); auto. apply mp_self; auto.
Qed.
Theorem compact_drop fs1 fs2 l out tail : wf (TStruct (fs1 ++ fs2)) -> hastype (TStruct (fs1 ++ fs2)) (USeq l) -> fs2 <> [] ->
  Forall (fun f => attr_of f = FPlain) (fs1 ++ fs2) ->
  mp_to_vec cfg Compact (trace (TStruct (fs1 ++ fs2)) (USeq l)) = Ok out -> slice_of ar (out ++ tail) ->
  exists N, forall fuel, (N <= fuel)%nat -> exists s, mp_from_slice ar fo fuel (prog (TStruct fs1)) (out ++ tail) = Done s (Err TrailingElements).
Proof.
  intros W H N2 P Ho Hs. set (fs := fs1 ++ fs2) in *. pose proof (typed_sval_ok _ W _ H) as Hv. apply (to_vec_bytes cfg Compact _ Hv Hc) in Ho. destruct Ho as [Hd ->].
  assert (L : length l = length fs) by (apply struct_len; auto). cbn [trace] in *. unfold struct_call in *. rewrite zip_map in *. fold item in *.
  destruct (MpEvolve.array_struct_good SArray (count_some (zip item fs l)) (zip item fs l) eq_refl (conj Hv Hd)) as (G & Hz & E & _).
  set (xs := map snd (written (zip item fs l))) in *.
  assert (X : xs = zip (fun f v => trace (snd f) v) fs l).
  { unfold xs. clear - P L. revert l L. induction P as [|f fs Pf _ IH]; intros [|v l] L; cbn in L; try discriminate; [reflexivity|]. cbn [zip]. unfold written. cbn [flat_map item fst snd].
    unfold skipped. rewrite Pf. cbn [app map snd]. f_equal. apply IH. lia. }
  cbn [style_of] in *. rewrite E in *. set (n1 := length fs1). 
  assert (Xs : flat_map (mp_bytes SArray) xs = flat_map (mp_bytes SArray) (firstn n1 xs) ++ flat_map (mp_bytes SArray) (skipn n1 xs)) by (rewrite <- flat_map_app, firstn_skipn; auto).
  rewrite Xs in *. replace ((arr_head (zlen xs) ++ flat_map (mp_bytes SArray) (firstn n1 xs) ++ flat_map (mp_bytes SArray) (skipn n1 xs)) ++ tail) with
    ((arr_head (zlen xs) ++ flat_map (mp_bytes SArray) (firstn n1 xs)) ++ flat_map (mp_bytes SArray) (skipn n1 xs) ++ tail) in * by (rewrite <- !app_assoc; auto).
  assert (Lx : length xs = (length fs1 + length fs2)%nat). { rewrite X, zip_len by auto. unfold fs. apply app_length. }
  apply (typed_surplus ar fo A32 (TStruct fs1) (map snd fs1) (zip (fun f v => collapse nullish (snd f) v) fs1 (firstn n1 l)) (zlen xs)); auto.
  - apply (wf_prefix fs1 fs2). exact W.
  - rewrite zip_len, map_length; auto. rewrite firstn_length. unfold n1. rewrite L. unfold fs. rewrite app_length. lia.
  - apply MpEvolve.arr_head_ok. unfold zlen in *. lia.
  - unfold zlen. rewrite map_length, Lx. destruct fs2; [congruence|]. cbn [length]. lia.
  - apply MpEvolve.seq_enc_of. rewrite X. apply (prefix_enc fs1 fs2 l); [apply (wf_prefix fs1 fs2 W)|exact H|rewrite X in G; exact G].
Qed.
End Mp.

Section Js.
Import JsonSpec JsonTypeSpec JsonSer JsonErrMap JsonDe JsonTypedSer JsonCases.
Context (ar : arch) (fl : float_parser) (fp : float_printer) (any_f32 : bool) (enc : byte_encoder) (dec : byte_decoder).
Local Notation prog t := (denote JDeserializeError t).

Theorem json_evolves t v x out w1 w2 : printer_ok fp -> In (enc, dec) flavours -> wf t -> strings_ok x -> maps_ok x ->
  js_to_string fp enc x = Ok out -> js_fits (format_f32 fp) (format_f64 fp) (f32_from_str fl) (f64_from_str fl) t v x -> any_ws w1 -> any_ws w2 ->
  (dec = Base64Decoder -> 3 * zlen (w1 ++ out ++ w2) <= usize_max ar) ->
  exists N, forall fuel, (N <= fuel)%nat ->
    exists s, js_from_mut_slice ar fl any_f32 dec fuel (prog t) (w1 ++ out ++ w2) = Done s (Ok v).
Proof. intros P F. eapply JsonEvolve.evolves; auto using flavours_match. Qed.
Theorem json_fields fs l fs' l' out w1 w2 : law32 fl fp -> law64 fl fp -> printer_ok fp -> In (enc, dec) flavours ->
  wf (TStruct fs) -> good_keys (TStruct fs) -> wf (TStruct fs') -> hastype (TStruct fs) (USeq l) -> fields_by_name json_image fs l fs' l' ->
  js_to_string fp enc (trace (TStruct fs) (USeq l)) = Ok out -> any_ws w1 -> any_ws w2 ->
  (dec = Base64Decoder -> 3 * zlen (w1 ++ out ++ w2) <= usize_max ar) ->
  exists N, forall fuel, (N <= fuel)%nat ->
    exists s, js_from_mut_slice ar fl any_f32 dec fuel (prog (TStruct fs')) (w1 ++ out ++ w2) = Done s (Ok (USeq l')).
Proof.
  intros L32 L64 P F W G W' H R E X1 X2 X3. destruct (typed_strings _ W _ H) as [HS HM]. eapply json_evolves; eauto. apply law_inverse32 in L32. apply law_inverse64 in L64. apply js_by_name; auto.
Qed.
Theorem json_self t v : law32 fl fp -> law64 fl fp -> wf t -> good_keys t -> hastype t v ->
  js_fits (format_f32 fp) (format_f64 fp) (f32_from_str fl) (f64_from_str fl) t (json_image t v) (trace t v).
Proof. intros L32 L64 W G H. apply law_inverse32 in L32. apply law_inverse64 in L64. apply js_self; auto. Qed.
Theorem json_fits_once t v v' x out : printer_ok fp -> In (enc, dec) flavours -> wf t -> strings_ok x -> maps_ok x ->
  js_to_string fp enc x = Ok out -> (dec = Base64Decoder -> 3 * zlen out <= usize_max ar) ->
  js_fits (format_f32 fp) (format_f64 fp) (f32_from_str fl) (f64_from_str fl) t v x ->
  js_fits (format_f32 fp) (format_f64 fp) (f32_from_str fl) (f64_from_str fl) t v' x -> v = v'.
Proof.
  intros P F W HS HM Ho Hz F1 F2. assert (Hz' : dec = Base64Decoder -> 3 * zlen ([] ++ out ++ []) <= usize_max ar) by (rewrite app_nil_r; exact Hz).
  destruct (json_evolves t v x out [] [] P F W HS HM Ho F1 (Forall_nil _) (Forall_nil _) Hz') as [N1 H1].
  destruct (json_evolves t v' x out [] [] P F W HS HM Ho F2 (Forall_nil _) (Forall_nil _) Hz') as [N2 H2].
  destruct (H1 (N1 + N2)%nat ltac:(lia)) as [s1 E1], (H2 (N1 + N2)%nat ltac:(lia)) as [s2 E2]. rewrite E1 in E2. congruence.
Qed.
End Js.

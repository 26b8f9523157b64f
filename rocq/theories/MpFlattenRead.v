(** MessagePack: reading a struct with a flattened field (C72). *)
From Coq Require Import Permutation.
From Verif Require Import Prelude PreludeFacts Utf8 Utf8Spec Utf8Facts SerdeSer SerdeDe MpMagick MpSpec MpDe MpDeView MpDeReads MpDeTop MpErrMap FloatOps Types TypesFacts MpTypeSpec MpTyped MpTypedTop MpAny MpFault MpFaultSpec
  MpAnyFaultSpec MpAnyFault Content ContentSpec ContentFacts EvolveFacts MpSound FlattenFacts MpContent MpTagged Flatten FlattenEncSpec JsonFlatten.
Ltac Zify.zify_post_hook ::= Z.div_mod_to_equations.

Section A.
Context (ar : arch) (fo : float_ops).
Local Notation rde := (rde ar fo).
Local Notation fde := (fde ar fo).
Local Notation rmp := (rmp ar fo).
Local Notation fmp := (fmp ar fo).
Local Notation err := DeserializeError.
Local Notation pairs := (omap (fun e : mpv * mpv => match den (fst e), den (snd e) with Some a, Some b => Some (a, b) | _, _ => None end)).

Lemma rde_flat_field ns i s k : names_ok ns -> nth_error ns i = Some s -> str_enc s k -> rde (request DIdentifier (v_flat_ident err ns)) k (Ok (UIdent (Some i))).
Proof.
  intros (Hd & Hu & _) Hn Hs. apply rde_request. pose proof (find_name_spec ns Hd i s 0 Hn) as F.
  assert (U : valid_utf8 s). { apply nth_error_In in Hn. rewrite Forall_forall in Hu. apply Hu. auto. }
  pose proof (rme_str ar fo DIdentifier (mk_visitor (v_flat_ident err ns)) s k) as R. cbn in R. rewrite F in R. apply R; auto.
Qed.
Lemma rde_flat_other ns m k : other_key ns m k -> exists c, den m = Some c /\ rde (request DIdentifier (v_flat_ident err ns)) k (Ok c) /\
  ((exists s, m = VStr s /\ c = UStr s) \/ (exists z, m = VInt z /\ c = UInt z)).
Proof.
  intros [(s & -> & U & N & E)|(z & -> & E)].
  - exists (UStr s). split; [reflexivity|]. split; [|eauto]. apply rde_request. pose proof (rme_str ar fo DIdentifier (mk_visitor (v_flat_ident err ns)) s k) as R. cbn in R.
    rewrite (find_name_none ns s N) in R. apply R; auto.
  - exists (UInt z). split; [reflexivity|]. split; [|eauto]. apply rde_request. exact (rme_ident_int ar fo (mk_visitor (v_flat_ident err ns)) z k E).
Qed.

Context (fs : list (bytes * fattr * ty)) (g : ty).
Local Notation names := (map name_of fs).
Local Notation seeds := (map (fun f => denote err (snd f)) fs).
Local Notation loop := (flat_loop fo err names seeds (map absent_val fs) g).
Local Notation flat := (flat_map_enc names (map (fun f => adm fo (snd f)) fs) g).
Definition keep (ws : list (val * val)) : list (val * val) := match g with TStruct gs => filter (is_named (map name_of gs)) ws | _ => ws end.
Definition nice : Prop := match g with TStruct _ | TMap _ _ => True | _ => False end.

Lemma keep_cons m k c w ws : (exists s, m = VStr s /\ c = UStr s) \/ (exists z, m = VInt z /\ c = UInt z) -> other_key names m k -> nice ->
  (taken g m -> keep ((c, w) :: ws) = (c, w) :: keep ws) /\ (~ taken g m -> keep ((c, w) :: ws) = keep ws).
Proof.
  intros Hc _ Hg. unfold keep, taken, nice in *. destruct g; try contradiction; [tauto|]. cbn [filter].
  destruct Hc as [(s & -> & ->)|(z & -> & ->)]; [|split; [tauto|reflexivity]]. split; intros H; unfold is_named at 1; cbn [fst].
  - destruct (find_name_in s (map name_of fs0) H 0) as [j ->]. reflexivity.
  - rewrite find_name_none; auto.
Qed.
Lemma flat_nonneg got rest n bs got' : flat got rest n bs got' -> 0 <= n.
Proof. induction 1; lia. Qed.
Lemma seed_reads i p : all_list (fun f => wf (snd f)) fs -> nth_error (map (fun f => adm fo (snd f)) fs) i = Some p ->
  exists f, nth_error fs i = Some f /\ nth_error seeds i = Some (denote err (snd f)) /\ forall v b, p v b -> rde (denote err (snd f)) b (Ok v).
Proof.
  intros W H. rewrite nth_error_map in *. destruct (nth_error fs i) as [f|] eqn:E; [|discriminate]. injection H as <-. exists f. split; [reflexivity|]. split; [reflexivity|].
  intros v b A. apply (denote_reads ar fo); auto. apply (all_list_In _ _ W _ (nth_error_In _ _ E)).
Qed.
Lemma progress got rest n bs got' : names_ok names -> all_list (fun f => wf (snd f)) fs -> flat got rest n bs got' ->
  exists ws wr, pairs rest = Some wr /\ (nice -> keep ws = wr) /\
    (forall c N b r, n <= N -> rmp (loop got' (c ++ ws)) (N - n) b r -> rmp (loop got c) N (bs ++ b) r) /\
    (forall c N b e, n <= N -> fmp (loop got' (c ++ ws)) (N - n) b e -> fmp (loop got c) N (bs ++ b) e).
Proof.
  intros Hn W H. induction H as [got|got rest n i p v s k b bs got' H1 H2 H3 H4 H5 H6 (ws & wr & E & K & IR & IF)|got rest n key m w k b bs got' H1 H2 H3 H4 H5 (ws & wr & E & K & IR & IF)
    |got rest n key m w k b bs got' H1 H2 H3 H4 H5 (ws & wr & E & K & IR & IF)].
  - exists [], []. split; [reflexivity|]. split; [unfold keep; destruct g; auto|]. split; intros c N b r _ X; rewrite app_nil_r, Z.sub_0_r in X; exact X.
  - apply flat_nonneg in H6. destruct (seed_reads i p W H2) as (f & Ef & Es & Rf).
    exists ws, wr. split; [exact E|]. split; [exact K|]. split; intros c N b0 r L X; rewrite (mfrob_eq (loop _ _)); cbn [mfrob flat_loop]; rewrite <- !app_assoc.
    + eapply rmp_key; [lia|reflexivity|eapply rde_flat_field; eauto|]. cbv beta iota. rewrite Es, H1. eapply rmp_val; [reflexivity|apply Rf; eauto|]. apply IR; [lia|]. replace (N - 1 - n) with (N - (1 + n)) by lia. exact X.
    + eapply fmp_later; [lia|eapply rde_flat_field; eauto|]. cbv beta iota. rewrite Es, H1. eapply fmp_val_later; [apply Rf; eauto|]. apply IF; [lia|]. replace (N - 1 - n) with (N - (1 + n)) by lia. exact X.
  - apply flat_nonneg in H5. destruct (rde_flat_other _ _ _ H1) as (c1 & D1 & R1 & S1). pose proof (reads_of ar fo _ _ _ H3 H4) as R2. pose proof (den_of _ _ H4) as D2.
    exists ((c1, w) :: ws), ((c1, w) :: wr). split; [cbn [omap fst snd]; rewrite D1, D2, E; reflexivity|].
    split; [intros Hg; rewrite (proj1 (keep_cons _ _ c1 w ws S1 H1 Hg) H2), K; auto|].
    split; intros c N b0 r L X; rewrite (mfrob_eq (loop _ _)); cbn [mfrob flat_loop]; rewrite <- !app_assoc.
    + eapply rmp_key; [lia|reflexivity|exact R1|]. destruct S1 as [(s & _ & ->)|(z & _ & ->)]; cbv beta iota; (eapply rmp_val; [reflexivity|exact R2|]); cbv beta iota;
        (apply IR; [lia|]); rewrite <- app_assoc; replace (N - 1 - n) with (N - (1 + n)) by lia; exact X.
    + eapply fmp_later; [lia|exact R1|]. destruct S1 as [(s & _ & ->)|(z & _ & ->)]; cbv beta iota; (eapply fmp_val_later; [exact R2|]); cbv beta iota;
        (apply IF; [lia|]); rewrite <- app_assoc; replace (N - 1 - n) with (N - (1 + n)) by lia; exact X.
  - apply flat_nonneg in H5. destruct (rde_flat_other _ _ _ H1) as (c1 & D1 & R1 & S1). pose proof (reads_of ar fo _ _ _ H3 H4) as R2.
    exists ((c1, w) :: ws), wr. split; [exact E|].
    split; [intros Hg; rewrite (proj2 (keep_cons _ _ c1 w ws S1 H1 Hg) H2), K; auto|].
    split; intros c N b0 r L X; rewrite (mfrob_eq (loop _ _)); cbn [mfrob flat_loop]; rewrite <- !app_assoc.
    + eapply rmp_key; [lia|reflexivity|exact R1|]. destruct S1 as [(s & _ & ->)|(z & _ & ->)]; cbv beta iota; (eapply rmp_val; [reflexivity|exact R2|]); cbv beta iota;
        (apply IR; [lia|]); rewrite <- app_assoc; replace (N - 1 - n) with (N - (1 + n)) by lia; exact X.
    + eapply fmp_later; [lia|exact R1|]. destruct S1 as [(s & _ & ->)|(z & _ & ->)]; cbv beta iota; (eapply fmp_val_later; [exact R2|]); cbv beta iota;
        (apply IF; [lia|]); rewrite <- app_assoc; replace (N - 1 - n) with (N - (1 + n)) by lia; exact X.
Qed.

Lemma pairs_perm a b : Permutation a b -> forall wa, pairs a = Some wa -> exists wb, pairs b = Some wb /\ Permutation wa wb.
Proof.
  induction 1 as [|x a b _ IH|x y a|a b c _ IH1 _ IH2]; intros wa E.
  - exists wa. auto.
  - cbn [omap] in *. destruct (match den (fst x) with Some _ => _ | None => None end) as [e|]; [|discriminate]. destruct (pairs a) as [w|]; [|discriminate]. injection E as <-.
    destruct (IH _ eq_refl) as (wb & -> & P). eauto.
  - cbn [omap] in *. destruct (match den (fst y) with Some _ => _ | None => None end) as [e|]; [|discriminate]. destruct (match den (fst x) with Some _ => _ | None => None end) as [e'|]; [|discriminate].
    destruct (pairs a) as [w|]; [|discriminate]. injection E as <-. eexists. split; [reflexivity|]. constructor.
  - destruct (IH1 _ E) as (wb & Eb & P). destruct (IH2 _ Eb) as (wc & Ec & P'). exists wc. split; auto. eapply Permutation_trans; eauto.
Qed.
Lemma from_rest_keep ws w : nice -> from_content fo g (UMap (keep ws)) = w -> from_rest fo g ws = w.
Proof. unfold nice, keep, from_rest. destruct g; tauto. Qed.
Theorem flat_reads st l w bs : wf (TStruct fs) -> nice -> wf g -> strict g -> told_apart st g -> hastype g w -> flat_enc fo fs g st l w bs ->
  rde (flattened fo err fs g) bs (Ok (USeq [USeq l; w])).
Proof.
  intros [Hn Hw] Hg Wg Sg Tg Ht (n & h & b & rest & got & rest' & -> & Hh & Hf & Hl & Hd & Hs).
  assert (W : all_list (fun f => wf (snd f)) fs). { clear - Hw. induction fs as [|f l IH]; [exact I|]. destruct Hw as [[W1 _] W2]. split; auto. }
  destruct (progress _ _ _ _ _ Hn W Hf) as (ws & wr & E & K & IR & _). unfold flattened. apply rde_request. eapply rme_map; [exact Hh|]. cbn [mk_visitor v_map on_map visit_map].
  rewrite <- (app_nil_r b). apply IR; [lia|]. cbn [app]. rewrite Z.sub_diag, (mfrob_eq (loop _ _)); cbn [mfrob flat_loop]. apply rmp_end. cbv beta iota. rewrite (finish_all _ _ _ Hl).
  rewrite (from_rest_keep ws (Some w) Hg); [apply rmp_ret|]. rewrite (K Hg).
  assert (B : forall wr', pairs rest' = Some wr' -> from_content fo g (UMap wr') = Some w).
  { intros wr' E'. apply (content_back fo st g Wg Sg Tg w (VMap rest')); auto. cbn [den]. rewrite E'. reflexivity. }
  unfold same_pairs in Hs. destruct g; try (subst; auto; fail). destruct (pairs_perm _ _ Hs _ E) as (wr' & E' & P). eapply from_content_perm; eauto.
Qed.

Lemma fields_absent (gs : list (bytes * fattr * ty)) i (f : bytes * fattr * ty) got ws got' : nth_error (map name_of gs) i = Some (name_of f) -> NoDup (map name_of gs) ->
  Forall (fun e => exists s, fst e = UStr s /\ s <> name_of f) ws -> nth_error got i = Some None ->
  content_fields (map name_of gs) (map (fun f => from_content fo (snd f)) gs) got ws = Some got' -> nth_error got' i = Some None.
Proof.
  intros Hi Hd H. revert got. induction H as [|[k c] ws (s & Hk & Hs) _ IH]; intros got Hg E; cbn in E; [injection E as <-; exact Hg|].
  cbn [fst] in Hk. subst k. cbn [content_ident] in E. destruct (find_name s (map name_of gs) 0) as [j|] eqn:Ej; [|eauto].
  destruct (nth_error (map _ gs) j) as [h|]; [|discriminate]. destruct (nth_error got j) as [[x|]|] eqn:Eg; try discriminate. destruct (h c) as [v|]; [|discriminate].
  eapply IH; [|exact E]. assert (j <> i). { intros ->. apply find_name_sound in Ej. destruct Ej as (k & -> & Ek). cbn in Hi. congruence. }
  rewrite nth_set_nth. destruct (Nat.eqb_spec j i); [congruence|exact Hg].
Qed.
Lemma taken_keys got rest n bs got' : flat got rest n bs got' -> Forall (fun e => taken g (fst e)) rest.
Proof. induction 1; auto. Qed.
Lemma pair_keys_of gs (f : bytes * fattr * ty) : forall rest wr, g = TStruct gs -> pairs rest = Some wr -> Forall (fun e => taken g (fst e)) rest -> (forall m, ~ In (VStr (name_of f), m) rest) ->
  Forall (fun e => exists s, fst e = UStr s /\ s <> name_of f) wr.
Proof.
  intros rest wr Hg. revert wr. induction rest as [|[k m] rest IH]; intros wr E F N; cbn [omap fst snd] in E; [injection E as <-; constructor|].
  apply Forall_cons_iff in F. destruct F as [F1 F2]. cbn [fst] in F1. rewrite Hg in F1. cbn [taken] in F1. destruct k; try contradiction. cbn [den] in E. destruct (den m) as [w|]; [|discriminate].
  destruct (pairs rest) as [ws|] eqn:Er; [|discriminate]. injection E as <-. constructor.
  - exists s. split; [reflexivity|]. intros ->. apply (N m). left. reflexivity.
  - apply IH; auto. intros m' H. apply (N m'). right. exact H.
Qed.

Lemma pair_names gs : forall rest wr, g = TStruct gs -> pairs rest = Some wr -> Forall (fun e => taken g (fst e)) rest -> exists ks, map fst rest = map VStr ks /\ map fst wr = map UStr ks.
Proof.
  intros rest wr Hg. revert wr. induction rest as [|[k m] rest IH]; intros wr E F; cbn [omap fst snd] in E; [injection E as <-; exists []; auto|].
  apply Forall_cons_iff in F. destruct F as [F1 F2]. cbn [fst] in F1. rewrite Hg in F1. cbn [taken] in F1. destruct k; try contradiction. cbn [den] in E. destruct (den m) as [w|]; [|discriminate].
  destruct (pairs rest) as [ws|] eqn:Er; [|discriminate]. injection E as <-. destruct (IH _ eq_refl F2) as (ks & E1 & E2). exists (s :: ks). cbn. rewrite E1, E2. auto.
Qed.

Ltac deny := apply fails_cons; consts; repeat match goal with
  | |- context [if ?b then _ else _] => replace b with false by (unfold between; lia) end;
  first [apply fails_fail|apply fails_bind1, fails_fail].
Theorem flat_fails bs e : wf (TStruct fs) -> wf g -> flat_fault fo fs g bs e -> fde (flattened fo err fs g) bs e.
Proof.
  intros [Hn Hw] Wg H.
  assert (W : all_list (fun f => wf (snd f)) fs). { clear - Hw. induction fs as [|f l IH]; [exact I|]. destruct Hw as [[W1 _] W2]. split; auto. }
  unfold flattened. apply fde_request. destruct H as [c Hc Hf|n h m rest bs got k e Hh L F K|n h m rest bs got i v s k Hh L F G Hs K|n h m rest bs got i f k b e Hh L F Ef G K X
    |n h m rest bs got key k b e Hh L F K X|n h rest bs got i f Hh F Ef G A O|n h rest bs got gs f Hh F Eg I N A O|n h rest bs got gs f a b c m m' Hh F Eg I Er].
  1:{ apply ev_all. intros f. cbn [mp_method]. unfold deserialize_map, is_byte in *.
    assert (c < 0x80 \/ 0x8f < c < 0xde \/ 0xdf < c) by (unfold family_of in Hf; repeat match type of Hf with context [if ?b then _ else _] => destruct b eqn:? end; try congruence; lia). deny. }
  all: (eapply fme_map; [cbn; auto|exact Hh|]); cbn [mk_visitor v_map on_map visit_map]; destruct (progress _ _ _ _ _ Hn W F) as (ws & wr & E & Kp & _ & IF).
  - apply IF; [lia|]. rewrite (mfrob_eq (loop _ _)); cbn [mfrob flat_loop]. eapply fmp_now; [lia|reflexivity|]. apply fde_request, ev_all. intros f. apply fails_ident. auto.
  - apply IF; [lia|]. rewrite (mfrob_eq (loop _ _)); cbn [mfrob flat_loop]. rewrite <- (app_nil_r k). eapply fmp_later; [lia|eapply rde_flat_field; eauto|]. cbv beta iota. rewrite G.
    destruct (nth_error seeds i); apply fmp_ret.
  - apply IF; [lia|]. rewrite (mfrob_eq (loop _ _)); cbn [mfrob flat_loop]. eapply fmp_later; [lia|eapply (rde_flat_field _ i); eauto; rewrite nth_error_map, Ef; reflexivity|]. cbv beta iota. rewrite G, nth_error_map, Ef. cbn [option_map].
    eapply fmp_val_now; [reflexivity|]. apply (fault_fails ar fo); auto. apply (all_list_In _ _ W _ (nth_error_In _ _ Ef)).
  - destruct (rde_flat_other _ _ _ K) as (c1 & _ & R1 & S1). apply IF; [lia|]. rewrite (mfrob_eq (loop _ _)); cbn [mfrob flat_loop]. eapply fmp_later; [lia|exact R1|].
    destruct S1 as [(s & _ & ->)|(z & _ & ->)]; cbv beta iota; (eapply fmp_val_now; [reflexivity|]); apply any_fails; exact X.
  - rewrite <- (app_nil_r bs). apply IF; [lia|]. rewrite Z.sub_diag, (mfrob_eq (loop _ _)); cbn [mfrob flat_loop]. apply fmp_end. cbv beta iota. rewrite (finish_none fs got i f); auto; [apply fmp_ret|].
    destruct f as [[nm []] t]; try discriminate. unfold absent_val. cbn in *. destruct t; auto. destruct (O t). reflexivity.
  - rewrite <- (app_nil_r bs). apply IF; [lia|]. rewrite Z.sub_diag, (mfrob_eq (loop _ _)); cbn [mfrob flat_loop]. apply fmp_end. cbv beta iota. cbn [app].
    assert (Z0 : from_rest fo g ws = None).
    { apply from_rest_keep; [unfold nice; rewrite Eg; exact Logic.I|]. rewrite Kp by (unfold nice; rewrite Eg; exact Logic.I). pose proof (pair_keys_of gs f rest wr Eg E (taken_keys _ _ _ _ _ F) N) as P. rewrite Eg in Wg |- *.
      cbn [from_content content_struct]. destruct (content_fields _ _ _ wr) as [got'|] eqn:Ec; [|reflexivity]. destruct (In_nth_error _ _ I) as [i Ei].
      rewrite (finish_none gs got' i f); auto; [eapply fields_absent; eauto; [rewrite nth_error_map, Ei; reflexivity|apply Wg|rewrite nth_error_map, Ei; reflexivity]|].
      destruct f as [[nm []] t]; try discriminate. unfold absent_val. cbn in *. destruct t; auto. destruct (O t). reflexivity. }
    rewrite Z0. destruct (finish _ _); apply fmp_ret.
  - rewrite <- (app_nil_r bs). apply IF; [lia|]. rewrite Z.sub_diag, (mfrob_eq (loop _ _)); cbn [mfrob flat_loop]. apply fmp_end. cbv beta iota. cbn [app].
    assert (Z0 : from_rest fo g ws = None).
    { apply from_rest_keep; [unfold nice; rewrite Eg; exact Logic.I|]. rewrite Kp by (unfold nice; rewrite Eg; exact Logic.I). pose proof (pair_names gs rest wr Eg E (taken_keys _ _ _ _ _ F)) as (ks & P1 & P2). rewrite Eg in Wg |- *.
      cbn [from_content content_struct]. destruct (In_nth_error _ _ I) as [i Ei].
      rewrite (content_again (map name_of gs) _ (proj1 (proj1 Wg)) ks wr _ i (name_of f)); [reflexivity|rewrite nth_error_map, Ei; reflexivity|exact P2|].
      rewrite Er, !map_app in P1. cbn [map fst] in P1. rewrite map_app in P1. cbn [map fst] in P1. clear - P1. symmetry in P1. apply map_eq_app in P1. destruct P1 as (k1 & k2 & -> & _ & P1).
      destruct k2 as [|k k2]; [discriminate|]. cbn in P1. injection P1 as -> P1. apply map_eq_app in P1. destruct P1 as (k3 & k4 & -> & _ & P1). destruct k4 as [|k k4]; [discriminate|]. cbn in P1. injection P1 as -> P1. eauto. }
    rewrite Z0. destruct (finish _ _); apply fmp_ret.
Qed.

Theorem mp_flat_accepts st l w bs tail : arch32up ar -> wf (TStruct fs) -> (exists gs, g = TStruct gs) \/ (exists k v, g = TMap k v) -> wf g -> strict g -> told_apart st g -> hastype g w ->
  flat_enc fo fs g st l w bs -> slice_of ar (bs ++ tail) ->
  exists N, forall fuel, (N <= fuel)%nat -> exists s, mp_from_slice ar fo fuel (flattened fo err fs g) (bs ++ tail) = Done s (Ok (USeq [USeq l; w], zlen bs)).
Proof.
  intros A W G Wg Sg Tg Ht H Hs. assert (nice) by (unfold nice; destruct G as [[gs ->]|(k & v & ->)]; exact I).
  destruct (flat_reads st l w bs) as [N HN]; auto. exists N. intros f Hf. apply from_slice_reads; auto.
Qed.
Theorem mp_flat_refuses bs e tail : arch32up ar -> wf (TStruct fs) -> wf g -> flat_fault fo fs g bs e -> slice_of ar (bs ++ tail) ->
  exists N, forall fuel, (N <= fuel)%nat -> exists s, mp_from_slice ar fo fuel (flattened fo err fs g) (bs ++ tail) = Done s (Err e).
Proof. intros A W Wg H Hs. destruct (flat_fails _ _ W Wg H) as [N F]. exists N. intros f Hf. apply from_slice_fails; auto. Qed.
End A.

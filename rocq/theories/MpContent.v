(** Untagged enums in MessagePack (C65). *)
From Verif Require Import Prelude PreludeFacts Utf8Spec Utf8 Utf8Facts SerdeSer SerdeDe FloatOps Arch MpSpec MpErrMap MpSer MpDe MpDeView MpDeTop Types TypesFacts
  MpTypeSpec MpTyped MpTypedSer MpTypedTop MpReadBack Content ContentSpec ContentFacts.

(** ** What a message denotes, as a function *)
Fixpoint den (m : mpv) : option val :=
  match m with
  | VNil => Some UUnit
  | VBool b => Some (UBool b)
  | VInt z => Some (UInt z)
  | VF32 x => Some (UF32 x)
  | VF64 x => Some (UF64 x)
  | VStr s => Some (UStr s)
  | VBin b => Some (UBytes b)
  | VArr l => option_map USeq (omap den l)
  | VMap l => option_map UMap (omap (fun e => match den (fst e), den (snd e) with Some a, Some b => Some (a, b) | _, _ => None end) l)
  | VExt _ _ => None
  end.
Scheme denotes_i := Minimality for denotes Sort Prop
with denotes_list_i := Minimality for denotes_list Sort Prop
with denotes_pairs_i := Minimality for denotes_pairs Sort Prop.
Lemma den_of m w : denotes m (inl w) -> den m = Some w.
Proof.
  assert (G : forall r, denotes m r -> match r with inl w => den m = Some w | Datatypes.inr _ => True end); [|intros H; exact (G _ H)].
  intros r H.
  apply (denotes_i (fun m r => match r with inl w => den m = Some w | Datatypes.inr _ => True end)
    (fun l r => match r with inl ws => omap den l = Some ws | Datatypes.inr _ => True end)
    (fun l r => match r with inl ws => omap (fun e => match den (fst e), den (snd e) with Some a, Some b => Some (a, b) | _, _ => None end) l = Some ws | Datatypes.inr _ => True end));
    cbn; intros; auto.
  all: repeat match goal with H : _ = Some _ |- _ => rewrite H; clear H end; reflexivity.
Qed.

Section C.
Context (fo : float_ops) (st : style).
Local Notation doc v := (mp_doc st v).
Local Notation get := (from_content fo).

(** What is written for [v] is read back from its content. *)
Definition back (t : ty) : Prop := wf t -> strict t -> told_apart st t -> forall v m w, hastype t v -> doc (trace t v) = Some m -> den m = Some w -> get t w = Some v.


(** ** Shapes *)
Definition fields_shape : shape := match st with SArray => Arr | _ => Obj end.
Lemma written_shape t : wf t -> told_apart st t -> forall v m w, hastype t v -> doc (trace t v) = Some m -> den m = Some w ->
  exists s, shape_of w = Some s /\ In s (written Bin fields_shape t).
Proof.
  induction t as [ |k| | | | | | | |t IH|t IH|t IH|ts IH|ts IH|kt vt IHk IHv|fs IH|vs IH] using ty_ind'; intros W N v m w H D E.
  11:{ exact (IH W N v m w H D E). }
  all: destruct v; cbn [hastype] in H; try tauto; cbn [trace] in D.
  all: try (cbn in D; injection D as <-; cbn in E; injection E as <-; eexists; split; [reflexivity|cbn; auto]; fail).
  - cbn in D. unfold doc_str in D. destruct (lt32 _); [|discriminate]. injection D as <-. injection E as <-. eexists; split; [reflexivity|cbn; auto].
  - cbn in D. destruct (lt32 _); [|discriminate]. injection D as <-. injection E as <-. eexists; split; [reflexivity|cbn; auto].
  - destruct (IH W N v m w H D E) as (s & S & I). exists s. split; [exact S|right; exact I].
  - cbn in D. unfold doc_array in D. destruct (omap _ _); [|discriminate]. destruct (_ && _); [|discriminate]. injection D as <-. cbn in E.
    destruct (omap _ _); [|discriminate]. injection E as <-. eexists; split; [reflexivity|cbn; auto].
  - cbn in D. unfold doc_array in D. destruct (omap _ _); [|discriminate]. destruct (_ && _); [|discriminate]. injection D as <-. cbn in E.
    destruct (omap _ _); [|discriminate]. injection E as <-. eexists; split; [reflexivity|cbn; auto].
  - cbn in D. unfold doc_array in D. destruct (omap _ _); [|discriminate]. destruct (_ && _); [|discriminate]. injection D as <-. cbn in E.
    destruct (omap _ _); [|discriminate]. injection E as <-. eexists; split; [reflexivity|cbn; auto].
  - cbn in D. destruct (omap _ _); [|discriminate]. unfold doc_map in D. destruct (pair_up _); [|discriminate]. destruct (_ && _); [|discriminate].
    injection D as <-. cbn in E. destruct (omap _ _); [|discriminate]. injection E as <-. eexists; split; [reflexivity|cbn; auto].
  - cbn [mp_doc struct_call] in D. unfold doc_struct in D. destruct (omap _ _) as [ds|]; [|discriminate]. unfold fields_shape.
    destruct st; unfold doc_array, doc_map in D.
    + destruct (doc_fields_array _); [|discriminate]. destruct (_ && _); [|discriminate]. injection D as <-. cbn in E. destruct (omap _ _); [|discriminate].
      injection E as <-. eexists; split; [reflexivity|cbn; auto].
    + destruct (_ && _); [|discriminate]. injection D as <-. cbn in E. destruct (omap _ _); [|discriminate].
      injection E as <-. eexists; split; [reflexivity|cbn; auto].
    + destruct (doc_fields_name _); [|discriminate]. destruct (_ && _); [|discriminate]. injection D as <-. cbn in E. destruct (omap _ _); [|discriminate].
      injection E as <-. eexists; split; [reflexivity|cbn; auto].
  - destruct N as [N _]. rewrite nth_error_map in D, H. destruct (nth_error vs i) as [[[n kd] ct]|] eqn:En; cbn [option_map] in D, H; [|tauto]. cbn [name_of attr_of fst snd] in D.
    assert (V : forall c, variant_map (doc_variant st (Z.of_nat i) n) c = Some m -> exists k c, m = VMap [(k, c)] /\ den k <> None).
    { intros c Q. unfold variant_map in Q. destruct (doc_variant st (Z.of_nat i) n) as [k|] eqn:K; [|discriminate]. destruct c as [c|]; [|discriminate]. injection Q as <-.
      exists k, c. split; auto. unfold doc_variant, doc_str in K. destruct st; [injection K as <-; discriminate|injection K as <-; discriminate|]. destruct (lt32 _); [injection K as <-|]; discriminate. }
    assert (G : forall k c, m = VMap [(k, c)] -> den k <> None -> exists s, shape_of w = Some s /\ In s (written Bin fields_shape (TEnum vs))).
    { intros k c -> Q. cbn in E. destruct (den k); [|tauto]. destruct (den c); [|discriminate]. injection E as <-. eexists; split; [reflexivity|cbn; auto]. }
    unfold variant_call in D. destruct kd.
    + destruct N as [->|[_ N]]; [|exfalso; apply (all_list_In' _ _ N _ (nth_error_In _ _ En)); reflexivity].
      cbn in D. unfold doc_str in D. destruct (lt32 _); [|discriminate]. injection D as <-. cbn in E. injection E as <-. eexists; split; [reflexivity|cbn; auto].
    + destruct (V _ D) as (k & c & Q & R). eapply G; eauto.
    + destruct (trace ct v); destruct (V _ D) as (? & ? & Q & R); eapply G; eauto.
    + destruct (trace ct v); destruct (V _ D) as (? & ? & Q & R); eapply G; eauto.
Qed.
Lemma not_null t : ~ nullable t -> ~ In Null (written Bin fields_shape t).
Proof.
  induction t using ty_ind'; cbn; intros N I; try tauto.
  all: try (destruct I as [I|I]; try discriminate; destruct I; try discriminate; tauto).
  unfold fields_shape in I. destruct I as [I|I]; [|auto]. destruct st; discriminate.
Qed.

(** ** Structs *)
Definition fitem (f : bytes * fattr * ty) (v : val) (d : bytes * option mpv) : Prop :=
  fst d = name_of f /\ if skipped (attr_of f) v then snd d = None else exists m, doc (trace (snd f) v) = Some m /\ snd d = Some m.
Definition fback (f : bytes * fattr * ty) (v : val) : Prop := forall m w, doc (trace (snd f) v) = Some m -> den m = Some w -> get (snd f) w = Some v.
Inductive items3 : list (bytes * fattr * ty) -> list val -> list (bytes * option mpv) -> Prop :=
| I3_nil : items3 [] [] []
| I3_cons f v d fs l ds : fitem f v d -> fback f v -> items3 fs l ds -> items3 (f :: fs) (v :: l) (d :: ds).
Lemma items_of fs : forall l ds, all2 fback fs l ->
  omap (fun f : bytes * option sval => match snd f with None => Some (fst f, None) | Some x => option_map (fun m => (fst f, Some m)) (doc x) end)
    (zip (fun f v => (name_of f, if skipped (attr_of f) v then None else Some (trace (snd f) v))) fs l) = Some ds -> items3 fs l ds.
Proof.
  induction fs as [|f fs IH]; intros [|v l] ds H E; cbn [all2] in H; try tauto.
  - cbn in E. injection E as <-. constructor.
  - cbn [zip omap fst snd] in E. destruct H as [Hf H].
    match type of E with match ?x with _ => _ end = _ => destruct x as [d|] eqn:Ed; [|discriminate] end.
    match type of E with match ?x with _ => _ end = _ => destruct x as [ds'|] eqn:Eds; [|discriminate] end.
    injection E as <-. constructor; auto. unfold fitem. destruct (skipped (attr_of f) v).
    + injection Ed as <-. auto.
    + destruct (doc (trace (snd f) v)) as [m|] eqn:Em; [|discriminate]. injection Ed as <-. cbn. eauto.
Qed.
Local Notation ps := (map (fun f : bytes * fattr * ty => get (snd f))).
Local Notation dfs := (map (fun f : bytes * fattr * ty => default_of (attr_of f))).
Lemma rest_default fs : forall l ds, items3 fs l ds -> forallb (fun f : bytes * option mpv => match snd f with None => true | Some _ => false end) ds = true ->
  content_seq (zip pair (ps fs) (dfs fs)) [] = Some l.
Proof.
  induction 1 as [|f v d fs l ds [Hn Hf] Hb _ IH]; cbn; auto. intros E. apply andb_prop in E. destruct E as [E1 E2].
  destruct (skipped (attr_of f) v) eqn:Es; [|destruct Hf as (m & _ & F); rewrite F in E1; discriminate].
  rewrite (skipped_eq f v Es). cbn. rewrite IH; auto.
Qed.
Lemma seq_back fs : forall l ds, items3 fs l ds -> forall ms ws, doc_fields_array ds = Some ms -> omap den ms = Some ws ->
  content_seq (zip pair (ps fs) (dfs fs)) ws = Some l.
Proof.
  induction 1 as [|f v d fs l ds [Hn Hf] Hb Hi IH]; intros ms ws E W.
  - cbn in E. injection E as <-. cbn in W. injection W as <-. reflexivity.
  - destruct d as [n d]. cbn [fst snd] in Hf. cbn [doc_fields_array] in E. destruct (skipped (attr_of f) v) eqn:Es.
    + rewrite Hf in E. destruct (forallb _ ds) eqn:F; [|discriminate]. injection E as <-. cbn in W. injection W as <-.
      cbn. rewrite (skipped_eq f v Es). cbn. rewrite (rest_default fs l ds Hi F). reflexivity.
    + destruct Hf as (m & Em & ->). destruct (doc_fields_array ds) as [ms'|] eqn:F; [|discriminate]. injection E as <-.
      cbn [omap] in W. destruct (den m) as [w|] eqn:Ew; [|discriminate]. destruct (omap den ms') as [ws'|] eqn:Ews; [|discriminate]. injection W as <-.
      cbn. rewrite (Hb m w Em Ew), (IH ms' ws' eq_refl Ews). destruct (default_of (attr_of f)); reflexivity.
Qed.
Definition gv (f : bytes * fattr * ty) (v : val) : option val := if skipped (attr_of f) v then None else Some v.
Lemma finish_back fs : forall l ds, items3 fs l ds -> finish (zip gv fs l) (map absent_val fs) = Some l.
Proof.
  induction 1 as [|f v d fs l ds [Hn Hf] Hb _ IH]; cbn; auto. unfold gv at 1. destruct (skipped (attr_of f) v) eqn:Es; rewrite IH.
  - unfold absent_val. rewrite (skipped_eq f v Es). reflexivity.
  - destruct (absent_val f); reflexivity.
Qed.
Local Notation pairs := (omap (fun e : mpv * mpv => match den (fst e), den (snd e) with Some a, Some b => Some (a, b) | _, _ => None end)).
(** One entry read. *)
Lemma field_step fs fs1 f fs2 g1 v c k l : fs = fs1 ++ f :: fs2 -> length g1 = length fs1 -> content_ident (map name_of fs) k = Some (Some (length fs1)) ->
  get (snd f) c = Some v ->
  content_fields (map name_of fs) (ps fs) (g1 ++ None :: map (fun _ => None) fs2) ((k, c) :: l) =
  content_fields (map name_of fs) (ps fs) ((g1 ++ [Some v]) ++ map (fun _ => None) fs2) l.
Proof.
  intros Hfs Hg K V. cbn [content_fields]. rewrite K. rewrite nth_error_map, Hfs, nth_error_mid. cbn [option_map].
  rewrite <- Hg, nth_error_mid, V, set_nth_app. reflexivity.
Qed.
Lemma index_back fs : zlen fs <= 256 -> forall fs2 l ds, items3 fs2 l ds -> forall fs1 g1 ws, fs = fs1 ++ fs2 -> length g1 = length fs1 ->
  pairs (doc_fields_index (zlen fs1) ds) = Some ws ->
  content_fields (map name_of fs) (ps fs) (g1 ++ map (fun _ => None) fs2) ws = Some (g1 ++ zip gv fs2 l).
Proof.
  intros Hs. induction 1 as [|f v d fs2 l ds [Hn Hf] Hb Hi IH]; intros fs1 g1 ws Hfs Hg E.
  - cbn in E. injection E as <-. reflexivity.
  - destruct d as [n d]. cbn [fst snd] in Hf. cbn [doc_fields_index] in E. cbn [map zip].
    assert (L : zlen fs1 + 1 = zlen (fs1 ++ [f])) by (unfold zlen; rewrite app_length; cbn; lia).
    unfold gv at 1. destruct (skipped (attr_of f) v) eqn:Es.
    + rewrite Hf in E. rewrite L in E. specialize (IH (fs1 ++ [f]) (g1 ++ [None]) ws). rewrite <- !app_assoc in IH. apply IH; auto. rewrite !app_length. cbn. lia.
    + destruct Hf as (m & Em & ->). cbn [omap fst snd] in E. cbn [den] in E. destruct (den m) as [w|] eqn:Ew; [|discriminate].
      match type of E with match ?x with _ => _ end = _ => destruct x as [ws'|] eqn:Ews; [|discriminate] end. injection E as <-.
      rewrite (field_step fs fs1 f fs2 g1 v w (UInt (zlen fs1)) ws' Hfs Hg).
      * specialize (IH (fs1 ++ [f]) (g1 ++ [Some v]) ws'). rewrite L in Ews. rewrite <- !app_assoc in IH. rewrite <- !app_assoc. apply IH; auto. rewrite !app_length. cbn. lia.
      * cbn. assert (zlen fs1 < zlen fs) by (rewrite Hfs; unfold zlen; rewrite app_length; cbn; lia).
        assert (M : zlen (map name_of fs) = zlen fs) by (unfold zlen; rewrite map_length; auto). rewrite M.
        assert (Hp : 0 <= zlen fs1) by (unfold zlen; lia).
        destruct (Z.leb_spec 0 (zlen fs1)); [|lia]. destruct (Z.ltb_spec (zlen fs1) 256); [|lia]. destruct (Z.ltb_spec (zlen fs1) (zlen fs)); [|lia]. cbn.
        unfold zlen. rewrite Nat2Z.id. reflexivity.
      * apply (Hb m w); auto.
Qed.
Lemma name_back fs : names_ok (map name_of fs) -> forall fs2 l ds, items3 fs2 l ds -> forall fs1 g1 ms ws, fs = fs1 ++ fs2 -> length g1 = length fs1 ->
  doc_fields_name ds = Some ms -> pairs ms = Some ws ->
  content_fields (map name_of fs) (ps fs) (g1 ++ map (fun _ => None) fs2) ws = Some (g1 ++ zip gv fs2 l).
Proof.
  intros (D & _ & _). induction 1 as [|f v d fs2 l ds [Hn Hf] Hb Hi IH]; intros fs1 g1 ms ws Hfs Hg E W.
  - cbn in E. injection E as <-. cbn in W. injection W as <-. reflexivity.
  - destruct d as [n d]. cbn [fst snd] in Hf, Hn. cbn [doc_fields_name] in E. cbn [map zip].
    unfold gv at 1. destruct (skipped (attr_of f) v) eqn:Es.
    + rewrite Hf in E. specialize (IH (fs1 ++ [f]) (g1 ++ [None]) ms ws). rewrite <- !app_assoc in IH. apply IH; auto. rewrite !app_length. cbn. lia.
    + destruct Hf as (m & Em & ->). unfold doc_str in E. destruct (lt32 _); [|discriminate].
      destruct (doc_fields_name ds) as [ms'|] eqn:Ems; [|discriminate]. injection E as <-.
      cbn [omap fst snd] in W. cbn [den] in W. destruct (den m) as [w|] eqn:Ew; [|discriminate].
      match type of W with match ?x with _ => _ end = _ => destruct x as [ws'|] eqn:Ews; [|discriminate] end. injection W as <-.
      rewrite (field_step fs fs1 f fs2 g1 v w (UStr n) ws' Hfs Hg).
      * specialize (IH (fs1 ++ [f]) (g1 ++ [Some v]) ms' ws'). rewrite <- !app_assoc in IH. rewrite <- !app_assoc. apply IH; auto. rewrite !app_length. cbn. lia.
      * cbn. rewrite (find_name_spec (map name_of fs) D (length fs1) n 0); [reflexivity|]. rewrite nth_error_map, Hfs, nth_error_mid. cbn. congruence.
      * apply (Hb m w); auto.
Qed.
Lemma struct_back fs l len m w ds : names_ok (map name_of fs) -> (st = SIndexMap -> zlen fs <= 256) -> items3 fs l ds ->
  doc_struct st len (Some ds) = Some m -> den m = Some w -> content_struct fs (ps fs) w = Some (USeq l).
Proof.
  intros Hn Hx Hi D E. unfold doc_struct in D. destruct st; unfold doc_array, doc_map in D.
  - destruct (doc_fields_array ds) as [ms|] eqn:F; [|discriminate]. destruct (_ && _); [|discriminate]. injection D as <-. cbn in E.
    destruct (omap den ms) as [ws|] eqn:Ews; [|discriminate]. injection E as <-. cbn. rewrite (seq_back fs l ds Hi ms ws F Ews). reflexivity.
  - destruct (_ && _); [|discriminate]. injection D as <-. cbn [den] in E. destruct (pairs _) as [ws|] eqn:Ews; [|discriminate]. injection E as <-.
    pose proof (index_back fs (Hx eq_refl) fs l ds Hi [] [] ws eq_refl eq_refl Ews) as Q. cbn [app] in Q. unfold content_struct. rewrite Q, (finish_back fs l ds Hi). reflexivity.
  - destruct (doc_fields_name ds) as [ms|] eqn:F; [|discriminate]. destruct (_ && _); [|discriminate]. injection D as <-. cbn [den] in E.
    destruct (pairs _) as [ws|] eqn:Ews; [|discriminate]. injection E as <-.
    pose proof (name_back fs Hn fs l ds Hi [] [] ms ws eq_refl eq_refl F Ews) as Q. cbn [app] in Q. unfold content_struct. rewrite Q, (finish_back fs l ds Hi). reflexivity.
Qed.

Lemma tuple_back ts : Forall back ts -> all_list wf ts -> all_list strict ts -> all_list (told_apart st) ts ->
  forall l ms ws, all2 (fun h v => h v) (map hastype ts) l -> omap (mp_doc st) (zip (fun f v => f v) (map trace ts) l) = Some ms -> omap den ms = Some ws ->
  content_tuple (map get ts) ws = Some l.
Proof.
  induction 1 as [|t ts B _ IH]; intros W S N [|v l] ms ws H D E; cbn in H; try tauto.
  - cbn in D. injection D as <-. cbn in E. injection E as <-. reflexivity.
  - destruct H as [H1 H2], W as [W1 W2], S as [S1 S2], N as [N1 N2]. cbn [map zip omap] in D.
    destruct (doc (trace t v)) as [m|] eqn:Em; [|discriminate]. destruct (omap _ _) as [ms'|] eqn:Ems in D; [|discriminate]. injection D as <-.
    cbn [omap] in E. destruct (den m) as [w|] eqn:Ew; [|discriminate]. destruct (omap den ms') as [ws'|] eqn:Ews; [|discriminate]. injection E as <-.
    cbn [map content_tuple]. rewrite (B W1 S1 N1 v m w H1 Em Ew), (IH W2 S2 N2 l ms' ws' H2 Ems Ews). reflexivity.
Qed.

Theorem content_back t : back t.
Proof.
  induction t as [ |k| | | | | | | |t IH|t IH|t IH|ts IH|ts IH|kt vt IHk IHv|fs IH|vs IH] using ty_ind'; intros W S N v m w H D E.
  11:{ exact (IH W S N v m w H D E). }
  all: destruct v; cbn [hastype] in H; try tauto; cbn [trace] in D.
  all: try (cbn in D; injection D as <-; cbn in E; injection E as <-; reflexivity).
  - cbn in D. injection D as <-. cbn in E. injection E as <-. cbn. rewrite (proj2 (in_ikindb_spec k z) H). reflexivity.
  - cbn in D. injection D as <-. cbn in E. injection E as <-. cbn. rewrite (proj2 (char_from_str_spec (utf8_char c) c)); auto.
  - cbn in D. unfold doc_str in D. destruct (lt32 _); [|discriminate]. injection D as <-. injection E as <-. reflexivity.
  - cbn in D. destruct (lt32 _); [|discriminate]. injection D as <-. injection E as <-. reflexivity.
  - destruct S as [S Nn]. cbn [wf told_apart] in *. destruct (written_shape t W N v m w H D E) as (s & Es & Is).
    cbn [from_content]. rewrite (IH W S N v m w H D E). assert (s <> Null) by (intros ->; exact (not_null t Nn Is)).
    destruct w; cbn in Es; try reflexivity; congruence.
  - destruct H as [H _]. cbn [trace mp_doc] in D. unfold doc_array in D. destruct (omap _ _) as [ms|] eqn:Ems; [|discriminate]. destruct (_ && _); [|discriminate]. injection D as <-.
    cbn in E. destruct (omap den ms) as [ws|] eqn:Ews; [|discriminate]. injection E as <-. cbn [from_content].
    enough (G : content_list (get t) ws = Some l) by (rewrite G; reflexivity). revert ms ws Ems Ews. induction H as [|v l Hv _ I]; intros ms ws Ems Ews.
    + cbn in Ems. injection Ems as <-. cbn in Ews. injection Ews as <-. reflexivity.
    + cbn [map omap] in Ems. destruct (doc (trace t v)) as [m|] eqn:Em; [|discriminate]. destruct (omap _ _) as [ms'|] eqn:Ems' in Ems; [|discriminate]. injection Ems as <-.
      cbn [omap] in Ews. destruct (den m) as [w|] eqn:Ew; [|discriminate]. destruct (omap den ms') as [ws'|] eqn:Ews'; [|discriminate]. injection Ews as <-.
      cbn [content_list]. rewrite (IH W S N v m w Hv Em Ew), (I ms' ws' Ems' Ews'). reflexivity.
  - destruct W as [W _]. cbn [trace mp_doc] in D. unfold doc_array in D. destruct (omap _ _) as [ms|] eqn:Ems; [|discriminate]. destruct (_ && _); [|discriminate]. injection D as <-.
    cbn in E. destruct (omap den ms) as [ws|] eqn:Ews; [|discriminate]. injection E as <-. cbn [from_content]. rewrite (tuple_back ts IH W S N l ms ws H Ems Ews). reflexivity.
  - destruct W as [W _]. cbn [trace mp_doc] in D. unfold doc_array in D. destruct (omap _ _) as [ms|] eqn:Ems; [|discriminate]. destruct (_ && _); [|discriminate]. injection D as <-.
    cbn in E. destruct (omap den ms) as [ws|] eqn:Ews; [|discriminate]. injection E as <-. cbn [from_content]. rewrite (tuple_back ts IH W S N l ms ws H Ems Ews). reflexivity.
  - destruct H as [H _], W as [W1 W2], S as [S1 S2], N as [N1 N2]. cbn [trace mp_doc] in D.
    destruct (omap _ _) as [os|] eqn:Eos; [|discriminate]. unfold doc_map in D. destruct (pair_up os) as [ms|] eqn:Ems; [|discriminate]. destruct (_ && _); [|discriminate]. injection D as <-.
    cbn [den] in E. destruct (omap _ _) as [ws|] eqn:Ews in E; [|discriminate]. injection E as <-. cbn [from_content].
    match goal with |- option_map UMap (?f ws) = _ => enough (G : f ws = Some l) by (rewrite G; reflexivity) end.
    revert os ms ws Eos Ems Ews. induction H as [|[x y] l [Hx Hy] _ I]; intros os ms ws Eos Ems Ews.
    + cbn in Eos. injection Eos as <-. cbn in Ems. injection Ems as <-. cbn in Ews. injection Ews as <-. reflexivity.
    + cbn [flat_map app omap fst snd] in Eos. destruct (doc (trace kt x)) as [mx|] eqn:Ex; [|discriminate]. cbn [option_map] in Eos.
      destruct (doc (trace vt y)) as [my|] eqn:Ey; [|discriminate]. cbn [option_map] in Eos.
      destruct (omap _ _) as [os'|] eqn:Eos' in Eos; [|discriminate]. injection Eos as <-. cbn [pair_up] in Ems.
      destruct (pair_up os') as [ms'|] eqn:Ems'; [|discriminate]. injection Ems as <-. cbn [omap fst snd] in Ews.
      destruct (den mx) as [wx|] eqn:Ewx; [|discriminate]. destruct (den my) as [wy|] eqn:Ewy; [|discriminate].
      destruct (omap _ _) as [ws'|] eqn:Ews' in Ews; [|discriminate]. injection Ews as <-.
      cbn [fst snd] in *. rewrite (IHk W1 S1 N1 x mx wx Hx Ex Ewx), (IHv W2 S2 N2 y my wy Hy Ey Ewy), (I os' ms' ws' Eos' Ems' Ews'). reflexivity.
  - destruct W as [Wn W], N as [Nx N]. cbn [strict] in S. cbn [trace struct_call mp_doc] in D. rewrite zip_map in D.
    destruct (omap _ _) as [ds|] eqn:Eds in D; [|discriminate].
    eapply struct_back; eauto. apply items_of; auto.
    clear D Eds E Wn Nx. revert l H. induction IH as [|f fs B _ I]; intros [|v l] H; cbn in *; try tauto.
    destruct H as [H1 H2], W as [[W1 _] W2], S as [S1 S2], N as [N1 N2]. split; [|auto]. intros m' w' D' E'. apply (B W1 S1 N1 v m' w'); auto.
  - destruct N as [Ns N], W as [Wn W]. rewrite nth_error_map in D, H. destruct (nth_error vs i) as [[[n kd] ct]|] eqn:En; cbn [option_map] in D, H; [|tauto]. cbn [name_of attr_of fst snd] in *.
    pose proof (nth_error_In _ _ En) as Hin. rewrite Forall_forall in IH. specialize (IH _ Hin). cbn [snd] in IH.
    destruct (all_list_In' _ _ W _ Hin) as [Wc Kc]. pose proof (all_list_In' _ _ S _ Hin) as Sc. pose proof (all_list_In' _ _ N _ Hin) as Nc. cbn [snd attr_of fst] in *.
    assert (F : find_name n (map name_of vs) 0 = Some i).
    { rewrite (find_name_spec _ (proj1 Wn) i n 0); auto. rewrite nth_error_map, En. reflexivity. }
    assert (G : forall c, doc (trace ct v) = Some c -> variant_map (doc_variant st (Z.of_nat i) n) (Some c) = Some m -> get (TEnum vs) w = Some (UVar i v)).
    { intros c Ec Ev. unfold variant_map in Ev. destruct (doc_variant st (Z.of_nat i) n) as [k|] eqn:K; [|discriminate]. injection Ev as <-.
      cbn in E. destruct (den k) as [wk|] eqn:Ewk; [|discriminate]. destruct (den c) as [wc|] eqn:Ewc; [|discriminate]. injection E as <-.
      assert (X : content_ident (map name_of vs) wk = Some (Some i)).
      { assert (Y : (st <> SNameMap -> zlen vs <= 256) -> content_ident (map name_of vs) wk = Some (Some i)); [intros Y|].
        - assert (Li : (i < length vs)%nat) by (apply nth_error_Some; congruence).
          assert (Z0 : zlen vs <= 256 -> content_ident (map name_of vs) (UInt (Z.of_nat i)) = Some (Some i)).
          { intros Z0. unfold zlen in Z0. cbn. assert (M : zlen (map name_of vs) = Z.of_nat (length vs)) by (unfold zlen; rewrite map_length; auto). rewrite M.
            destruct (Z.leb_spec 0 (Z.of_nat i)); [|lia]. destruct (Z.ltb_spec (Z.of_nat i) 256); [|lia]. destruct (Z.ltb_spec (Z.of_nat i) (Z.of_nat (length vs))); [|lia].
            cbn. rewrite Nat2Z.id. reflexivity. }
          unfold doc_variant, doc_str in K. destruct st.
          + injection K as <-. injection Ewk as <-. apply Z0, Y. discriminate.
          + injection K as <-. injection Ewk as <-. apply Z0, Y. discriminate.
          + destruct (lt32 _); [|discriminate]. injection K as <-. injection Ewk as <-. cbn. rewrite F. reflexivity.
        - apply Y. destruct Ns as [->|[Ns _]]; [tauto|auto]. }
      cbn [from_content]. rewrite X, nth_error_map, En. cbn [option_map snd]. rewrite (IH Wc Sc Nc v c wc H Ec Ewc). reflexivity. }
    unfold variant_call in D. destruct kd.
    + destruct Ns as [Ns|[_ Ns]]; [|exfalso; apply (all_list_In' _ _ Ns _ Hin); reflexivity].
      cbn in D. rewrite Ns in D. unfold doc_variant, doc_str in D. destruct (lt32 _); [|discriminate]. injection D as <-. cbn in E. injection E as <-.
      cbn. rewrite F, nth_error_map, En. cbn. destruct ct; cbn in Kc; try contradiction. destruct v; cbn in H; try contradiction. reflexivity.
    + cbn [mp_doc] in D. destruct (doc (trace ct v)) as [c|] eqn:Ec; [apply (G c); auto|]. unfold variant_map in D. destruct (doc_variant _ _ _); discriminate.
    + destruct ct; try (cbn in Kc; tauto). destruct v; try (cbn in H; tauto). cbn [trace mp_doc] in D, G.
      destruct (doc_array _ _) as [c|] eqn:Ec; [apply (G c); auto|]. unfold variant_map in D. destruct (doc_variant _ _ _); discriminate.
    + destruct ct; try (cbn in Kc; tauto). destruct v; try (cbn in H; tauto). cbn [trace struct_call mp_doc] in D, G.
      destruct (doc_struct _ _ _) as [c|] eqn:Ec; [apply (G c); auto|]. unfold variant_map in D. destruct (doc_variant _ _ _); discriminate.
Qed.
End C.

(** ** Running *)
Lemma mp_then ar fo fuel (g : result val mp_de_error -> result val mp_de_error) s :
  r_de (mp_run ar fo fuel) (then_ (any DeserializeError) g) s =
  match r_de (mp_run ar fo fuel) (any DeserializeError) s with Done s' r => Done s' (g r) | Panic => Panic | OutOfFuel => OutOfFuel end.
Proof.
  destruct fuel; [reflexivity|]. cbn [mp_run r_de]. unfold any, then_, step_de, dpost, dtry, dlift.
  match goal with |- match ?x with _ => _ end = _ => destruct x; reflexivity end.
Qed.
Lemma mp_from_buffered ar fo fuel f input s w n : mp_from_slice ar fo fuel (any DeserializeError) input = Done s (Ok (w, n)) ->
  mp_from_slice ar fo fuel (buffered DeserializeError f) input =
    Done s (match f w with Some v => Ok (v, n) | None => Err DeserializeError end).
Proof.
  unfold mp_from_slice, dbind. unfold buffered. rewrite mp_then. destruct (r_de _ _ _) as [s' [w'|e]| |]; try discriminate.
  intros E. destruct (f w') eqn:P.
  - destruct (de_end s') as [s2 [tl|]| |]; try discriminate. destruct (tl <=? zlen input); [|discriminate]. injection E as -> -> <-. rewrite P. reflexivity.
  - destruct (de_end s') as [s2 [tl|]| |] eqn:Ee; try discriminate. destruct (tl <=? zlen input); [|discriminate]. injection E as -> -> <-. rewrite P.
    f_equal. unfold de_end in Ee. destruct (_ <=? _); congruence.
Qed.

Theorem mp_untagged_trip ar fo cfg fl vs i k t v out tail :
  arch32up ar -> nth_error vs i = Some (k, t) -> kind_ok k t -> wf t -> strict t -> hastype t v -> told_apart (style_of fl) t ->
  (k = KStruct -> fl <> Compact) -> apart (firstn i vs) (written Bin (match fl with Compact => Arr | _ => Obj end) t) ->
  2 ^ 32 - 1 <= cfg_usize_max cfg -> mp_to_vec cfg fl (untagged_trace vs (UVar i v)) = Ok out -> slice_of ar (out ++ tail) ->
  exists N, forall fuel, (N <= fuel)%nat ->
    exists s, mp_from_slice ar fo fuel (untagged fo DeserializeError vs) (out ++ tail) = Done s (Ok (UVar i v, zlen out)).
Proof.
  intros A En K W S H T Ks Ap Hc E Sl. cbn [untagged_trace] in E. rewrite En in E. cbn [snd] in E.
  destruct (mp_read_back ar fo cfg fl (trace t v) out tail A (typed_sval_ok t W v H) Hc E Sl) as (m & w & D & Dn & N & HN).
  apply den_of in Dn. exists N. intros fuel Hf. destruct (HN fuel Hf) as [s R]. exists s. unfold untagged. rewrite (mp_from_buffered _ _ _ _ _ _ _ _ R).
  destruct (written_shape (style_of fl) t W T v m w H D Dn) as (sh & Sh & In_).
  assert (V : untagged_variant fo (k, t) w = Some v).
  { pose proof (content_back fo (style_of fl) t W S T v m w H D Dn) as B. unfold untagged_variant. cbn [fst snd]. destruct k; auto.
    - destruct t; cbn in K; try contradiction. destruct v; cbn in H; try contradiction. cbn in D. injection D as <-. injection Dn as <-. reflexivity.
    - destruct t; cbn in K; try contradiction. unfold written, fields_shape in In_. specialize (Ks eq_refl).
      destruct In_ as [I|[]]. destruct fl; [tauto| |]; cbn in I; subst sh; destruct w; try discriminate; exact B. }
  assert (P : untagged_pick fo (firstn i vs ++ (k, t) :: skipn (Datatypes.S i) vs) 0 w = Some (UVar (0 + length (firstn i vs)) v)).
  { eapply pick_first; eauto. replace (match fl with Compact => Arr | _ => Obj end) with (fields_shape (style_of fl)) in Ap by (destruct fl; reflexivity). exact Ap. }
  assert (Li : (i < length vs)%nat) by (apply nth_error_Some; congruence).
  rewrite firstn_length_le in P by lia. cbn [Nat.add] in P.
  rewrite <- (vs_split vs i (k, t) En) in P. rewrite P. reflexivity.
Qed.

(** A struct variant in the compact flavour: an array, which it does not read. *)
Theorem mp_untagged_array ar fo cfg vs i fs v out tail :
  arch32up ar -> nth_error vs i = Some (KStruct, TStruct fs) -> wf (TStruct fs) -> hastype (TStruct fs) v ->
  (forall f, In f vs -> ~ In Arr (variant_readable f)) ->
  2 ^ 32 - 1 <= cfg_usize_max cfg -> mp_to_vec cfg Compact (untagged_trace vs (UVar i v)) = Ok out -> slice_of ar (out ++ tail) ->
  exists N, forall fuel, (N <= fuel)%nat ->
    exists s, mp_from_slice ar fo fuel (untagged fo DeserializeError vs) (out ++ tail) = Done s (Err DeserializeError).
Proof.
  intros A En W H Nr Hc E Sl. cbn [untagged_trace] in E. rewrite En in E. cbn [snd] in E.
  destruct (mp_read_back ar fo cfg Compact (trace (TStruct fs) v) out tail A (typed_sval_ok _ W v H) Hc E Sl) as (m & w & D & Dn & N & HN).
  apply den_of in Dn. exists N. intros fuel Hf. destruct (HN fuel Hf) as [s R]. exists s. unfold untagged. rewrite (mp_from_buffered _ _ _ _ _ _ _ _ R).
  assert (Sh : shape_of w = Some Arr).
  { destruct v; cbn [hastype] in H; try contradiction. cbn [trace struct_call mp_doc] in D. unfold doc_struct, style_of, doc_array in D.
    destruct (omap _ _) as [ds|]; [|discriminate]. destruct (doc_fields_array ds); [|discriminate]. destruct (_ && _); [|discriminate]. injection D as <-.
    cbn in Dn. destruct (omap _ _); [|discriminate]. injection Dn as <-. reflexivity. }
  rewrite (pick_none fo vs w _ Sh Nr). reflexivity.
Qed.

(** A unit variant of an enum inside, known by its number: an integer, which it does not
    read. *)
Theorem mp_untagged_number ar fo cfg fl vs i es n out tail :
  arch32up ar -> fl <> StructMapStr -> nth_error vs i = Some (KNewtype, TEnum es) -> wf (TEnum es) -> hastype (TEnum es) (UVar n UUnit) ->
  nth_error (map attr_of es) n = Some KUnit -> (forall f, In f vs -> ~ In Num (variant_readable f)) ->
  2 ^ 32 - 1 <= cfg_usize_max cfg -> mp_to_vec cfg fl (untagged_trace vs (UVar i (UVar n UUnit))) = Ok out -> slice_of ar (out ++ tail) ->
  exists N, forall fuel, (N <= fuel)%nat ->
    exists s, mp_from_slice ar fo fuel (untagged fo DeserializeError vs) (out ++ tail) = Done s (Err DeserializeError).
Proof.
  intros A Hfl En W H Ek Nr Hc E Sl. cbn [untagged_trace] in E. rewrite En in E. cbn [snd] in E.
  destruct (mp_read_back ar fo cfg fl (trace (TEnum es) (UVar n UUnit)) out tail A (typed_sval_ok _ W _ H) Hc E Sl) as (m & w & D & Dn & N & HN).
  apply den_of in Dn. exists N. intros fuel Hf. destruct (HN fuel Hf) as [s R]. exists s. unfold untagged. rewrite (mp_from_buffered _ _ _ _ _ _ _ _ R).
  assert (Sh : shape_of w = Some Num).
  { cbn [trace] in D. rewrite nth_error_map in D, Ek. destruct (nth_error es n) as [[[nm kd] ct]|]; cbn in Ek; [|discriminate]. injection Ek as ->.
    cbn in D. destruct fl; try congruence; cbn in D; injection D as <-; injection Dn as <-; reflexivity. }
  rewrite (pick_none fo vs w _ Sh Nr). reflexivity.
Qed.

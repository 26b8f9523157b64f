(** Untagged enums: which content their variants take (C65). *)
From Verif Require Import Prelude PreludeFacts Utf8Spec Utf8 SerdeSer SerdeDe FloatOps MpSpec Types TypesFacts MpTypedSer Content ContentSpec.

Section F.
Context (fo : float_ops).
Lemma content_shape t : forall c v, from_content fo t c = Some v -> exists s, shape_of c = Some s /\ In s (readable t).
Proof.
  induction t as [ |k| | | | | | | |t IH|t IH|t IH|ts IH|ts IH|kt vt IHk IHv|fs IH|vs IH] using ty_ind'; intros c v E.
  11:{ exact (IH c v E). }
  10:{ cbn [from_content] in E. destruct c; try (eexists; split; [reflexivity|left; reflexivity]);
       match type of E with option_map _ ?x = _ => destruct x as [u|] eqn:G; [|discriminate] end; destruct (IH _ _ G) as (sh & S & I); exists sh; (split; [exact S|right; exact I]). }
  all: destruct c; cbn in E; try discriminate; eexists; (split; [reflexivity|cbn; auto]).
Qed.
Lemma variant_shape f c v : untagged_variant fo f c = Some v -> exists s, shape_of c = Some s /\ In s (variant_readable f).
Proof.
  destruct f as [k t]. unfold untagged_variant, variant_readable. cbn [fst snd]. destruct k.
  - intros E. destruct c; try discriminate; eexists; (split; [reflexivity|cbn; auto]).
  - apply content_shape.
  - apply content_shape.
  - intros E. destruct c; try discriminate. eexists; (split; [reflexivity|cbn; auto]).
Qed.
Lemma pick_first vs1 : forall f vs2 k c v s w, shape_of c = Some s -> In s w -> apart vs1 w -> untagged_variant fo f c = Some v ->
  untagged_pick fo (vs1 ++ f :: vs2) k c = Some (UVar (k + length vs1) v).
Proof.
  induction vs1 as [|g vs1 IH]; intros f vs2 k c v s w S I A E; cbn [app untagged_pick length].
  - rewrite E, Nat.add_0_r. reflexivity.
  - destruct (untagged_variant fo g c) as [u|] eqn:G.
    + destruct (variant_shape g c u G) as (s' & S' & I'). rewrite S in S'. injection S' as <-. destruct (A g s (or_introl eq_refl) I I').
    + rewrite (IH f vs2 (Datatypes.S k) c v s w S I); auto; [f_equal; f_equal; lia|]. intros g' s' J. apply A. right. exact J.
Qed.
End F.

Lemma vs_split {A} (l : list A) i x : nth_error l i = Some x -> l = firstn i l ++ x :: skipn (Datatypes.S i) l.
Proof.
  intros E. rewrite <- (firstn_skipn i l) at 1. f_equal. revert i E. induction l as [|a l IH]; intros [|i] E; cbn in *; try discriminate; [congruence|auto].
Qed.
(** Content no variant takes. *)
Lemma pick_none fo vs w sh : shape_of w = Some sh -> (forall f, In f vs -> ~ In sh (variant_readable f)) -> forall k, untagged_pick fo vs k w = None.
Proof.
  intros Sh. induction vs as [|g vs IH]; intros Nr k; cbn; auto.
  destruct (untagged_variant fo g w) as [u|] eqn:G; [|apply IH; intros f I; apply Nr; right; exact I].
  destruct (variant_shape fo g w u G) as (s' & S' & I'). rewrite Sh in S'. injection S' as <-. destruct (Nr g (or_introl eq_refl) I').
Qed.

(** ** Typed values as call trees *)
Lemma typed_sval_ok t : wf t -> forall v, hastype t v -> sval_ok (trace t v).
Proof.
  induction t as [ |k| | | | | | | |t IH|t IH|t IH|ts IH|ts IH|kt vt IHk IHv|fs IH|vs IH] using ty_ind'; intros Hw v H;
    try (destruct v; cbn [hastype] in H; try tauto; cbn; tauto).
  - destruct v; cbn [hastype] in H; try tauto; cbn; auto.
  - exact (IH Hw v H).
  - destruct v; cbn [hastype] in H; try tauto. destruct H as [H L]. cbn [trace sval_ok]. unfold short, zlen in L. split; [unfold is_len, zlen; lia|]. clear L.
    induction H as [|x l H _ I]; cbn; auto.
  - destruct v; cbn [hastype] in H; try tauto. destruct Hw as [Hw L]. cbn [trace sval_ok]. unfold short, zlen in L. split; [unfold is_len, zlen; lia|]. clear L.
    revert l H. induction IH as [|t ts Ht _ I]; intros [|x l] H; cbn in H; try tauto; cbn; auto.
    destruct Hw as [W1 W2], H as [H1 H2]. auto.
  - destruct v; cbn [hastype] in H; try tauto. destruct Hw as [Hw L]. cbn [trace sval_ok]. unfold short, zlen in L. split; [unfold is_len, zlen; lia|]. clear L.
    revert l H. induction IH as [|t ts Ht _ I]; intros [|x l] H; cbn in H; try tauto; cbn; auto.
    destruct Hw as [W1 W2], H as [H1 H2]. auto.
  - destruct v; cbn [hastype] in H; try tauto. destruct H as [H L], Hw as [W1 W2]. cbn [trace sval_ok]. unfold short, zlen in L. split; [unfold is_len, zlen; lia|]. clear L. split.
    + clear. induction l as [|e l I]; cbn; [discriminate|]. destruct (pair_up _); [discriminate|tauto].
    + induction H as [|[x y] l [H1 H2] _ I]; cbn; auto.
  - destruct v; cbn [hastype] in H; try tauto. destruct Hw as [(_ & Hn & Hs) Hw]. cbn [trace struct_call sval_ok].
    set (items := zip _ _ l). assert (Ll : zlen items < 2 ^ 32).
    { unfold items. rewrite zip_map. unfold zlen. pose proof (all2_length _ _ _ H) as Q. rewrite map_length in Q. rewrite zip_len by auto. unfold short, zlen in Hs. rewrite map_length in Hs. exact Hs. }
    pose proof (count_nonneg items) as Q. split; [unfold is_len; lia|]. split; [exact Ll|]. subst items. clear Ll Q Hs.
    revert l H. induction IH as [|f fs Hf _ I]; intros [|x l] H; cbn in H; try tauto; cbn; auto.
    destruct Hw as [[W1 _] W2], H as [H1 H2]. cbn in Hn. inversion Hn as [|? ? [N1 _] N2]; subst. split; [|auto]. split; auto.
    destruct (skipped (attr_of f) x); auto.
  - destruct v; cbn [hastype] in H; try tauto. destruct Hw as [(_ & Hn & Hs) Hw]. cbn [trace].
    rewrite nth_error_map in *. destruct (nth_error vs i) as [[[n k] ct]|] eqn:E; cbn [option_map] in *; [|tauto].
    cbn [name_of attr_of fst snd] in *. assert (V : valid_utf8 n).
    { rewrite Forall_forall in Hn. apply (Hn n). apply in_map_iff. exists (n, k, ct). split; auto. eapply nth_error_In; eauto. }
    assert (U : is_u32 (Z.of_nat i)).
    { assert (i < length vs)%nat by (apply nth_error_Some; congruence). unfold short, zlen in Hs. rewrite map_length in Hs. unfold is_u32. lia. }
    assert (A : wf ct /\ kind_ok k ct). { apply nth_error_In in E. apply (all_list_In' _ _ Hw _ E). }
    assert (B : sval_ok (trace ct v)).
    { apply nth_error_In in E. rewrite Forall_forall in IH. apply (IH _ E); [apply A|exact H]. }
    unfold variant_call. destruct k; [cbn; tauto|cbn; tauto| |].
    + destruct ct; try (cbn in A; tauto). destruct v; cbn in H; try tauto. cbn in *. tauto.
    + destruct ct; try (cbn in A; tauto). destruct v; cbn in H; try tauto. cbn in *. tauto.
Qed.

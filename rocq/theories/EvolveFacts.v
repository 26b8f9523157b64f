(** Looking up fields (C68). *)
From Verif Require Import Prelude PreludeFacts Utf8Spec SerdeSer SerdeDe MpSpec Types TypesFacts MpTypeSpec JsonTypeSpec MpTyped MpTypedSer EvolveSpec.

Lemma nth_set_nth {A} (l : list A) : forall i j a, nth_error (set_nth l i a) j =
  if Nat.eqb i j then match nth_error l j with Some _ => Some a | None => None end else nth_error l j.
Proof.
  induction l as [|b l IH]; intros [|i] [|j] a; cbn; auto; destruct (Nat.eqb i j); auto.
Qed.
Lemma set_nth_len {A} (l : list A) : forall i a, length (set_nth l i a) = length l.
Proof. induction l as [|b l IH]; intros [|i] a; cbn; auto. Qed.

Lemma fits_fields_nth look absent fs : forall ps l k, fits_fields look absent k fs ps l ->
  length ps = length fs /\ length l = length fs /\
  forall i f p v, nth_error fs i = Some f -> nth_error ps i = Some p -> nth_error l i = Some v ->
    match look (k + i)%nat (name_of f) with Some x => p v x | None => absent f v end.
Proof.
  induction fs as [|f fs IH]; intros [|p ps] [|v l] k H; cbn in H; try tauto.
  - repeat split; auto. intros [|i] ? ? ? E; discriminate.
  - destruct H as [H1 H2]. apply IH in H2. destruct H2 as (L1 & L2 & H2). cbn [length]. repeat split; try lia.
    intros [|i] f' p' v' E1 E2 E3; cbn in E1, E2, E3.
    + injection E1 as <-. injection E2 as <-. injection E3 as <-. rewrite Nat.add_0_r. exact H1.
    + replace (k + S i)%nat with (S k + i)%nat by lia. exact (H2 i f' p' v' E1 E2 E3).
Qed.
Lemma all_fields_nth fs : forall got l, length got = length fs -> length l = length fs ->
  (forall i f g v, nth_error fs i = Some f -> nth_error got i = Some g -> nth_error l i = Some v ->
     match g with Some w => v = w | None => absent_ok f v end) -> all_fields fs got l.
Proof.
  induction fs as [|f fs IH]; intros [|g got] [|v l] L1 L2 H; cbn in L1, L2; try discriminate; cbn; auto.
  split; [apply (H 0%nat f g v); auto|]. apply IH; try lia. intros i f' g' v' E1 E2 E3. exact (H (S i) f' g' v' E1 E2 E3).
Qed.

(** [mark l got es]: the fields [es] refer to are filled in. *)
Definition mark {A} (l : list val) (r : A -> option nat) (es : list A) (got : list (option val)) : list (option val) :=
  fold_left (fun g e => match r e with Some i => set_nth g i (nth_error l i) | None => g end) es got.
Lemma mark_len {A} l (r : A -> option nat) es : forall got, length (mark l r es got) = length got.
Proof. induction es as [|e es IH]; intros got; [auto|]. unfold mark in *. cbn [fold_left]. rewrite IH. destruct (r e); auto using set_nth_len. Qed.
Lemma mark_nth {A} l (r : A -> option nat) es : forall got i g, nth_error (mark l r es got) i = Some g ->
  (g = nth_error l i /\ exists e, In e es /\ r e = Some i) \/
  (nth_error got i = Some g /\ forall e, In e es -> r e <> Some i).
Proof.
  induction es as [|e es IH]; intros got i g H; cbn in H; [right; split; auto; intros ? []|].
  destruct (IH (match r e with Some i => set_nth got i (nth_error l i) | None => got end) _ _ H) as [(E & e' & I & R)|[E N]]; [left; split; auto; exists e'; cbn; auto|].
  destruct (r e) as [j|] eqn:R.
  - rewrite nth_set_nth in E. destruct (Nat.eqb_spec j i) as [->|D].
    + destruct (nth_error got i); [|discriminate]. injection E as <-. left. split; auto. exists e. cbn. auto.
    + right. split; auto. intros e' [<-|I]; [congruence|auto].
  - right. split; auto. intros e' [<-|I]; [congruence|auto].
Qed.

(** Finding by name. *)
Lemma field_named_in l i n x : field_named l i n = Some x -> In (n, x) l.
Proof.
  unfold field_named. destruct (find (fun f => list_eqb Z.eqb (fst f) n) l) as [[m y]|] eqn:F; [|discriminate]. intros [= <-]. apply find_some in F. cbn in F.
  destruct F as [I E]. apply list_eqb_Z in E. subst. auto.
Qed.
Lemma field_named_of l i n x : NoDup (map fst l) -> In (n, x) l -> field_named l i n = Some x.
Proof.
  unfold field_named. induction l as [|[m y] l IH]; cbn; [tauto|]. intros N [[= -> ->]|H]; inversion N as [|? ? N1 N2]; subst.
  - rewrite (proj2 (list_eqb_Z n n) eq_refl). auto.
  - destruct (list_eqb Z.eqb m n) eqn:E; [|auto]. apply list_eqb_Z in E. subst. destruct N1. apply (in_map fst) in H. exact H.
Qed.
Lemma field_named_none l i n : field_named l i n = None -> ~ In n (map fst l).
Proof.
  unfold field_named. intros H I. apply in_map_iff in I. destruct I as ([m y] & E & I). cbn in E. subst m.
  destruct (find (fun f => list_eqb Z.eqb (fst f) n) l) as [[m z]|] eqn:F; [discriminate|]. apply (find_none _ _ F) in I. cbn in I. rewrite (proj2 (list_eqb_Z n n) eq_refl) in I. discriminate.
Qed.
Lemma find_name_nth ns s i : NoDup ns -> find_name s ns 0 = Some i <-> nth_error ns i = Some s.
Proof.
  intros N. split; intros H.
  - revert i H. assert (forall j i, find_name s ns j = Some i -> exists k, i = (j + k)%nat /\ nth_error ns k = Some s) as X.
    { clear N. induction ns as [|n ns IH]; intros j i H; cbn in H; [discriminate|]. destruct (list_eqb Z.eqb s n) eqn:E.
      - apply list_eqb_Z in E. injection H as <-. exists 0%nat. subst. split; [lia|auto].
      - apply IH in H. destruct H as (k & -> & H). exists (S k). split; [lia|auto]. }
    intros i H. apply X in H. destruct H as (k & -> & H). exact H.
  - apply (find_name_spec ns N i s 0 H).
Qed.
Lemma find_name_out ns s : NoDup ns -> find_name s ns 0 = None -> ~ In s ns.
Proof. intros N H I. apply In_nth_error in I. destruct I as [i I]. apply (find_name_nth ns s i N) in I. congruence. Qed.

Lemma written_in fs n x : In (n, x) (written fs) <-> In (n, Some x) fs.
Proof.
  unfold written. induction fs as [|[m [y|]] fs IH]; cbn.
  - tauto.
  - rewrite IH. split; intros [E|H]; auto; left; congruence.
  - rewrite IH. split; [auto|]. intros [E|H]; [discriminate|auto].
Qed.
Lemma written_present fs : zlen (written fs) = present fs.
Proof. unfold written, present, zlen. induction fs as [|[m [y|]] fs IH]; cbn [flat_map app filter snd length fst] in *; lia. Qed.

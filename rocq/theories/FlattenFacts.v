(** What a flattened struct makes of the buffered entries (C72). *)
From Coq Require Import Permutation.
From Verif Require Import Prelude PreludeFacts Utf8Spec SerdeSer SerdeDe FloatOps MpSpec Types TypesFacts MpTypeSpec MpTyped EvolveFacts MpSound Content.

(** ** Buffered members of a struct in another order *)
Lemma set_nth_swap {A} (l : list A) : forall i j a b, i <> j -> set_nth (set_nth l i a) j b = set_nth (set_nth l j b) i a.
Proof. induction l as [|x l IH]; intros [|i] [|j] a b H; cbn; auto; try congruence. f_equal. apply IH. congruence. Qed.
Lemma fields_perm names ps es es' : Permutation es es' -> forall got got', content_fields names ps got es = Some got' -> content_fields names ps got es' = Some got'.
Proof.
  induction 1 as [|[k c] es es' _ IH|[k1 c1] [k2 c2] es|es es' es'' _ IH1 _ IH2]; intros got got' E; auto.
  - cbn in *. destruct (content_ident names k) as [[i|]|]; auto. destruct (nth_error ps i), (nth_error got i) as [[?|]|]; auto. destruct (o c); auto.
  - cbn in *. destruct (content_ident names k2) as [[i|]|], (content_ident names k1) as [[j|]|]; auto.
    + destruct (nth_error ps i) as [f|] eqn:Ei; [|discriminate]. destruct (nth_error got i) as [[?|]|] eqn:Gi; try discriminate. destruct (f c2) as [v|] eqn:Ev; [|discriminate].
      destruct (nth_error ps j) as [f'|] eqn:Ej; [|discriminate]. rewrite nth_set_nth in E. destruct (Nat.eqb_spec i j) as [->|N].
      * rewrite Gi in E. discriminate.
      * destruct (nth_error got j) as [[?|]|] eqn:Gj; try discriminate. destruct (f' c1) as [v'|] eqn:Ev'; [|discriminate].
        rewrite nth_set_nth. destruct (Nat.eqb_spec j i); [congruence|]. rewrite Gi, set_nth_swap by auto. exact E.
    + destruct (nth_error ps i) as [f|], (nth_error got i) as [[?|]|]; try discriminate; destruct (f c2); discriminate.
    + destruct (nth_error ps j) as [f|], (nth_error got j) as [[?|]|]; try discriminate; destruct (f c1); discriminate.
Qed.

(** ** A field that is missing, or there twice *)
Lemma content_twice nm ps : NoDup nm -> forall es got i s, nth_error nm i = Some s -> nth_error got i <> Some None -> In (UStr s) (map fst es) -> content_fields nm ps got es = None.
Proof.
  intros Hd. induction es as [|[k c] es IH]; intros got i s Hi Hg Hs; [destruct Hs|]. cbn in Hs |- *. destruct Hs as [->|Hs].
  - cbn [content_ident]. rewrite (find_name_spec nm Hd i s 0 Hi). cbn. destruct (nth_error ps i); auto. destruct (nth_error got i) as [[?|]|]; auto. congruence.
  - destruct (content_ident nm k) as [[j|]|]; auto; [|eapply IH; eauto]. destruct (nth_error ps j) as [f|]; auto. destruct (nth_error got j) as [[?|]|] eqn:Ej; auto. destruct (f c); auto.
    eapply IH; eauto. rewrite nth_set_nth. destruct (Nat.eqb_spec j i) as [->|]; [|exact Hg]. rewrite Ej. discriminate.
Qed.
Lemma content_again nm ps : NoDup nm -> forall a es got i s, nth_error nm i = Some s -> map fst es = map UStr a -> (exists b c d, a = b ++ s :: c ++ s :: d) -> content_fields nm ps got es = None.
Proof.
  intros Hd. induction a as [|k a IH]; intros es got i s Hi E (b & c & d & Ea); [destruct b; discriminate|]. destruct es as [|[k' x] es]; [discriminate|]. cbn in E. injection E as -> E.
  destruct b as [|k0 b]; cbn in Ea; injection Ea as -> ->.
  - cbn [content_fields content_ident]. rewrite (find_name_spec nm Hd i s 0 Hi). cbn. destruct (nth_error ps i) as [f|]; auto. destruct (nth_error got i) as [[?|]|] eqn:Ei; auto. destruct (f x); auto.
    eapply content_twice; eauto; [rewrite nth_set_nth, Nat.eqb_refl, Ei; discriminate|]. rewrite E. apply in_map. apply in_or_app. right. left. reflexivity.
  - cbn [content_fields content_ident]. assert (R : forall got, content_fields nm ps got es = None) by (intros; eapply IH; eauto).
    destruct (find_name k0 nm 0) as [j|]; auto. destruct (nth_error ps j) as [f|]; auto. destruct (nth_error got j) as [[?|]|]; auto. destruct (f x); auto.
Qed.
Lemma content_keeps nm ps : forall es got got' i s, nth_error nm i = Some s -> NoDup nm -> (forall e, In e es -> exists k, fst e = UStr k /\ k <> s) -> nth_error got i = Some None ->
  content_fields nm ps got es = Some got' -> nth_error got' i = Some None.
Proof.
  induction es as [|[k c] es IH]; intros got got' i s Hi Hd H Hg E; cbn in E; [injection E as <-; exact Hg|].
  destruct (H (k, c) (or_introl eq_refl)) as (n & Hk & Hs). cbn in Hk. subst k. cbn [content_ident] in E.
  assert (H' : forall e, In e es -> exists k, fst e = UStr k /\ k <> s) by (intros e He; apply H; right; exact He).
  destruct (find_name n nm 0) as [j|] eqn:Ej; [|eapply IH; eauto]. destruct (nth_error ps j); [|discriminate]. destruct (nth_error got j) as [[?|]|]; try discriminate. destruct (o c); [|discriminate].
  eapply IH; [exact Hi|exact Hd|exact H'| |exact E]. assert (j <> i). { intros ->. apply find_name_sound in Ej. destruct Ej as (q & -> & Ek). cbn in Hi. congruence. }
  rewrite nth_set_nth. destruct (Nat.eqb_spec j i); [congruence|exact Hg].
Qed.

Lemma from_content_perm fo fs a b w : Permutation a b -> from_content fo (TStruct fs) (UMap b) = Some w -> from_content fo (TStruct fs) (UMap a) = Some w.
Proof.
  intros H. cbn [from_content content_struct]. destruct (content_fields _ _ _ b) as [got|] eqn:E; [|discriminate].
  apply Permutation_sym in H. rewrite (fields_perm _ _ _ _ H _ _ E). auto.
Qed.

(** Decoded values are values of their type; facts for both formats (C67). *)
From Verif Require Import Prelude PreludeFacts Types TypesFacts MpTypeSpec MpTypedSer.

Section Refl.
Lemma list_eqb_refl' {A} (eqb : A -> A -> bool) l : Forall (fun a => eqb a a = true) l -> list_eqb eqb l l = true.
Proof. induction 1; cbn; auto. rewrite H. auto. Qed.
Lemma bytes_eqb_refl l : list_eqb Z.eqb l l = true.
Proof. apply list_eqb_refl'. apply Forall_forall. intros x _. apply Z.eqb_refl. Qed.
Fixpoint val_eqb_refl (v : val) : val_eqb v v = true.
Proof.
  destruct v; cbn [val_eqb]; try apply Z.eqb_refl; try apply bytes_eqb_refl; auto.
  - apply eqb_reflx.
  - apply list_eqb_refl'. induction l as [|a l IH]; constructor; auto.
  - apply list_eqb_refl'. induction l as [|[a b] l IH]; constructor; auto. cbn [fst snd]. rewrite !val_eqb_refl. auto.
  - rewrite Nat.eqb_refl. cbn. auto.
  - destruct o; cbn; [apply Nat.eqb_refl|auto].
Qed.
End Refl.
Lemma skipped_default f (v : val) : attr_of (A:=fattr) (B:=ty) f = FDefault v -> skipped (attr_of f) v = true.
Proof. intros ->. cbn. apply val_eqb_refl. Qed.

(** ** Fields collected one by one *)
Section Fields.
Context (fs : list (bytes * fattr * ty)) (Q : bytes * fattr * ty -> val -> Prop) (absent : forall f v, In f fs -> absent_ok f v -> Q f v).
Definition held_ok (f : bytes * fattr * ty) (g : option val) : Prop := match g with Some v => Q f v | None => True end.
Lemma held_set : forall gs got i f v, nth_error gs i = Some f -> Q f v -> all2 held_ok gs got -> all2 held_ok gs (set_nth got i (Some v)).
Proof.
  induction gs as [|f gs IH]; intros [|g got] [|i] f' v H Hv Hg; cbn in *; try tauto; try discriminate.
  - injection H as ->. tauto.
  - split; [tauto|]. eapply IH; [exact H|exact Hv|tauto].
Qed.
Lemma held_none : forall gs, all2 held_ok gs (map (fun _ => None) gs).
Proof. induction gs; cbn; auto. Qed.
Lemma fields_ok : forall gs got l, incl gs fs -> all2 held_ok gs got -> all_fields gs got l -> all2 Q gs l.
Proof.
  induction gs as [|f gs IH]; intros [|g got] [|v l] Hi Hg Hf; cbn in *; try tauto.
  split; [|eapply IH; [|apply Hg|apply Hf]; intros x Hx; apply Hi; right; auto].
  destruct g as [w|]; [destruct Hf as [-> _]; apply Hg|]. apply absent; [apply Hi; left; auto|apply Hf].
Qed.
Lemma defaults_ok : forall gs l, incl gs fs -> all2 (fun f v => attr_of f = FDefault v) gs l -> all2 Q gs l.
Proof.
  induction gs as [|f gs IH]; intros [|v l] Hi H; cbn in *; try tauto. split; [|apply IH; [intros x Hx; apply Hi; right; auto|apply H]].
  apply absent; [apply Hi; left; auto|]. unfold absent_ok. destruct H as [-> _]. auto.
Qed.
End Fields.
Lemma all2_app {A B} (P : A -> B -> Prop) l1 : forall m1 l2 m2, all2 P l1 m1 -> all2 P l2 m2 -> all2 P (l1 ++ l2) (m1 ++ m2).
Proof. induction l1 as [|a l1 IH]; intros [|b m1] l2 m2 H1 H2; cbn in *; try tauto. split; [tauto|apply IH; tauto]. Qed.
Lemma all2_join {A B} (P : A -> B -> Prop) n l m : all2 P (firstn n l) (firstn n m) -> all2 P (skipn n l) (skipn n m) -> all2 P l m.
Proof. intros H1 H2. rewrite <- (firstn_skipn n l), <- (firstn_skipn n m). apply all2_app; auto. Qed.
Lemma all2_mono {A B} (P Q : A -> B -> Prop) l : forall m, (forall a b, In a l -> In b m -> P a b -> Q a b) -> all2 P l m -> all2 Q l m.
Proof. induction l as [|a l IH]; intros [|b m] H X; cbn in *; try tauto. split; [apply H; tauto|]. apply IH; [|tauto]. intros; apply H; auto. Qed.
Lemma all2_map {A B C} (P : B -> C -> Prop) (g : A -> B) l : forall m, all2 P (map g l) m <-> all2 (fun a c => P (g a) c) l m.
Proof. induction l as [|a l IH]; intros [|b m]; cbn; try tauto. rewrite IH. tauto. Qed.
Lemma zip_same {A} (f : A -> val -> val) l : forall m, all2 (fun a v => f a v = v) l m -> zip f l m = m.
Proof. induction l as [|a l IH]; intros [|v m] H; cbn in *; try tauto. destruct H as [-> H]. f_equal. auto. Qed.

(** The MessagePack format is a prefix code (C70). *)
From Verif Require Import Prelude PreludeFacts Utf8Spec SerdeSer MpSpec.

(** Which kind of value a first byte starts. *)
Definition tag (v : mpv) : Z :=
  match v with
  | VNil => 0 | VBool false => 1 | VBool true => 2 | VInt _ => 3 | VF32 _ => 4 | VF64 _ => 5
  | VStr _ => 6 | VBin _ => 7 | VArr _ => 8 | VMap _ => 9 | VExt _ _ => 10
  end.
Definition tag_of (b : Z) : Z :=
  if b <? 0x80 then 3 else if b <? 0x90 then 9 else if b <? 0xa0 then 8 else if b <? 0xc0 then 6
   else if b <? 0xc1 then 0 else if b <? 0xc3 then 1 else if b <? 0xc4 then 2 else if b <? 0xc7 then 7
   else if b <? 0xca then 10 else if b <? 0xcb then 4 else if b <? 0xcc then 5 else if b <? 0xd4 then 3
   else if b <? 0xd9 then 10 else if b <? 0xdc then 6 else if b <? 0xde then 8 else if b <? 0xe0 then 9 else 3.
Ltac tags := unfold tag_of; repeat match goal with |- context [?a <? ?b] => destruct (Z.ltb_spec a b); try lia end; reflexivity.
Lemma fmt_tag v a : mp_fmt v a -> exists b r, a = b :: r /\ tag_of b = tag v.
Proof.
  intros H. destruct H; try (eexists; eexists; split; [reflexivity|reflexivity]).
  - match goal with H : int_fmt _ _ |- _ => destruct H end; eexists; eexists; (split; [reflexivity|]); try reflexivity; cbn [tag]; tags.
  - match goal with H : str_hdr _ _ |- _ => destruct H end; eexists; eexists; (split; [reflexivity|]); try reflexivity; cbn [tag]; tags.
  - match goal with H : bin_hdr _ _ |- _ => destruct H end; eexists; eexists; (split; [reflexivity|]); reflexivity.
  - match goal with H : arr_hdr _ _ |- _ => destruct H end; eexists; eexists; (split; [reflexivity|]); try reflexivity; cbn [tag]; tags.
  - match goal with H : map_hdr _ _ |- _ => destruct H end; eexists; eexists; (split; [reflexivity|]); try reflexivity; cbn [tag]; tags.
  - match goal with H : ext_hdr _ _ |- _ => destruct H end; eexists; eexists; (split; [reflexivity|]); reflexivity.
Qed.
Lemma same_tag v a v' a' k k' : mp_fmt v a -> mp_fmt v' a' -> a ++ k = a' ++ k' -> tag v = tag v'.
Proof.
  intros H H' E. destruct (fmt_tag v a H) as (b & r & -> & T), (fmt_tag v' a' H') as (b' & r' & -> & T').
  cbn [app] in E. injection E as E _. congruence.
Qed.

Lemma app_same_len (a a' k k' : bytes) : length a = length a' -> a ++ k = a' ++ k' -> a = a' /\ k = k'.
Proof. revert a'. induction a as [|x a IH]; intros [|y a'] L E; cbn in *; try discriminate; auto. injection E as -> E. destruct (IH a') as [-> ->]; auto. Qed.
Lemma uint_same n x y h h' k k' : uint_be n x h -> uint_be n y h' -> h ++ k = h' ++ k' -> x = y /\ h = h' /\ k = k'.
Proof. intros (L & _ & V) (L' & _ & V') E. destruct (app_same_len h h' k k') as [-> ->]; [congruence|auto|]. split; [congruence|auto]. Qed.
Lemma int_same n x y h h' k k' : int_be n x h -> int_be n y h' -> h ++ k = h' ++ k' -> x = y /\ h = h' /\ k = k'.
Proof. intros (L & _ & V) (L' & _ & V') E. destruct (app_same_len h h' k k') as [-> ->]; [congruence|auto|]. split; [congruence|auto]. Qed.
Lemma head_inj (a b : Z) (l m : bytes) : (a :: l) = (b :: m) -> a = b /\ l = m.
Proof. intros H. split; congruence. Qed.
Ltac hdr := intros H H' E; destruct H; destruct H'; cbn [app] in E; apply head_inj in E; destruct E as [E1 E2]; try (exfalso; lia);
  try (match goal with H : uint_be _ _ _, H' : uint_be _ _ _ |- _ => destruct (uint_same _ _ _ _ _ _ _ H H' E2) as (-> & -> & ->); auto end);
  try (match goal with H : int_be _ _ _, H' : int_be _ _ _ |- _ => destruct (int_same _ _ _ _ _ _ _ H H' E2) as (-> & -> & ->); auto end);
  try (subst; repeat split; try (f_equal; lia); try lia; auto).
Lemma str_same n n' h h' k k' : str_hdr n h -> str_hdr n' h' -> h ++ k = h' ++ k' -> n = n' /\ h = h' /\ k = k'.
Proof. hdr. Qed.
Lemma bin_same n n' h h' k k' : bin_hdr n h -> bin_hdr n' h' -> h ++ k = h' ++ k' -> n = n' /\ h = h' /\ k = k'.
Proof. hdr. Qed.
Lemma arr_same n n' h h' k k' : arr_hdr n h -> arr_hdr n' h' -> h ++ k = h' ++ k' -> n = n' /\ h = h' /\ k = k'.
Proof. hdr. Qed.
Lemma map_same n n' h h' k k' : map_hdr n h -> map_hdr n' h' -> h ++ k = h' ++ k' -> n = n' /\ h = h' /\ k = k'.
Proof. hdr. Qed.
Lemma ext_same n n' h h' k k' : ext_hdr n h -> ext_hdr n' h' -> h ++ k = h' ++ k' -> n = n' /\ h = h' /\ k = k'.
Proof. hdr. Qed.
Lemma int_fmt_same n n' h h' k k' : int_fmt n h -> int_fmt n' h' -> h ++ k = h' ++ k' -> n = n' /\ h = h' /\ k = k'.
Proof. hdr. Qed.

Theorem fmt_once :
  (forall v a, mp_fmt v a -> forall v' a' k k', mp_fmt v' a' -> a ++ k = a' ++ k' -> v = v' /\ a = a' /\ k = k') /\
  (forall l a, mp_fmt_list l a -> forall l' a' k k', mp_fmt_list l' a' -> length l = length l' -> a ++ k = a' ++ k' -> l = l' /\ a = a' /\ k = k') /\
  (forall l a, mp_fmt_pairs l a -> forall l' a' k k', mp_fmt_pairs l' a' -> length l = length l' -> a ++ k = a' ++ k' -> l = l' /\ a = a' /\ k = k').
Proof.
  apply mp_fmt_mutind.
  1-11: intros; match goal with
    | H : mp_fmt ?v' ?a', E : ?a ++ ?k = ?a' ++ ?k' |- ?v = ?v' /\ _ =>
      let F := fresh "F" in assert (F : mp_fmt v a) by (constructor; assumption); pose proof (same_tag v a v' a' k k' F H E) as T;
      destruct H; try discriminate T; try (match goal with b : bool |- _ => destruct b; discriminate T end)
    end; clear F.
  1-3: (split; [reflexivity|]; split; [reflexivity|]; cbn [app] in *; congruence).
  1: match goal with A : int_fmt _ _, B : int_fmt _ _, E : _ ++ _ = _ ++ _ |- _ => first [destruct (int_fmt_same _ _ _ _ _ _ A B E) as (-> & -> & ->)|destruct (int_fmt_same _ _ _ _ _ _ B A E) as (-> & -> & ->)] end; auto.
  1-2: match goal with A : uint_be _ ?x _, B : uint_be _ ?y _, E : _ = _ |- _ ?x = _ /\ _ => cbn [app] in E; apply head_inj in E; destruct E as [_ E];
    destruct (uint_same _ _ _ _ _ _ _ A B E) as (-> & -> & ->); auto end.
  1-2: match goal with E : (?h ++ ?s) ++ _ = (?h' ++ ?s') ++ _, A : ?H (zlen ?s) ?h, B : ?H (zlen ?s') ?h' |- _ =>
    rewrite <- !app_assoc in E; first [destruct (str_same _ _ _ _ _ _ A B E) as (L & -> & E')|destruct (bin_same _ _ _ _ _ _ A B E) as (L & -> & E')];
    unfold zlen in L; apply app_same_len in E'; [destruct E' as [-> ->]; auto|lia] end.
  1: rewrite <- !app_assoc in H1; destruct (arr_same _ _ _ _ _ _ a H0 H1) as (L & -> & E'); unfold zlen in L; destruct (H _ _ _ _ H2 ltac:(lia) E') as (-> & -> & ->); auto.
  1: rewrite <- !app_assoc in H1; destruct (map_same _ _ _ _ _ _ m H0 H1) as (L & -> & E'); unfold zlen in L; destruct (H _ _ _ _ H2 ltac:(lia) E') as (-> & -> & ->); auto.
  1: match goal with E : (?h ++ ?t :: ?s) ++ _ = (?h' ++ ?t' :: ?s') ++ _, A : ext_hdr _ ?h, B : ext_hdr _ ?h' |- _ =>
    rewrite <- !app_assoc in E; destruct (ext_same _ _ _ _ _ _ A B E) as (L & -> & E'); cbn [app] in E'; apply head_inj in E'; destruct E' as [-> E'];
    unfold zlen in L; apply app_same_len in E'; [destruct E' as [-> ->]; auto|lia] end.
  - intros l' a' k k' [|v l a b] L E; [auto|discriminate].
  - intros v l a b Hv IHv Hl IHl l' a' k k' [|v' l0 a0 b0 Hv' Hl'] L E; [discriminate|].
    rewrite <- !app_assoc in E. destruct (IHv v' a0 _ _ Hv' E) as (-> & -> & E'). cbn [length] in L. destruct (IHl l0 b0 k k' Hl' ltac:(lia) E') as (-> & -> & ->). auto.
  - intros l' a' k k' [|v l a b] L E; [auto|discriminate].
  - intros x v l a b c Hx IHx Hv IHv Hl IHl l' a' k k' [|x' v' l0 a0 b0 c0 Hx' Hv' Hl'] L E; [discriminate|].
    rewrite <- !app_assoc in E. destruct (IHx x' a0 _ _ Hx' E) as (-> & -> & E'). destruct (IHv v' b0 _ _ Hv' E') as (-> & -> & E2). cbn [length] in L.
    destruct (IHl l0 c0 k k' Hl' ltac:(lia) E2) as (-> & -> & ->). auto.
Qed.
Theorem prefix_code v v' a k : mp_fmt v a -> mp_fmt v' (a ++ k) -> v = v' /\ k = [].
Proof. intros H H'. destruct (proj1 fmt_once v a H v' (a ++ k) k [] H' ltac:(rewrite app_nil_r; auto)) as (-> & _ & ->). auto. Qed.

Lemma fmt_bytes :
  (forall v a, mp_fmt v a -> all_bytes a) /\ (forall l a, mp_fmt_list l a -> all_bytes a) /\ (forall l a, mp_fmt_pairs l a -> all_bytes a).
Proof.
  apply mp_fmt_mutind; intros; unfold all_bytes in *; repeat (apply Forall_app; split); auto;
    repeat match goal with
    | H : int_fmt _ _ |- _ => destruct H
    | H : str_hdr _ _ |- _ => destruct H
    | H : bin_hdr _ _ |- _ => destruct H
    | H : arr_hdr _ _ |- _ => destruct H
    | H : map_hdr _ _ |- _ => destruct H
    | H : ext_hdr _ _ |- _ => destruct H
    end; repeat match goal with H : uint_be _ _ _ |- _ => destruct H as (_ & H & _) | H : int_be _ _ _ |- _ => destruct H as (_ & H & _) end;
    repeat constructor; auto; unfold is_byte in *; try lia.
Qed.

(** The size of what MessagePack decoding returns (C62). *)
From Verif Require Import Prelude PreludeFacts Utf8Spec SerdeSer SerdeDe FloatOps MpSpec Types TypesFacts MpTypeSpec SizeSpec.

Lemma le_max x l : In x l -> (x <= list_max l)%nat.
Proof. intros H. pose proof (proj1 (list_max_le l (list_max l)) (Nat.le_refl _)) as F. rewrite Forall_forall in F. auto. Qed.
Lemma hdr_len n h : arr_hdr n h -> (1 <= length h)%nat. Proof. destruct 1; cbn; lia. Qed.
Lemma mhdr_len n h : map_hdr n h -> (1 <= length h)%nat. Proof. destruct 1; cbn; lia. Qed.
Lemma shdr_len n h : str_hdr n h -> (1 <= length h)%nat. Proof. destruct 1; cbn; lia. Qed.
Lemma bhdr_len n h : bin_hdr n h -> (1 <= length h)%nat. Proof. destruct 1; cbn; lia. Qed.
Lemma int_len z bs : int_fmt z bs -> (1 <= length bs)%nat. Proof. destruct 1; cbn; lia. Qed.


Definition total (l : list val) : nat := list_sum (map val_size l).
Lemma total_cons v l : total (v :: l) = (val_size v + total l)%nat. Proof. reflexivity. Qed.
Lemma total_app a b : total (a ++ b) = (total a + total b)%nat.
Proof. unfold total. rewrite map_app, list_sum_app. reflexivity. Qed.
Definition lack (fs : list (bytes * fattr * ty)) : nat := list_sum (map supplied fs).
Lemma lack_cons f fs : lack (f :: fs) = (supplied f + lack fs)%nat. Proof. reflexivity. Qed.
Lemma lack_app a b : lack (a ++ b) = (lack a + lack b)%nat.
Proof. unfold lack. rewrite map_app, list_sum_app. reflexivity. Qed.

(** What a struct's fields got so far. *)
Definition held (g : option val) : nat := match g with Some v => val_size v | None => 0%nat end.
Definition haul (got : list (option val)) : nat := list_sum (map held got).
Lemma haul_cons g got : haul (g :: got) = (held g + haul got)%nat. Proof. reflexivity. Qed.
Lemma haul_set got i v : nth_error got i = Some None -> haul (set_nth got i (Some v)) = (val_size v + haul got)%nat.
Proof.
  revert i. induction got as [|g got IH]; intros [|i] H; cbn in H; try discriminate; cbn [set_nth].
  - injection H as ->. rewrite !haul_cons. cbn. lia.
  - rewrite !haul_cons, (IH _ H). lia.
Qed.
Lemma haul_none {A} (fs : list A) : haul (map (fun _ => None) fs) = 0%nat.
Proof. induction fs; cbn; auto. Qed.
Lemma fields_total fs : forall got l, all_fields fs got l -> (total l <= haul got + lack fs)%nat.
Proof.
  induction fs as [|f fs IH]; intros [|g got] [|v l] H; cbn in H; try contradiction; [cbn; lia|].
  destruct H as (Hv & H). apply IH in H. rewrite total_cons, haul_cons, lack_cons.
  enough (val_size v <= held g + supplied f)%nat by lia.
  destruct g as [w|]; [subst; cbn; lia|]. unfold absent_ok, supplied in *. destruct (attr_of f); [destruct Hv as (-> & _); cbn; lia|subst; cbn; lia].
Qed.
Lemma defaults_total fs : forall l, all2 (fun f v => attr_of f = FDefault v) fs l -> (total l <= lack fs)%nat.
Proof.
  induction fs as [|f fs IH]; intros [|v l] H; cbn in H; try contradiction; [cbn; lia|].
  destruct H as (Hv & H). apply IH in H. rewrite total_cons, lack_cons. unfold supplied. rewrite Hv. lia.
Qed.

Lemma room K D x h b : (1 <= h)%nat -> (x <= K * b + D)%nat -> (x + S K <= (D + S K) * (h + b))%nat.
Proof.
  intros Hh Hx. assert (H1 : ((D + S K) * 1 <= (D + S K) * h)%nat) by (apply Nat.mul_le_mono_l; exact Hh).
  assert (H2 : (K * b <= (D + S K) * b)%nat) by (apply Nat.mul_le_mono_r; lia). lia.
Qed.
(** Lists of parts: [K] per byte. *)
Section Parts.
Context (K : nat).
Definition small (p : val -> bytes -> Prop) : Prop := forall v b, p v b -> (val_size v <= K * length b)%nat.
Lemma seq_small (p : val -> bytes -> Prop) l : small p -> forall b, seq_enc (map p l) b -> (total l <= K * length b)%nat.
Proof.
  intros Hp. induction l as [|v l IH]; intros b Hb; [cbn; lia|]. cbn [map seq_enc] in Hb. destruct Hb as (x & y & -> & Hx & Hy).
  apply Hp in Hx. apply IH in Hy. rewrite app_length, total_cons. lia.
Qed.
Lemma pairs_small (p q : val -> bytes -> Prop) l : small p -> small q -> forall b,
  seq_enc (map (fun e b => exists x y, b = x ++ y /\ p (fst e) x /\ q (snd e) y) l) b ->
  (list_sum (map (fun e => val_size (fst e) + val_size (snd e)) l) <= K * length b)%nat.
Proof.
  intros Hp Hq. induction l as [|e l IH]; intros b Hb; [cbn; lia|]. cbn [map seq_enc] in Hb. destruct Hb as (x & y & -> & (x1 & x2 & -> & H1 & H2) & Hy).
  apply Hp in H1. apply Hq in H2. apply IH in Hy. rewrite !app_length. cbn [map list_sum fold_right] in *. unfold list_sum in Hy. lia.
Qed.
Lemma zip_small ps : Forall small ps -> forall l b, length l = length ps -> seq_enc (zip (fun p v => p v) ps l) b -> (total l <= K * length b)%nat.
Proof.
  induction 1 as [|p ps Hp _ IH]; intros l b Hl Hb; destruct l as [|v l]; try discriminate; [cbn; lia|]. cbn [zip seq_enc] in Hb. destruct Hb as (x & y & -> & Hx & Hy).
  apply Hp in Hx. apply IH in Hy; [|cbn in Hl; lia]. rewrite app_length, total_cons. lia.
Qed.
Lemma entries_small names ps got n b got' : Forall small ps -> entries names ps got n b got' -> (haul got' <= haul got + K * length b)%nat.
Proof.
  intros Hp. induction 1 as [|got n i p v k b rest got' Hg Hi Hk Hv _ IH|got n m k b rest got' Hk Hm _ IH]; [lia| |].
  - rewrite (haul_set _ _ _ Hg) in IH. rewrite Forall_forall in Hp. apply nth_error_In, Hp in Hi. apply Hi in Hv. rewrite !app_length. lia.
  - rewrite !app_length. lia.
Qed.
Lemma struct_small fs ps l bs : Forall small ps -> length ps = length fs -> struct_enc fs ps l bs ->
  (total l + S K <= (lack fs + S K) * length bs)%nat.
Proof.
  intros Hp Hlen [(n & h & b & -> & Hn & Hh & Hl & Hb & Hd)|(n & h & b & got & -> & Hh & He & Hf)]; rewrite app_length.
  - apply hdr_len in Hh. apply defaults_total in Hd.
    apply zip_small in Hb; [| |rewrite !firstn_length; lia].
    2: { rewrite Forall_forall in *. intros x Hx. apply Hp. rewrite <- (firstn_skipn n ps). apply in_or_app. auto. }
    pose proof (f_equal total (firstn_skipn n l)) as E1. pose proof (f_equal lack (firstn_skipn n fs)) as E2. rewrite total_app in E1. rewrite lack_app in E2.
    apply room; lia.
  - apply mhdr_len in Hh. apply (entries_small _ _ _ _ _ _ Hp) in He. apply fields_total in Hf. rewrite haul_none in He. apply room; lia.
Qed.
End Parts.
Lemma small_le K K' p : (K <= K')%nat -> small K p -> small K' p.
Proof. intros HK Hp v b H. apply Hp in H. nia. Qed.
Lemma small_all {A} (f : A -> ty) (p : A -> val -> bytes -> Prop) l : Forall (fun x => small (per_byte (f x)) (p x)) l -> Forall (small (list_max (map (fun x => per_byte (f x)) l))) (map p l).
Proof.
  intros H. rewrite Forall_map. rewrite Forall_forall in *. intros x Hx. apply (small_le (per_byte (f x))); [|exact (H x Hx)].
  apply le_max. apply in_map_iff. eauto.
Qed.

Lemma adm_len fo t : forall v bs, adm fo t v bs -> (1 <= length bs)%nat.
Proof.
  induction t using ty_ind'; intros v bs H0; destruct v; cbn [adm] in H0; try contradiction;
    try (eapply IHt; exact H0);
    try (destruct H0 as (h & b & -> & Hh & _); rewrite app_length; first [apply hdr_len in Hh|apply mhdr_len in Hh]; lia).
  all: try (subst; cbn; lia).
  all: try (destruct H0 as (_ & H0); apply int_len in H0; lia).
  all: try (destruct H0 as (_ & h & Hh & ->); rewrite app_length; first [apply shdr_len in Hh|apply bhdr_len in Hh]; lia).
  - destruct H0 as [(h & -> & _)|[(h & y & -> & _)|[(z & H0 & _)|(-> & _)]]]; try (cbn; lia). apply int_len in H0. lia.
  - destruct H0 as [(h & -> & _)|[(h & y & -> & _)|[(z & H0 & _)|(-> & _)]]]; try (cbn; lia). apply int_len in H0. lia.
  - destruct H0 as (H0 & _). eauto.
  - destruct H0 as [(n & h & b & -> & _ & Hh & _)|(n & h & b & got & -> & Hh & _)]; rewrite app_length; [apply hdr_len in Hh|apply mhdr_len in Hh]; lia.
  - destruct (nth_error _ _) as [[[] p]|]; try contradiction; try (destruct H0 as (k & b & -> & _); cbn; lia).
    destruct H0 as (_ & [(s & _ & h & Hh & ->)|(_ & Hi)]); [rewrite app_length; apply shdr_len in Hh; lia|destruct Hi; cbn; lia].
Qed.

(** ** Typed decoding *)
Lemma adm_size fo t : small (per_byte t) (adm fo t).
Proof.
  induction t using ty_ind'; intros v bs H0; pose proof (adm_len _ _ _ _ H0) as L; destruct v; cbn [adm] in H0; try contradiction; cbn [val_size per_byte].
  all: try lia.
  all: try (apply IHt in H0; cbn [val_size] in H0; lia).
  all: try (destruct H0 as (_ & h & Hh & ->); rewrite app_length in *; first [apply shdr_len in Hh|apply bhdr_len in Hh]; lia).
  - destruct H0 as (H0 & _). apply IHt in H0. nia.
  - destruct H0 as (h & b & -> & Hh & Hb). apply hdr_len in Hh. apply (seq_small _ _ _ IHt) in Hb. fold (total l). rewrite app_length. nia.
  - destruct H0 as (h & b & -> & Hh & Hl & Hb). apply hdr_len in Hh.
    apply (zip_small _ _ (small_all (fun x => x) (adm fo) l H)) in Hb; [|rewrite map_length; auto].
    change (map (fun x : ty => per_byte x) l) with (map per_byte l) in Hb. fold (total l0). rewrite app_length.
    pose proof (room (list_max (map per_byte l)) 0 (total l0) (length h) (length b) Hh) as R; lia.
  - destruct H0 as (h & b & -> & Hh & Hl & Hb). apply hdr_len in Hh.
    apply (zip_small _ _ (small_all (fun x => x) (adm fo) l H)) in Hb; [|rewrite map_length; auto].
    change (map (fun x : ty => per_byte x) l) with (map per_byte l) in Hb. fold (total l0). rewrite app_length.
    pose proof (room (list_max (map per_byte l)) 0 (total l0) (length h) (length b) Hh) as R; lia.
  - destruct H0 as (h & b & -> & Hh & Hb). apply mhdr_len in Hh.
    apply (pairs_small (Nat.max (per_byte t1) (per_byte t2)) (adm fo t1) (adm fo t2)) in Hb;
      [|apply (small_le (per_byte t1)); [lia|exact IHt1]|apply (small_le (per_byte t2)); [lia|exact IHt2]]. rewrite app_length. nia.
  - apply (struct_small _ _ _ _ _ (small_all snd (fun f => adm fo (snd f)) fs H)) in H0; [|apply map_length].
    fold (total l). fold (lack fs). nia.
  - pose proof (small_all snd (fun f => adm fo (snd f)) vs H) as HF. rewrite Forall_forall in HF.
    destruct (nth_error _ _) as [[k p]|] eqn:E; [|contradiction].
    rewrite nth_error_map in E. destruct (nth_error vs _) as [f|] eqn:E1; [|discriminate]. cbn in E. injection E as <- <-.
    assert (Hs := HF _ (in_map (fun f => adm fo (snd f)) _ _ (nth_error_In _ _ E1))).
    destruct (attr_of f).
    1: destruct H0 as (-> & _); cbn [val_size]; nia.
    all: destruct H0 as (x & b & -> & _ & Hb); apply Hs in Hb; cbn [length] in *; rewrite app_length in *; nia.
Qed.

(** ** Self-describing decoding *)
Lemma denotes_size :
  (forall m bs, mp_fmt m bs -> forall v, denotes m (inl v) -> (val_size v <= length bs)%nat) /\
  (forall l bs, mp_fmt_list l bs -> forall vs, denotes_list l (inl vs) -> (total vs <= length bs)%nat) /\
  (forall l bs, mp_fmt_pairs l bs -> forall vs, denotes_pairs l (inl vs) -> (list_sum (map (fun e => val_size (fst e) + val_size (snd e)) vs) <= length bs)%nat).
Proof.
  apply mp_fmt_mutind; intros; try (match goal with H : denotes _ _ |- _ => inversion H | H : denotes_list _ _ |- _ => inversion H | H : denotes_pairs _ _ |- _ => inversion H end; subst); cbn [val_size length]; rewrite ?app_length; try lia.
  - apply int_len in i. lia.
  - apply shdr_len in s0. lia.
  - apply bhdr_len in b. lia.
  - apply hdr_len in a. fold (total vs). specialize (H _ ltac:(eassumption)). lia.
  - apply mhdr_len in m. specialize (H _ ltac:(eassumption)). lia.
  - cbn; lia.
  - rewrite total_cons. specialize (H _ ltac:(eassumption)). specialize (H0 _ ltac:(eassumption)). lia.
  - cbn; lia.
  - specialize (H _ ltac:(eassumption)). specialize (H0 _ ltac:(eassumption)). specialize (H1 _ ltac:(eassumption)). cbn [map list_sum fold_right fst snd] in *. unfold list_sum in H1. lia.
Qed.

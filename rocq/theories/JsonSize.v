(** The size of what JSON decoding returns (C62). *)
From Verif Require Import Prelude PreludeFacts Utf8Spec SerdeSer SerdeDe Base64Spec JsonSpec JsonFacts Types TypesFacts MpTypeSpec JsonTypeSpec JsonAnySpec SizeSpec MpSize.

(** ** A text is at least this long *)
Fixpoint least (d : jv) : nat :=
  match d with
  | JStr raw => S (length raw)
  | JArr l => S (list_sum (map (fun d => S (least d)) l))
  | JObj l => S (list_sum (map (fun m => S (length (fst m) + least (snd m))) l))
  | _ => 1%nat
  end.
Definition least_all (l : list jv) : nat := list_sum (map (fun d => S (least d)) l).
Definition least_members (l : list (bytes * jv)) : nat := list_sum (map (fun m => S (length (fst m) + least (snd m))) l).
Lemma least_all_cons d l : least_all (d :: l) = (S (least d) + least_all l)%nat. Proof. reflexivity. Qed.
Lemma least_members_cons k d l : least_members ((k, d) :: l) = (S (length k + least d) + least_members l)%nat. Proof. reflexivity. Qed.
Lemma least_pos d : (1 <= least d)%nat. Proof. destruct d; cbn [least]; lia. Qed.
Lemma least_text :
  (forall d b, loose_text d b -> (least d <= length b)%nat) /\
  (forall l b, elements any_ws quoted loose_key number_run l b -> (least_all l <= S (length b))%nat) /\
  (forall l b, members any_ws quoted loose_key number_run l b -> (least_members l <= S (length b))%nat).
Proof.
  apply jtext_mutind; intros; cbn [least length]; rewrite ?app_length; cbn [length]; try lia.
  - destruct n as (Hn & _). destruct tok; [contradiction|]. cbn [length]. lia.
  - destruct s0 as (-> & _). cbn [length]. rewrite app_length. cbn [length]. lia.
  - cbn. lia.
  - fold (least_all l). lia.
  - cbn. lia.
  - fold (least_members l). lia.
  - rewrite least_all_cons. cbn. lia.
  - rewrite least_all_cons. lia.
  - destruct k0 as (-> & _). rewrite least_members_cons. change (least_members []) with 0%nat. repeat (rewrite ?app_length; cbn [length]). lia.
  - destruct k0 as (-> & _). rewrite least_members_cons. repeat (rewrite ?app_length; cbn [length]). lia.
Qed.

(** ** Literals *)
Lemma char_len c : (length (utf8_char c) <= 4)%nat.
Proof. unfold utf8_char. repeat (case (_ <=? _)); cbn; lia. Qed.
Lemma body_len p raw s : str_body p raw s -> (length s <= length raw)%nat.
Proof.
  induction 1; cbn [length]; rewrite ?app_length; cbn [length]; rewrite ?app_length; try lia.
  - destruct H as (c1 & c2 & c3 & c4 & v1 & v2 & v3 & v4 & -> & _). pose proof (char_len n). cbn. lia.
  - pose proof (char_len (65536 + (n1 - 55296) * 1024 + (n2 - 56320))). destruct H0 as (c1 & c2 & c3 & c4 & v1 & v2 & v3 & v4 & -> & _). cbn [length]. lia.
Qed.
Lemma literal_len raw s : literal raw s -> (length s <= length raw)%nat.
Proof. intros (H & _). eapply body_len, H. Qed.
Lemma hex_len raw s : hex_bytes raw s -> (length s <= length raw)%nat.
Proof. induction 1; cbn; lia. Qed.
Lemma b64_len n : forall ds, (length ds < n)%nat -> (length (b64_bytes ds) <= length ds)%nat.
Proof.
  induction n as [|n IH]; intros ds H; [lia|].
  destruct ds as [|a [|b [|c [|d r]]]]; try (cbn; lia).
  change (length (b64_bytes (a :: b :: c :: d :: r))) with (3 + length (b64_bytes r))%nat. cbn [length] in *. specialize (IH r ltac:(lia)). lia.
Qed.
Lemma base64_len raw s : bytes_as_base64 raw s -> (length s <= length raw)%nat.
Proof.
  intros (ds & n & -> & _ & ->). rewrite app_length, map_length. pose proof (b64_len (S (length ds)) ds ltac:(lia)). lia.
Qed.

(** ** Parts *)
Section Parts.
Context (K : nat).
Definition slim (p : val -> jv -> Prop) : Prop := forall v d, p v d -> (val_size v <= K * least d)%nat.
Lemma seq_slim (p : val -> jv -> Prop) l ds : slim p -> Forall2 p l ds -> (total l <= K * least_all ds)%nat.
Proof.
  intros Hp. induction 1 as [|v d l ds H _ IH]; [cbn; lia|]. apply Hp in H. rewrite total_cons, least_all_cons. nia.
Qed.
Lemma zip_slim ps : Forall slim ps -> forall l ds, all3 (fun (p : val -> jv -> Prop) v d => p v d) ps l ds -> (total l <= K * least_all ds)%nat.
Proof.
  induction 1 as [|p ps Hp _ IH]; intros [|v l] [|d ds] H; cbn in H; try contradiction; [cbn; lia|].
  destruct H as (Hv & H). apply Hp in Hv. apply IH in H. rewrite total_cons, least_all_cons. nia.
Qed.
Lemma fields_slim names ps got ms got' : Forall slim ps -> obj_fields names ps got ms got' -> (haul got' <= haul got + K * least_members ms)%nat.
Proof.
  intros Hp. induction 1 as [|got i n p v raw d ms got' Hg Hi Hn Hr Hv _ IH|got raw s d ms got' Hr Hs Hd _ IH]; [lia| |].
  - rewrite (haul_set _ _ _ Hg) in IH. rewrite Forall_forall in Hp. apply nth_error_In, Hp in Hi. apply Hi in Hv. rewrite least_members_cons. nia.
  - rewrite least_members_cons. nia.
Qed.
Lemma struct_slim fs ps l d : Forall slim ps -> struct_as fs ps l d -> (total l + S K <= (lack fs + S K) * least d)%nat.
Proof.
  intros Hp [(ds & -> & Hn & Hl & Hb & Hd)|(ms & got & -> & He & Hf)]; cbn [least].
  - fold (least_all ds). apply defaults_total in Hd.
    apply zip_slim in Hb.
    2: { rewrite Forall_forall in *. intros x Hx. apply Hp. rewrite <- (firstn_skipn (length ds) ps). apply in_or_app. auto. }
    pose proof (f_equal total (firstn_skipn (length ds) l)) as E1. pose proof (f_equal lack (firstn_skipn (length ds) fs)) as E2. rewrite total_app in E1. rewrite lack_app in E2.
    apply (room _ _ _ 1); lia.
  - fold (least_members ms). apply (fields_slim _ _ _ _ _ Hp) in He. apply fields_total in Hf. rewrite haul_none in He. apply (room _ _ _ 1); lia.
Qed.
End Parts.
Lemma slim_le K K' p : (K <= K')%nat -> slim K p -> slim K' p.
Proof. intros HK Hp v b H. apply Hp in H. nia. Qed.
Lemma slim_all {A} (f : A -> ty) (p : A -> val -> jv -> Prop) l : Forall (fun x => slim (per_byte (f x)) (p x)) l -> Forall (slim (list_max (map (fun x => per_byte (f x)) l))) (map p l).
Proof.
  intros H. rewrite Forall_map. rewrite Forall_forall in *. intros x Hx. apply (slim_le (per_byte (f x))); [|exact (H x Hx)].
  apply le_max. apply in_map_iff. eauto.
Qed.

Section Typed.
Context (key_ws : bytes -> Prop) (f32_of f64_of : bytes -> option Z) (bytes_of : bytes -> bytes -> Prop).
Context (shrinks : forall raw s, bytes_of raw s -> (length s <= length raw)%nat).
Local Notation reads := (reads_as key_ws f32_of f64_of bytes_of).

Lemma key_size t v raw : key_as key_ws t v raw -> (val_size v <= per_byte t * S (length raw))%nat.
Proof.
  destruct t, v; cbn [key_as]; try contradiction; cbn [val_size per_byte]; intros H; try lia.
  - apply literal_len in H. lia.
  - apply literal_len in H. lia.
  - destruct H as (-> & _). cbn [val_size]. nia.
Qed.
Lemma pairs_slim k v l ms : slim (per_byte v) (reads v) ->
  Forall2 (fun e m => key_as key_ws k (fst e) (fst m) /\ reads v (snd e) (snd m)) l ms ->
  (list_sum (map (fun e => val_size (fst e) + val_size (snd e)) l) <= Nat.max (per_byte k) (per_byte v) * least_members ms)%nat.
Proof.
  intros Hv. induction 1 as [|e [raw d] l ms (Hk & H) _ IH]; [cbn; lia|]. apply key_size in Hk. apply Hv in H. rewrite least_members_cons. cbn [fst snd] in *.
  change (list_sum (map (fun e => (val_size (fst e) + val_size (snd e))%nat) (e :: l))) with ((val_size (fst e) + val_size (snd e)) + list_sum (map (fun e => (val_size (fst e) + val_size (snd e))%nat) l))%nat.
  assert (H1 : (per_byte k * S (length raw) <= Nat.max (per_byte k) (per_byte v) * S (length raw))%nat) by (apply Nat.mul_le_mono_r; lia).
  assert (H2 : (per_byte v * least d <= Nat.max (per_byte k) (per_byte v) * least d)%nat) by (apply Nat.mul_le_mono_r; lia).
  lia.
Qed.
Lemma reads_size t : slim (per_byte t) (reads t).
Proof.
  induction t using ty_ind'; intros v d H0; pose proof (least_pos d) as L; destruct v; cbn [reads_as] in H0; try contradiction; cbn [val_size per_byte].
  all: try lia.
  all: try (apply IHt in H0; cbn [val_size] in H0; lia).
  - destruct H0 as (raw & -> & H0). apply literal_len in H0. cbn [least]. lia.
  - destruct H0 as [(raw & -> & H0)|(toks & -> & H0)].
    + apply shrinks in H0. cbn [least]. lia.
    + cbn [least]. clear L. induction H0 as [|z tok s toks _ _ IH]; cbn [length map list_sum fold_right least] in *; [lia|]. unfold list_sum in IH. lia.
  - destruct H0 as (H0 & _). apply IHt in H0. nia.
  - destruct H0 as (ds & -> & Hb). apply (seq_slim _ _ _ _ IHt) in Hb. fold (total l). cbn [least]. fold (least_all ds). pose proof (room (per_byte t) 0 (total l) 1 (least_all ds) (le_n 1)). lia.
  - destruct H0 as (ds & -> & Hb). apply (zip_slim _ _ (slim_all (fun x => x) reads l H)) in Hb.
    change (map (fun x : ty => per_byte x) l) with (map per_byte l) in Hb. fold (total l0). cbn [least]. fold (least_all ds). pose proof (room (list_max (map per_byte l)) 0 (total l0) 1 (least_all ds) (le_n 1)). lia.
  - destruct H0 as (ds & -> & Hb). apply (zip_slim _ _ (slim_all (fun x => x) reads l H)) in Hb.
    change (map (fun x : ty => per_byte x) l) with (map per_byte l) in Hb. fold (total l0). cbn [least]. fold (least_all ds). pose proof (room (list_max (map per_byte l)) 0 (total l0) 1 (least_all ds) (le_n 1)). lia.
  - destruct H0 as (ms & -> & Hb). apply (pairs_slim _ _ _ _ IHt2) in Hb. cbn [least]. fold (least_members ms).
    pose proof (room (Nat.max (per_byte t1) (per_byte t2)) 0 _ 1 (least_members ms) (le_n 1) (Nat.le_trans _ _ _ Hb (Nat.le_add_r _ 0))). lia.
  - apply (struct_slim _ _ _ _ _ (slim_all snd (fun f => reads (snd f)) fs H)) in H0.
    fold (total l). fold (lack fs). nia.
  - pose proof (slim_all snd (fun f => reads (snd f)) vs H) as HF. rewrite Forall_forall in HF.
    destruct (nth_error _ _) as [[[n k] p]|] eqn:E; [|contradiction].
    rewrite nth_error_map in E. destruct (nth_error vs _) as [f|] eqn:E1; [|discriminate]. cbn in E. injection E as <- <- <-.
    assert (Hs := HF _ (in_map (fun f => reads (snd f)) _ _ (nth_error_In _ _ E1))).
    destruct (attr_of f).
    1: destruct H0 as (-> & _); cbn [val_size]; nia.
    all: destruct H0 as (x & b & -> & _ & Hb); apply Hs in Hb; cbn [least map list_sum fold_right fst snd] in *; nia.
Qed.
End Typed.

(** ** Self-describing decoding *)
Section Any.
Context (any_f32 : bool) (float_of : bytes -> option Z).
Lemma number_size v tok : number_as any_f32 float_of v tok -> val_size v = 1%nat.
Proof. destruct 1; [destruct any_f32|..]; reflexivity. Qed.
Fixpoint any_size v d (H : any_as any_f32 float_of v d) {struct H} : (val_size v <= least d)%nat.
Proof.
  destruct H as [|b|v tok H|s raw H|l ds H|l ms H].
  - cbn; lia.
  - cbn; lia.
  - rewrite (number_size _ _ H). cbn. lia.
  - apply literal_len in H. cbn [val_size least]. lia.
  - cbn [val_size least]. fold (total l). fold (least_all ds). enough (total l <= least_all ds)%nat by lia.
    induction H as [|v d l ds Hv _ IH]; [cbn; lia|]. apply any_size in Hv. rewrite total_cons, least_all_cons. lia.
  - cbn [val_size least]. fold (least_members ms). apply le_n_S.
    induction H as [|e [raw d] l ms ((s & Hs & Hl) & Hv) _ IH]; [cbn; lia|]. apply any_size in Hv. apply literal_len in Hl. rewrite least_members_cons.
    destruct e as [x y]. cbn [fst snd map list_sum fold_right] in *. unfold list_sum in IH. subst x. cbn [val_size]. lia.
Qed.
End Any.

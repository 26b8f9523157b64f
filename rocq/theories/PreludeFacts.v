(** Facts about the vocabulary of [Prelude]. *)
From Verif Require Import Prelude.
Ltac Zify.zify_post_hook ::= Z.div_mod_to_equations.

Lemma is_byteb_spec b : is_byteb b = true <-> is_byte b.
Proof. unfold is_byteb, is_byte. lia. Qed.

Lemma in_ikindb_spec k z : in_ikindb k z = true <-> in_ikind k z.
Proof. unfold in_ikindb, in_ikind. lia. Qed.

Lemma try_from_some k z v : try_from k z = Some v <-> v = z /\ in_ikind k z.
Proof.
  unfold try_from. destruct (in_ikindb k z) eqn:E.
  - apply in_ikindb_spec in E. split; [intros [= <-]; auto | intros [-> _]; auto].
  - split; [discriminate | intros [_ H]]. apply in_ikindb_spec in H. congruence.
Qed.

Lemma try_from_none k z : try_from k z = None <-> ~ in_ikind k z.
Proof.
  unfold try_from. destruct (in_ikindb k z) eqn:E.
  - apply in_ikindb_spec in E. split; [discriminate | tauto].
  - split; auto. intros _ H. apply in_ikindb_spec in H. congruence.
Qed.

Lemma be_bytes_length n x : length (be_bytes n x) = n.
Proof. induction n; cbn [be_bytes length]; auto. Qed.

Lemma be_bytes_all n x : all_bytes (be_bytes n x).
Proof.
  induction n; cbn [be_bytes]; constructor; auto.
  unfold is_byte. pose proof (Z.mod_pos_bound (x / 256 ^ Z.of_nat n) 256). lia.
Qed.

Lemma be_val_app_gen l acc :
  fold_left (fun acc b => acc * 256 + b) l acc = acc * 256 ^ zlen l + be_val l.
Proof.
  unfold be_val, zlen. revert acc.
  induction l as [|b l IH]; intros acc.
  - cbn. lia.
  - cbn [fold_left length]. rewrite IH, (IH (0 * 256 + b)).
    rewrite Nat2Z.inj_succ, Z.pow_succ_r by lia. ring.
Qed.

Lemma be_val_cons b l : be_val (b :: l) = b * 256 ^ zlen l + be_val l.
Proof. unfold be_val at 1. cbn [fold_left]. rewrite be_val_app_gen. lia. Qed.

Lemma be_val_bound l : all_bytes l -> 0 <= be_val l < 256 ^ zlen l.
Proof.
  induction 1 as [|b l Hb Hl IH]; [unfold be_val, zlen; cbn; lia|].
  rewrite be_val_cons. unfold zlen in *. cbn [length].
  rewrite Nat2Z.inj_succ, Z.pow_succ_r by lia. unfold is_byte in Hb. nia.
Qed.

Lemma be_val_be_bytes n x : be_val (be_bytes n x) = x mod 256 ^ Z.of_nat n.
Proof.
  induction n.
  - cbn. rewrite Z.mod_1_r. reflexivity.
  - cbn [be_bytes]. rewrite be_val_cons, IHn. unfold zlen. rewrite be_bytes_length.
    rewrite Nat2Z.inj_succ, Z.pow_succ_r by lia.
    set (p := 256 ^ Z.of_nat n). assert (0 < p) by (apply Z.pow_pos_nonneg; lia).
    rewrite (Z.mul_comm 256 p), Z.rem_mul_r by lia. ring.
Qed.

Lemma be_val_be_bytes_small n x : 0 <= x < 256 ^ Z.of_nat n -> be_val (be_bytes n x) = x.
Proof. intros. rewrite be_val_be_bytes. apply Z.mod_small. auto. Qed.

Lemma be_bytes_be_val l : all_bytes l -> be_bytes (length l) (be_val l) = l.
Proof.
  induction 1 as [|b l Hb Hl IH]; [reflexivity|].
  cbn [length be_bytes]. rewrite be_val_cons.
  pose proof (be_val_bound l Hl) as Hv. unfold zlen in *.
  assert (Hp : 0 < 256 ^ Z.of_nat (length l)) by (apply Z.pow_pos_nonneg; lia).
  f_equal.
  - rewrite Z.div_add_l by lia. rewrite (Z.div_small (be_val l)) by lia.
    rewrite Z.add_0_r. apply Z.mod_small. exact Hb.
  - assert (G : forall m x y, (m <= length l)%nat ->
        be_bytes m (x * 256 ^ Z.of_nat (length l) + y) = be_bytes m y).
    { clear. intros m x y Hm. induction m; [reflexivity|]. cbn [be_bytes]. f_equal; [|apply IHm; lia].
      replace (Z.of_nat (length l)) with (Z.of_nat m + (1 + (Z.of_nat (length l - m) - 1))) by lia.
      rewrite !Z.pow_add_r by lia. change (256 ^ 1) with 256.
      assert (0 < 256 ^ Z.of_nat m) by (apply Z.pow_pos_nonneg; lia).
      replace (x * (256 ^ Z.of_nat m * (256 * 256 ^ (Z.of_nat (length l - m) - 1))) + y)
        with (x * 256 ^ (Z.of_nat (length l - m) - 1) * 256 * 256 ^ Z.of_nat m + y) by ring.
      rewrite Z.div_add_l by lia. rewrite Z.add_comm, Z_mod_plus_full. reflexivity. }
    rewrite G by lia. exact IH.
Qed.

Lemma slice_length {A} (l : list A) a n : (a + n <= length l)%nat -> length (slice l a n) = n.
Proof. intros. unfold slice. rewrite firstn_length, skipn_length. lia. Qed.

Lemma splice_length {A} (l : list A) a bs :
  (a + length bs <= length l)%nat -> length (splice l a bs) = length l.
Proof.
  intros. unfold splice. rewrite !app_length, firstn_length, skipn_length. lia.
Qed.

Lemma skipn_add {A} (l : list A) a b : skipn a (skipn b l) = skipn (b + a) l.
Proof.
  revert l. induction b; intros l; cbn [Nat.add]; [rewrite skipn_O; auto|].
  destruct l; [rewrite !skipn_nil; auto|]. cbn [skipn]. apply IHb.
Qed.

Lemma slice_app_parts {A} (l : list A) a n m :
  slice l a (n + m) = slice l a n ++ slice l (a + n) m.
Proof.
  unfold slice. rewrite <- skipn_add.
  rewrite <- (firstn_skipn n (firstn (n + m) (skipn a l))).
  rewrite firstn_firstn, Nat.min_l by lia. f_equal.
  rewrite skipn_firstn_comm. f_equal. lia.
Qed.

Lemma slice_splice_same {A} (l : list A) a bs :
  (a <= length l)%nat -> slice (splice l a bs) a (length bs) = bs.
Proof.
  intros. unfold slice, splice.
  rewrite skipn_app, skipn_firstn_comm, firstn_length.
  replace (a - a)%nat with 0%nat by lia. replace (a - Nat.min a (length l))%nat with 0%nat by lia.
  cbn [firstn app]. rewrite skipn_O. rewrite firstn_app.
  rewrite firstn_all. replace (length bs - length bs)%nat with 0%nat by lia.
  rewrite firstn_O, app_nil_r. reflexivity.
Qed.

Lemma slice_splice_before {A} (l : list A) a bs p n :
  (p + n <= a)%nat -> (a <= length l)%nat -> slice (splice l a bs) p n = slice l p n.
Proof.
  intros. unfold slice, splice.
  rewrite skipn_app, firstn_app, skipn_length, firstn_length.
  replace (n - (Nat.min a (length l) - p))%nat with 0%nat by lia.
  rewrite firstn_O, app_nil_r. rewrite skipn_firstn_comm, firstn_firstn.
  f_equal. lia.
Qed.

Lemma skipn_splice_after {A} (l : list A) a bs p :
  (a + length bs <= p)%nat -> (a + length bs <= length l)%nat ->
  skipn p (splice l a bs) = skipn p l.
Proof.
  intros. unfold splice.
  rewrite app_assoc, skipn_app, skipn_add.
  rewrite app_length, firstn_length.
  rewrite skipn_all2 by (rewrite app_length, firstn_length; lia).
  cbn [app]. f_equal. lia.
Qed.

Lemma slice_all {A} (l : list A) : slice l 0 (length l) = l.
Proof. unfold slice. cbn [skipn]. apply firstn_all. Qed.

Lemma prefix_refl {A} (l : list A) : prefix l l.
Proof. exists []. rewrite app_nil_r. auto. Qed.

Lemma prefix_nil {A} (l : list A) : prefix [] l.
Proof. exists l. auto. Qed.

Lemma prefix_app_l {A} (p l r : list A) : prefix p l -> prefix p (l ++ r).
Proof. intros [s ->]. exists (s ++ r). rewrite app_assoc. auto. Qed.

Lemma prefix_app {A} (a p l : list A) : prefix p l -> prefix (a ++ p) (a ++ l).
Proof. intros [s ->]. exists s. rewrite app_assoc. auto. Qed.

Lemma prefix_length {A} (p l : list A) : prefix p l -> (length p <= length l)%nat.
Proof. intros [s ->]. rewrite app_length. lia. Qed.

Lemma prefix_trans {A} (a b c : list A) : prefix a b -> prefix b c -> prefix a c.
Proof. intros [s ->] [t ->]. exists (s ++ t). rewrite app_assoc. auto. Qed.

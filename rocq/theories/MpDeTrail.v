(** Containers whose visitor stops early (C26), and the public cursor methods (C48). *)
From Verif Require Import Prelude PreludeFacts Utf8 Utf8Spec SerdeSer SerdeDe MpMagick MpSpec MpDe MpDeView MpDeReads MpDeEat MpDeSafe.
Ltac Zify.zify_post_hook ::= Z.div_mod_to_equations.

(** [at_most j p]: on every path [p] asks for at most [j] elements. *)
CoInductive at_most {U E} : nat -> sprog U E -> Prop :=
| AM_ret j r : at_most j (SRet r)
| AM_next j seed k : (forall r, at_most j (k r)) -> at_most (S j) (SNext seed k)
| AM_hint j k : (forall h, at_most j (k h)) -> at_most j (SHint k).
(** The same for the keys of a map. *)
CoInductive at_most_keys {U E} : nat -> mprog U E -> Prop :=
| AK_ret j r : at_most_keys j (MRet r)
| AK_key j seed k : (forall r, at_most_keys j (k r)) -> at_most_keys (S j) (MKey seed k)
| AK_val j seed k : (forall r, at_most_keys j (k r)) -> at_most_keys j (MVal seed k)
| AK_hint j k : (forall h, at_most_keys j (k h)) -> at_most_keys j (MHint k).

Section Trail.
Context (ar : arch) (fo : float_ops) {U : Type}.

Lemma at_most_count fuel : 
  (forall p j n s s' u c, at_most j p -> Z.of_nat j < n ->
     r_seq (@mp_run ar fo U fuel) p n s = Done s' (Ok (u, c)) -> 0 < c) /\
  (forall p j n s s' u c, at_most_keys j p -> Z.of_nat j < n ->
     r_map (@mp_run ar fo U fuel) p n s = Done s' (Ok (u, c)) -> 0 < c).
Proof.
  induction fuel as [|f [IH1 IH2]]; [split; discriminate|]. split.
  - intros p j n s s' u c Hp Hj. cbn [mp_run r_seq]. destruct Hp as [j r|j seed k Hk|j k Hk]; cbn [step_seq].
    + unfold dbind, dlift. destruct r; [|discriminate]. intros [= _ _ <-]. lia.
    + destruct (n =? 0) eqn:E; [lia|]. unfold dtry.
      destruct (r_de (mp_run ar fo f) seed s) as [s1 r| |]; [|discriminate..]. apply (IH1 _ j); auto; lia.
    + apply (IH1 _ j); auto.
  - intros p j n s s' u c Hp Hj. cbn [mp_run r_map]. destruct Hp as [j r|j seed k Hk|j seed k Hk|j k Hk]; cbn [step_map].
    + unfold dbind, dlift. destruct r; [|discriminate]. intros [= _ _ <-]. lia.
    + destruct (n =? 0) eqn:E; [lia|]. unfold dtry.
      destruct (r_de (mp_run ar fo f) seed s) as [s1 r| |]; [|discriminate..]. apply (IH2 _ j); auto; lia.
    + unfold dtry. destruct (r_de (mp_run ar fo f) seed s) as [s1 r| |]; [|discriminate..]. apply (IH2 _ j); auto; lia.
    + apply (IH2 _ j); auto.
Qed.

(** The outcome once the visitor has run with outcome [o]: its errors are passed
    on, its success is turned into [TrailingElements]. *)
Definition trailing (o : outcome mpde (U * Z) mp_de_error) : outcome mpde U mp_de_error :=
  match o with
  | Done s (Ok _) => Done s (Err TrailingElements)
  | Done s (Err e) => Done s (Err e)
  | Panic => Panic
  | OutOfFuel => OutOfFuel
  end.

Lemma check_trailing o : (forall s u c, o = Done s (Ok (u, c)) -> 0 < c) ->
  match o with
  | Done s (Ok p) => check_count p s
  | Done s (Err e) => Done s (Err e)
  | Panic => Panic
  | OutOfFuel => OutOfFuel
  end = trailing o.
Proof.
  intros H. destruct o as [s [[u c]|e]| |]; auto. specialize (H _ _ _ eq_refl).
  unfold check_count. cbn [snd fst]. destruct (c =? 0) eqn:E; [lia|]. reflexivity.
Qed.

Lemma hdr_arr_run n h : arr_hdr n h -> reads ar
  (c <-- fetch ar ;;
   if between FIXARRAY FIXARRAY_MAX c then dret (Z.land c MAX_FIXARRAY_SIZE)
           else if c =? ARRAY_16 then fetch_u16 ar
           else if c =? ARRAY_32 then (n <-- fetch_u32 ar ;; try_usize ar n)
           else dfail ExpectedArray) h (Ok n).
Proof.
  intros H. destruct H as [n Hn|n h Hh|n h Hh].
  - consts. apply reads_cons. consts. ifs. rewrite land_15 by lia. apply reads_ret.
  - apply reads_cons. consts. ifs. apply reads_u16; auto.
  - apply reads_cons. consts. ifs. apply reads_usize; auto.
Qed.
Lemma hdr_map_run n h : map_hdr n h -> reads ar
  (c <-- fetch ar ;;
   if between FIXMAP FIXMAP_MAX c then dret (Z.land c MAX_FIXMAP_SIZE)
           else if c =? MAP_16 then fetch_u16 ar
           else if c =? MAP_32 then (n <-- fetch_u32 ar ;; try_usize ar n)
           else dfail ExpectedMap) h (Ok n).
Proof.
  intros H. destruct H as [n Hn|n h Hh|n h Hh].
  - apply reads_cons. consts. ifs. rewrite land_15 by lia. apply reads_ret.
  - apply reads_cons. consts. ifs. apply reads_u16; auto.
  - apply reads_cons. consts. ifs. apply reads_usize; auto.
Qed.

Definition hdr_struct_m : DM mpde mp_de_error (bool * Z) :=
  c <-- fetch ar ;;
  if between FIXMAP FIXMAP_MAX c then dret (true, Z.land c MAX_FIXMAP_SIZE)
          else if c =? MAP_16 then (n <-- fetch_u16 ar ;; dret (true, n))
          else if c =? MAP_32 then (n <-- fetch_u32 ar ;; n <-- try_usize ar n ;; dret (true, n))
          else if between FIXARRAY FIXARRAY_MAX c then dret (false, Z.land c MAX_FIXARRAY_SIZE)
          else if c =? ARRAY_16 then (n <-- fetch_u16 ar ;; dret (false, n))
          else if c =? ARRAY_32 then (n <-- fetch_u32 ar ;; n <-- try_usize ar n ;; dret (false, n))
          else dfail ExpectedStruct.
Lemma hdr_struct_map n h : map_hdr n h -> reads ar hdr_struct_m h (Ok (true, n)).
Proof.
  intros H. unfold hdr_struct_m. destruct H as [n Hn|n h Hh|n h Hh]; apply reads_cons; consts; ifs.
  - rewrite land_15 by lia. apply reads_ret.
  - eapply reads_bind_end; [apply reads_u16; eauto|apply reads_ret].
  - eapply reads_bind_end; [apply reads_u32; eauto|]. apply reads_try_usize; [|apply reads_ret].
    apply uint_be_range in Hh. cbn in Hh. lia.
Qed.
Lemma hdr_struct_arr n h : arr_hdr n h -> reads ar hdr_struct_m h (Ok (false, n)).
Proof.
  intros H. unfold hdr_struct_m. destruct H as [n Hn|n h Hh|n h Hh]; apply reads_cons; consts; ifs.
  - rewrite land_15 by lia. apply reads_ret.
  - eapply reads_bind_end; [apply reads_u16; eauto|apply reads_ret].
  - eapply reads_bind_end; [apply reads_u32; eauto|]. apply reads_try_usize; [|apply reads_ret].
    apply uint_be_range in Hh. cbn in Hh. lia.
Qed.

(** After the header, the visitor runs with the announced count. *)
Lemma seq_after_header R (v : visitor U mp_de_error) n h t s : ready ar s -> rest s = h ++ t -> arr_hdr n h ->
  exists s1, adv ar s s1 (zlen h) /\ deserialize_seq ar R v s = dbind (r_seq R (visit_seq v) n) check_count s1.
Proof.
  intros Hs Hr Hh. destruct (hdr_arr_run _ _ Hh s Hs (ready_fits_app ar s h t Hs Hr)) as [H _]. destruct (H t Hr) as (s1 & E & A).
  exists s1. split; auto. unfold deserialize_seq. rewrite <- dbind_assoc. unfold dbind at 1. rewrite E. reflexivity.
Qed.
Lemma map_after_header R (v : visitor U mp_de_error) n h t s : ready ar s -> rest s = h ++ t -> map_hdr n h ->
  exists s1, adv ar s s1 (zlen h) /\ deserialize_map ar R v s = dbind (r_map R (visit_map v) n) check_count s1.
Proof.
  intros Hs Hr Hh. destruct (hdr_map_run _ _ Hh s Hs (ready_fits_app ar s h t Hs Hr)) as [H _]. destruct (H t Hr) as (s1 & E & A).
  exists s1. split; auto. unfold deserialize_map. rewrite <- dbind_assoc. unfold dbind at 1. rewrite E. reflexivity.
Qed.
Lemma struct_after_map R (v : visitor U mp_de_error) n h t s : ready ar s -> rest s = h ++ t -> map_hdr n h ->
  exists s1, adv ar s s1 (zlen h) /\ deserialize_struct ar R v s = dbind (r_map R (visit_map v) n) check_count s1.
Proof.
  intros Hs Hr Hh. destruct (hdr_struct_map _ _ Hh s Hs (ready_fits_app ar s h t Hs Hr)) as [H _]. destruct (H t Hr) as (s1 & E & A).
  exists s1. split; auto. unfold deserialize_struct. rewrite <- dbind_assoc. fold hdr_struct_m.
  unfold dbind at 1. rewrite E. reflexivity.
Qed.
Lemma struct_after_arr R (v : visitor U mp_de_error) n h t s : ready ar s -> rest s = h ++ t -> arr_hdr n h ->
  exists s1, adv ar s s1 (zlen h) /\ deserialize_struct ar R v s = dbind (r_seq R (visit_seq v) n) check_count s1.
Proof.
  intros Hs Hr Hh. destruct (hdr_struct_arr _ _ Hh s Hs (ready_fits_app ar s h t Hs Hr)) as [H _]. destruct (H t Hr) as (s1 & E & A).
  exists s1. split; auto. unfold deserialize_struct. rewrite <- dbind_assoc. fold hdr_struct_m.
  unfold dbind at 1. rewrite E. reflexivity.
Qed.

Definition seq_method (m : dmethod) : Prop := In m [DSeq; DTuple; DTupleStruct; DStruct].
Definition map_method (m : dmethod) : Prop := In m [DMap; DStruct].

Lemma seq_trailing fuel m v n h t s j : seq_method m -> ready ar s -> rest s = h ++ t -> arr_hdr n h ->
  at_most j (visit_seq v) -> Z.of_nat j < n ->
  exists s1, adv ar s s1 (zlen h) /\
    mp_method ar fo (@mp_run ar fo U fuel) m v s = trailing (r_seq (mp_run ar fo fuel) (visit_seq v) n s1).
Proof.
  intros Hm Hs Hr Hh Ha Hj.
  assert (X : exists s1, adv ar s s1 (zlen h) /\
      mp_method ar fo (@mp_run ar fo U fuel) m v s = dbind (r_seq (mp_run ar fo fuel) (visit_seq v) n) check_count s1).
  { destruct Hm as [<-|[<-|[<-|[<-|[]]]]]; cbn [mp_method]; eauto using seq_after_header, struct_after_arr. }
  destruct X as (s1 & A & E). exists s1. split; auto. rewrite E. apply check_trailing.
  intros s2 u c. apply (proj1 (at_most_count fuel) _ j); auto.
Qed.
Lemma map_trailing fuel m v n h t s j : map_method m -> ready ar s -> rest s = h ++ t -> map_hdr n h ->
  at_most_keys j (visit_map v) -> Z.of_nat j < n ->
  exists s1, adv ar s s1 (zlen h) /\
    mp_method ar fo (@mp_run ar fo U fuel) m v s = trailing (r_map (mp_run ar fo fuel) (visit_map v) n s1).
Proof.
  intros Hm Hs Hr Hh Ha Hj.
  assert (X : exists s1, adv ar s s1 (zlen h) /\
      mp_method ar fo (@mp_run ar fo U fuel) m v s = dbind (r_map (mp_run ar fo fuel) (visit_map v) n) check_count s1).
  { destruct Hm as [<-|[<-|[]]]; cbn [mp_method]; eauto using map_after_header, struct_after_map. }
  destruct X as (s1 & A & E). exists s1. split; auto. rewrite E. apply check_trailing.
  intros s2 u c. apply (proj2 (at_most_count fuel) _ j); auto.
Qed.
End Trail.

(** ** Histories of calls to the public cursor methods *)
Inductive cursor_op := OPeek | OEatSome (n : Z) | OInputRef | OSplitInput (n : Z) | OEnd | ORemaining.
Definition eaten (o : cursor_op) : Z := match o with OEatSome n => n | _ => 0 end.

Section Cursor.
Context (ar : arch).
(** The observable result of each call ([None]: it panicked). *)
Definition do_op (s : mpde) (o : cursor_op) : option (mpde * result (list Z) mp_de_error) :=
  let obs {A} (f : A -> list Z) (r : outcome mpde A mp_de_error) :=
    match r with
    | Done s' (Ok a) => Some (s', Ok (f a))
    | Done s' (Err e) => Some (s', Err e)
    | _ => None
    end in
  match o with
  | OPeek => obs (fun c => [c]) (peek s)
  | OEatSome n => obs (fun _ => []) (eat_some ar n s)
  | OInputRef => obs sl_data (input_ref s)
  | OSplitInput n => obs sl_data (split_input n s)
  | OEnd => obs (fun n => [n]) (de_end s)
  | ORemaining => Some (s, Ok [remaining_len s])
  end.
Fixpoint do_ops (s : mpde) (l : list cursor_op) : option (mpde * list (result (list Z) mp_de_error)) :=
  match l with
  | [] => Some (s, [])
  | o :: l =>
    match do_op s o with
    | None => None
    | Some (s', r) => option_map (fun p => (fst p, r :: snd p)) (do_ops s' l)
    end
  end.

(** What the methods are documented to do, on the unread bytes alone: a cursor
    beyond the end is one with nothing unread. *)
Record view := { v_past : Z; v_rest : bytes }.   (* bytes beyond the end, unread bytes *)
Definition view_op (w : view) (o : cursor_op) : view * result (list Z) mp_de_error :=
  match o with
  | OPeek => (w, match v_rest w with c :: _ => Ok [c] | [] => Err UnexpectedEof end)
  | OEatSome n => ({| v_past := Z.max 0 (n - zlen (v_rest w)) + v_past w; v_rest := skipn (Z.to_nat n) (v_rest w) |}, Ok [])
  | OInputRef => (w, if 0 <? v_past w then Err UnexpectedEof else Ok (v_rest w))
  | OSplitInput n =>
    if (0 <? v_past w) || (zlen (v_rest w) <? n) then (w, Err UnexpectedEof)
    else ({| v_past := 0; v_rest := skipn (Z.to_nat n) (v_rest w) |}, Ok (firstn (Z.to_nat n) (v_rest w)))
  | OEnd => (w, if 0 <? v_past w then Err UnexpectedEof else Ok [zlen (v_rest w)])
  | ORemaining => (w, Ok [zlen (v_rest w)])
  end.
Fixpoint view_ops (w : view) (l : list cursor_op) : list (result (list Z) mp_de_error) :=
  match l with [] => [] | o :: l => snd (view_op w o) :: view_ops (fst (view_op w o)) l end.

Definition view_of (s : mpde) : view :=
  {| v_past := Z.max 0 (d_index s - zlen (sl_data (d_input s))); v_rest := rest s |}.

Lemma op_view s o : 0 <= d_index s -> 0 <= eaten o -> (forall n, o = OSplitInput n -> 0 <= n) ->
  d_index s + eaten o <= usize_max ar ->
  exists s', do_op s o = Some (s', snd (view_op (view_of s) o)) /\
    view_of s' = fst (view_op (view_of s) o) /\ 0 <= d_index s' <= d_index s + eaten o.
Proof.
  intros Hi He Hsp Hu.
  assert (Lr : zlen (rest s) = Z.max 0 (zlen (sl_data (d_input s)) - d_index s)).
  { unfold rest, zlen in *. rewrite skipn_length. lia. }
  destruct o; cbn [do_op view_op eaten] in *.
  - rewrite peek_run by lia. exists s. unfold view_of. cbn. destruct (rest s); cbn; auto with zarith.
  - unfold eat_some, dbind, get_index. rewrite uadd_run by lia. eexists. split; [reflexivity|]. split; [|cbn; lia].
    unfold view_of. cbn. f_equal.
    + rewrite Lr. lia.
    + unfold rest. cbn. rewrite skipn_add. f_equal. lia.
  - unfold input_ref, view_of. cbn. exists s.
    destruct (d_index s <=? zlen (sl_data (d_input s))) eqn:E; destruct (0 <? _) eqn:E2; cbn; auto with zarith; lia.
  - unfold split_input, dbind, input_ref, view_of. cbn. specialize (Hsp n eq_refl).
    destruct (d_index s <=? zlen (sl_data (d_input s))) eqn:E.
    + cbn [sl_data]. fold (rest s). destruct (n <=? zlen (rest s)) eqn:E1.
      * destruct (_ || _) eqn:E2; [lia|]. eexists. split; [reflexivity|]. split; [|cbn; lia].
        unfold view_of, rest. cbn [d_index d_input sl_data]. cbn [skipn Z.to_nat].
        cbn [fst]. f_equal. match goal with |- context [zlen ?l] => pose proof (zlen_nonneg l) end. lia.
      * destruct (_ || _) eqn:E2; [|lia]. exists s. cbn. auto with zarith.
    + destruct (_ || _) eqn:E2; [|lia]. exists s. cbn. auto with zarith.
  - unfold de_end, view_of. cbn. exists s.
    destruct (d_index s <=? zlen (sl_data (d_input s))) eqn:E; destruct (0 <? _) eqn:E2; cbn; try lia.
    + split; [|auto with zarith]. do 4 f_equal. lia.
    + auto with zarith.
  - exists s. unfold remaining_len, view_of. cbn. split; [|auto with zarith]. do 4 f_equal. lia.
Qed.

Lemma ops_view l : forall s, 0 <= d_index s ->
  Forall (fun o => 0 <= eaten o /\ forall n, o = OSplitInput n -> 0 <= n) l ->
  d_index s + fold_right (fun o a => eaten o + a) 0 l <= usize_max ar ->
  exists s', do_ops s l = Some (s', view_ops (view_of s) l).
Proof.
  induction l as [|o l IH]; intros s Hi Hl Hu; cbn [do_ops view_ops fold_right] in *.
  - eauto.
  - inversion Hl as [|? ? [Ho Hs] Hl']; subst.
    assert (0 <= fold_right (fun o a => eaten o + a) 0 l).
    { clear - Hl'. induction Hl' as [|o l [H _] _ IH]; cbn; lia. }
    destruct (op_view s o) as (s1 & E & V & I); auto; [lia|]. rewrite E.
    destruct (IH s1) as (s2 & E2); [lia|auto|lia|]. rewrite E2. cbn. rewrite V. eauto.
Qed.
End Cursor.

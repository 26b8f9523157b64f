(** A relation between JSON serializer runs that is kept by sequencing and holds for
    the writer calls holds for whole serializations; three uses of it. *)
From Verif Require Import Prelude PreludeFacts Writer WriterContract WriterObs WriterProofs SerMonad SerdeSer SerSpec
  SerSim Utf8Spec Utf8Facts MpSerSim Base64 Base64Facts JsonSer JsonErrMap.

(** The errors that do not come from the writer. *)
Definition js_own {E} (e : js_ser_error Empty_set) : js_ser_error E :=
  js_err_map (fun x : Empty_set => match x with end) e.

(** What an error becomes when it crosses [fmt::Error]. *)
Definition fmt_err {W E A} (m : SM W (js_ser_error E) A) : SM W (js_ser_error E) A := fun w =>
  let '(w', r) := m w in
  (w', match r with Ok a => Ok a | Err JPanic => Err JPanic | Err _ => Err JFormatError end).

Lemma js_fmt_write {W E} (SW : SerWrite W E) c k w :
  js_fmt SW (FWrite c k (FRet false)) w =
  sbind (fmt_err (format_escaped_str_contents SW c)) (fun _ => js_fmt SW k) w.
Proof.
  unfold js_fmt, sbind, fmt_err. cbn [run_fmt]. unfold string_collector_write at 1.
  destruct (format_escaped_str_contents SW c w) as [w' [[]|e]]; cbn; [auto|]. destruct e; auto.
Qed.

Section Rel.
Context {W E W' E' : Type} (SW : SerWrite W E) (SW' : SerWrite W' E').
Variables (fp : float_printer) (enc : byte_encoder).
Variable R : forall A, SM W (js_ser_error E) A -> SM W' (js_ser_error E') A -> Prop.
Arguments R {A}.
Hypothesis R_ext : forall A (m n : SM W _ A) (m' n' : SM W' _ A), R m m' ->
  (forall w, n w = m w) -> (forall w, n' w = m' w) -> R n n'.
Hypothesis R_ret : forall A (a : A), R (sret a) (sret a).
Hypothesis R_fail : forall A e, R (@sfail _ _ A (js_own e)) (sfail (js_own e)).
Hypothesis R_bind : forall A B (m : SM W _ A) m' (f : A -> SM W _ B) f',
  R m m' -> (forall a, R (f a) (f' a)) -> R (sbind m f) (sbind m' f').
Hypothesis R_fmt_err : forall A (m : SM W _ A) m', R m m' -> R (fmt_err m) (fmt_err m').
Hypothesis R_write : forall bs, R (js_write SW bs) (js_write SW' bs).
Hypothesis R_byte : forall b, R (js_write_byte SW b) (js_write_byte SW' b).
Hypothesis R_str : forall bs, R (js_write_str SW bs) (js_write_str SW' bs).

Lemma JR_if {A} (b : bool) (m1 m2 : SM W (js_ser_error E) A) r1 r2 :
  R m1 r1 -> R m2 r2 -> R (if b then m1 else m2) (if b then r1 else r2).
Proof. destruct b; auto. Qed.
Lemma jfail_key {A} : R (@sfail _ _ A JInvalidKeyType) (sfail JInvalidKeyType). Proof. apply (R_fail A JInvalidKeyType). Qed.
Lemma jfail_fmt {A} : R (@sfail _ _ A JFormatError) (sfail JFormatError). Proof. apply (R_fail A JFormatError). Qed.
Lemma jfail_ser {A} : R (@sfail _ _ A JSerializeError) (sfail JSerializeError). Proof. apply (R_fail A JSerializeError). Qed.
Lemma jfail_panic {A} : R (@sfail _ _ A JPanic) (sfail JPanic). Proof. apply (R_fail A JPanic). Qed.
Lemma JR_unwrap {A} (o : option A) : R (js_unwrap o) (js_unwrap o).
Proof. destruct o; cbn; [apply R_ret|apply jfail_panic]. Qed.

Ltac go :=
  repeat first
    [ apply R_write | apply R_byte | apply R_str | apply R_ret | apply JR_unwrap
    | apply jfail_key | apply jfail_fmt | apply jfail_ser | apply jfail_panic
    | apply R_bind; [|intros]
    | apply JR_if
    | assumption ].

Lemma JR_int k z : R (js_int SW k z) (js_int SW' k z).
Proof. destruct k; cbn [js_int]; unfold js_i32, js_i64, js_u32, js_u64; go. Qed.
Lemma JR_escape value rest : forall i start, R (escape_loop SW value rest i start) (escape_loop SW' value rest i start).
Proof.
  induction rest as [|b rest IH]; intros i start; cbn [escape_loop]; [go|].
  destruct (if b <=? 0x1F then _ else _); [|apply IH]. go. apply IH.
Qed.
Lemma JR_jstr s : R (js_str SW s) (js_str SW' s).
Proof. unfold js_str, format_escaped_str_contents. go. apply JR_escape. Qed.
Ltac go ::=
  repeat first
    [ apply JR_jstr | apply R_write | apply R_byte | apply R_str | apply R_ret | apply JR_unwrap
    | apply jfail_key | apply jfail_fmt | apply jfail_ser | apply jfail_panic
    | apply R_bind; [|intros]
    | apply JR_if
    | assumption ].
Lemma JR_hex s : R (serialize_bytes_as_hex_str SW s) (serialize_bytes_as_hex_str SW' s).
Proof. induction s; cbn; go. Qed.
(** [js_base64] is [b64_encode] with its result converted. *)
Definition conv {W0 E0} (m : SM W0 E0 Z) : SM W0 (js_ser_error E0) unit := fun w =>
  let '(w', r) := m w in (w', match r with Ok _ => Ok tt | Err e => Err (JWriter e) end).
Lemma conv_step {W0 E0} (S0 : SerWrite W0 E0) o (f : SM W0 E0 Z) w :
  conv (sbind (slift (fun e => e) (fun w => sw_write S0 w o)) (fun _ => f)) w = sbind (js_write S0 o) (fun _ => conv f) w.
Proof. unfold conv, sbind, js_write, slift. destruct (sw_write S0 w o) as [w1 [[]|e]]; auto. Qed.
Lemma JR_step o (f : SM W E Z) (f' : SM W' E' Z) : R (conv f) (conv f') ->
  R (conv (sbind (slift (fun e => e) (fun w => sw_write SW w o)) (fun _ => f)))
    (conv (sbind (slift (fun e => e) (fun w => sw_write SW' w o)) (fun _ => f'))).
Proof. intros H. eapply R_ext; [|apply conv_step..]. go. Qed.
Lemma JR_base64 s : R (js_base64 SW s) (js_base64 SW' s).
Proof.
  change (R (conv (b64_encode SW s)) (conv (b64_encode SW' s))).
  assert (T : forall z, R (conv (sret z)) (conv (sret z))) by (intros z; apply (R_ext _ (sret tt) _ (sret tt)); auto).
  induction s as [| a | a b | a b c l IH] using list_ind3; cbn [b64_encode]; [apply T|apply JR_step..]; auto.
Qed.
Lemma JR_element first (m : SM W (js_ser_error E) unit) m' : R m m' -> R (js_element SW first m) (js_element SW' first m').
Proof. intros. unfold js_element. go. Qed.
Lemma JR_byte_items s : forall first, R (js_byte_items SW first s) (js_byte_items SW' first s).
Proof.
  induction s; intros first; cbn [js_byte_items]; [go|]. apply R_bind; [|intros; auto].
  apply JR_element. unfold js_u32. go.
Qed.
Lemma JR_bytes s : R (js_bytes SW enc s) (js_bytes SW' enc s).
Proof. unfold js_bytes. destruct enc; go; auto using JR_byte_items, JR_hex, JR_base64. Qed.
Lemma JR_fmt p : fmt_propagates p -> R (js_fmt SW p) (js_fmt SW' p).
Proof.
  induction p as [ok|c k1 IH1 k2 _]; intros Hp.
  - destruct ok; [apply (R_ext _ (sret tt) _ (sret tt)); auto|apply (R_ext _ (sfail JFormatError) _ (sfail JFormatError)); auto using jfail_fmt].
  - destruct Hp as [-> Hp]. eapply R_ext; [|apply js_fmt_write..]. apply R_bind; [|intros; auto].
    apply R_fmt_err. apply JR_escape.
Qed.
Lemma JR_collect p : fmt_propagates p -> R (js_collect_str SW p) (js_collect_str SW' p).
Proof. intros. unfold js_collect_str. go. apply JR_fmt; auto. Qed.

Lemma JR_key v : displays_propagate v -> R (js_key SW v) (js_key SW' v).
Proof.
  induction v using sval_ind'; intros Hd; cbn [js_key displays_propagate] in *;
    first [apply JR_jstr | apply jfail_key | apply jfail_ser | apply JR_collect; apply Hd | auto].
  - unfold js_quote, js_bool. go.
  - unfold js_quote. go. apply JR_int.
Qed.

Lemma JR_items (f : sval -> SM W (js_ser_error E) unit) (g : sval -> SM W' (js_ser_error E') unit) l first :
  Forall (fun x => R (f x) (g x)) l -> R (js_items SW f l first) (js_items SW' g l first).
Proof.
  intros H. revert first. induction H; intros first; cbn; [go|]. apply R_bind; [apply JR_element; auto|auto].
Qed.
Lemma JR_entries (f : sval -> SM W (js_ser_error E) unit) (g : sval -> SM W' (js_ser_error E') unit) l first :
  Forall (fun x => displays_propagate (snd x) /\ R (f (snd x)) (g (snd x))) l ->
  R (js_entries SW f l first) (js_entries SW' g l first).
Proof.
  intros H. revert first. induction H as [|[isk x] l [Hp Hx] Hl IH]; intros first; cbn [js_entries]; [go|].
  apply R_bind; auto. unfold js_map_key, js_map_value. cbn in Hx, Hp. destruct isk; go. apply JR_key; auto.
Qed.
Lemma JR_fields (f : sval -> SM W (js_ser_error E) unit) (g : sval -> SM W' (js_ser_error E') unit) l first :
  Forall (fun x => forall v, snd x = Some v -> R (f v) (g v)) l ->
  R (js_fields SW f l first) (js_fields SW' g l first).
Proof.
  intros H. revert first. induction H as [|[k x] l Hx Hl IH]; intros first; cbn [js_fields]; [go|].
  apply R_bind; auto. cbn in Hx. destruct x as [x|]; [|go]. specialize (Hx x eq_refl). unfold js_field. go.
Qed.

Theorem js_ser_rel v : displays_propagate v -> R (js_ser SW fp enc v) (js_ser SW' fp enc v).
Proof.
  induction v using sval_ind'; intros Hd; cbn [js_ser displays_propagate] in *.
  - unfold js_bool. go.
  - apply JR_int.
  - go.
  - unfold js_f32, js_none. go.
  - unfold js_f64, js_none. go.
  - apply JR_jstr.
  - apply JR_jstr.
  - apply JR_bytes.
  - unfold js_none. go.
  - auto.
  - unfold js_none. go.
  - unfold js_none. go.
  - apply JR_jstr.
  - auto.
  - go. auto.
  - rewrite all_list_Forall in Hd. unfold js_open. go. apply JR_items. eapply Forall_impl2; [|exact H|exact Hd]; auto.
  - rewrite all_list_Forall in Hd. unfold js_open. go. apply JR_items. eapply Forall_impl2; [|exact H|exact Hd]; auto.
  - rewrite all_list_Forall in Hd. unfold js_open. go. apply JR_items. eapply Forall_impl2; [|exact H|exact Hd]; auto.
  - rewrite all_list_Forall in Hd. unfold js_open_variant. go.
    apply JR_items. eapply Forall_impl2; [|exact H|exact Hd]; auto.
  - rewrite all_list_Forall in Hd. unfold js_open. go. apply JR_entries. eapply Forall_impl2; [|exact H|exact Hd]; auto.
  - rewrite all_list_Forall in Hd. unfold js_open. go. apply JR_fields.
    eapply Forall_impl2; [|exact H|exact Hd]. intros x Hx Dx v Ev. apply Hx; auto. cbn beta in Dx. rewrite Ev in Dx. auto.
  - rewrite all_list_Forall in Hd. unfold js_open_variant. go. apply JR_fields.
    eapply Forall_impl2; [|exact H|exact Hd]. intros x Hx Dx v Ev. apply Hx; auto. cbn beta in Dx. rewrite Ev in Dx. auto.
  - apply JR_collect. apply Hd.
  - go.
Qed.
End Rel.

(** ** Use 1: simulation by the list writer. *)
Definition js_werr {E} (e : js_ser_error E) : Prop := (exists x, e = JWriter x) \/ e = JFormatError.

Lemma js_ser_sim {W E} (SW : SerWrite W E) inv content : lawful SW inv content -> forall fp enc v,
  displays_propagate v -> sim SW inv content js_werr (js_ser SW fp enc v) (js_ser (@VecWriter E) fp enc v).
Proof.
  intros law fp enc v Hd.
  apply (js_ser_rel SW (@VecWriter E) fp enc (fun A => @sim W E _ SW inv content js_werr A)); auto.
  - intros A m n m' n' S E1 E2 w out0 I. rewrite E1, E2. auto.
  - intros. apply sim_ret.
  - intros. apply sim_fail.
  - intros. apply sim_bind; auto.
  - intros A m m' S w out0 I. destruct (S w out0 I) as (out & H1 & H2 & H3). exists out. unfold fmt_err.
    destruct (m w) as [w1 r1], (m' out0) as [b1 r1']. cbn [fst snd] in *. split; [auto|]. split; [auto|].
    destruct H3 as [(-> & C & K)|((e & -> & He) & P)]; [left; auto|right]. split; [|exact P].
    exists JFormatError. split; [|right; auto]. destruct He as [[x ->]| ->]; auto.
  - intros. apply sim_write; auto. intros; left; eauto.
  - intros. apply sim_write_byte; auto. intros; left; eauto.
  - intros. apply sim_write_str; auto. intros; left; eauto.
Qed.

(** ** Use 2: the writer's error type does not matter to the list writer. *)
Lemma js_ser_err_type {E F} (f : E -> F) fp enc v w : displays_propagate v ->
  js_ser (@VecWriter F) fp enc v w =
  (fst (js_ser (@VecWriter E) fp enc v w), res_map (js_err_map f) (snd (js_ser (@VecWriter E) fp enc v w))).
Proof.
  intros Hd. revert w.
  apply (js_ser_rel (@VecWriter E) (@VecWriter F) fp enc
    (fun A m m' => forall w, m' w = (fst (m w), res_map (js_err_map f) (snd (m w))))); auto; clear.
  - intros A m n m' n' H E1 E2 w. rewrite E1, E2. auto.
  - intros A e w. unfold js_own. destruct e; try reflexivity. destruct e.
  - intros A B m m' g g' Hm Hg w. unfold sbind. rewrite Hm. destruct (m w) as [w1 [a|e]]; cbn; auto.
  - intros A m m' Hm w. unfold fmt_err. rewrite Hm. destruct (m w) as [w1 [a|[]]]; cbn; auto.
Qed.

(** ** Use 3: calls are made until one fails; a failure is the last call, and is reported. *)
Definition js_stops {W E A} (m : SM (W * list (result unit E)) (js_ser_error E) A) : Prop :=
  forall w lg, exists w' new r, m (w, lg) = ((w', lg ++ new), r) /\
    ((all_ok new /\ forall e, r <> Err (JWriter e)) \/
     exists pre e, new = pre ++ [Err e] /\ all_ok pre /\ (r = Err (JWriter e) \/ r = Err JFormatError)).

Lemma js_ser_stops {W E} (SW : SerWrite W E) fp enc v : displays_propagate v ->
  js_stops (js_ser (Logged SW) fp enc v).
Proof.
  intros Hd.
  apply (js_ser_rel (Logged SW) (Logged SW) fp enc (fun A m _ => js_stops m)); auto; clear.
  - intros A m n m' n' H E1 E2 w lg. rewrite E1. apply H.
  - intros A a w lg. exists w, [], (Ok a). rewrite app_nil_r. split; [auto|]. left. split; [constructor|discriminate].
  - intros A e w lg. exists w, [], (Err (js_own e)). rewrite app_nil_r. split; [auto|]. left. split; [constructor|].
    destruct e; cbn; try discriminate. destruct e.
  - intros A B m _ f _ Hm Hf w lg. destruct (Hm w lg) as (w1 & n1 & r1 & E1 & H1).
    unfold sbind. rewrite E1. destruct H1 as [[O1 N1]|(pre & e & -> & O1 & Hr)].
    + destruct r1 as [a|e].
      * destruct (Hf a w1 (lg ++ n1)) as (w2 & n2 & r2 & E2 & H2). exists w2, (n1 ++ n2), r2.
        rewrite E2, app_assoc. split; [auto|].
        destruct H2 as [[O2 N2]|(pre & e & -> & O2 & Hr)].
        -- left. split; [apply Forall_app; auto|auto].
        -- right. exists (n1 ++ pre), e. rewrite app_assoc. split; [auto|]. split; [apply Forall_app; auto|auto].
      * exists w1, n1, (Err e). split; [auto|]. left. split; [auto|]. intros e' [= ->]. eapply N1; auto.
    + exists w1, (pre ++ [Err e]). destruct r1 as [a|e']; [destruct Hr; discriminate|].
      exists (Err e'). split; [auto|]. right. exists pre, e. split; [auto|]. split; [auto|].
      destruct Hr as [[= ->]|[= ->]]; auto.
  - intros A m _ Hm w lg. destruct (Hm w lg) as (w1 & n1 & r1 & E1 & H1). unfold fmt_err. rewrite E1.
    do 3 eexists. split; [reflexivity|]. destruct H1 as [[O1 N1]|(pre & e & -> & O1 & Hr)].
    + left. split; [auto|]. destruct r1 as [a|[]]; discriminate.
    + right. exists pre, e. split; [auto|]. split; [auto|]. destruct Hr as [-> | ->]; auto.
  - intros bs w lg. cbn. unfold js_write, slift. cbn. destruct (sw_write SW w bs) as [w' [[]|e]].
    + exists w', [Ok tt], (Ok tt). split; [auto|]. left. split; [repeat constructor|discriminate].
    + exists w', [Err e], (Err (JWriter e)). split; [auto|]. right. exists [], e. repeat split; auto. constructor.
  - intros bs w lg. cbn. unfold js_write_byte, slift. cbn. destruct (sw_write_byte SW w bs) as [w' [[]|e]].
    + exists w', [Ok tt], (Ok tt). split; [auto|]. left. split; [repeat constructor|discriminate].
    + exists w', [Err e], (Err (JWriter e)). split; [auto|]. right. exists [], e. repeat split; auto. constructor.
  - intros bs w lg. cbn. unfold js_write_str, slift. cbn. destruct (sw_write_str SW w bs) as [w' [[]|e]].
    + exists w', [Ok tt], (Ok tt). split; [auto|]. left. split; [repeat constructor|discriminate].
    + exists w', [Err e], (Err (JWriter e)). split; [auto|]. right. exists [], e. repeat split; auto. constructor.
Qed.

(** ** Consequences *)
Section W.
Context {W E : Type} (SW : SerWrite W E) (inv : W -> Prop) (content : W -> bytes).
Hypothesis law : lawful SW inv content.
Variables (fp : float_printer) (enc : byte_encoder).

Definition to_full_error (_ : E) : ser_error := BufferFull.

Lemma js_full_of_list v : displays_propagate v ->
  js_full fp enc v =
    match js_ser (@VecWriter E) fp enc v [] with
    | (out, Ok _) => Ok out
    | (_, Err e) => Err (js_err_map to_full_error e)
    end.
Proof.
  intros Hd. unfold js_full, js_to_writer.
  rewrite (js_ser_err_type to_full_error fp enc v [] Hd).
  destruct (js_ser VecWriter fp enc v []) as [o [[]|e]]; auto.
Qed.

Lemma js_to_writer_ok_bytes v w w' : displays_propagate v -> inv w ->
  js_to_writer SW fp enc w v = (w', Ok tt) ->
  exists out, js_full fp enc v = Ok out /\ content w' = content w ++ out.
Proof.
  intros Hd I H. destruct (sim_ok _ _ _ _ _ _ _ _ (js_ser_sim SW inv content law fp enc v Hd) I H) as (out & R & C).
  exists out. split; [|auto]. rewrite js_full_of_list, R by auto. auto.
Qed.

Lemma js_to_writer_own_error v w w' e : displays_propagate v -> inv w ->
  js_to_writer SW fp enc w v = (w', Err e) -> (forall x, e <> JWriter x) -> e <> JFormatError ->
  js_full fp enc v = Err (js_err_map to_full_error e).
Proof.
  intros Hd I H N1 N2.
  destruct (sim_err _ _ _ _ _ _ _ _ _ (js_ser_sim SW inv content law fp enc v Hd) I H) as (out & R & C).
  { intros [[x ->]| ->]; [apply (N1 x)|apply N2]; auto. }
  rewrite js_full_of_list, R by auto. auto.
Qed.

Lemma js_error_everywhere v w e : displays_propagate v -> inv w ->
  js_full fp enc v = Err e ->
  exists e', snd (js_to_writer SW fp enc w v) = Err e' /\
    (js_err_map to_full_error e' = e \/ (exists x, e' = JWriter x) \/ e' = JFormatError).
Proof.
  intros Hd I H. rewrite js_full_of_list in H by auto.
  destruct (sim_any _ _ _ _ _ _ w (js_ser_sim SW inv content law fp enc v Hd) I) as (out & _ & p & _ & _ & H1).
  unfold js_to_writer. destruct (js_ser VecWriter fp enc v []) as [o [[]|e1]]; [discriminate|].
  cbn [snd] in H1. injection H as <-. destruct H1 as [[-> _]|(e' & -> & We)].
  - eauto.
  - exists e'. split; [auto|]. right. exact We.
Qed.

Lemma js_to_writer_prefix v w : displays_propagate v -> inv w ->
  exists p, content (fst (js_to_writer SW fp enc w v)) = content w ++ p /\
    prefix p (fst (js_to_writer (@VecWriter E) fp enc [] v)) /\
    ((snd (js_to_writer SW fp enc w v) = snd (js_to_writer (@VecWriter E) fp enc [] v) /\
      p = fst (js_to_writer (@VecWriter E) fp enc [] v)) \/
     (exists x, snd (js_to_writer SW fp enc w v) = Err (JWriter x)) \/
     snd (js_to_writer SW fp enc w v) = Err JFormatError).
Proof.
  intros Hd I. unfold js_to_writer.
  destruct (sim_any _ _ _ _ _ _ w (js_ser_sim SW inv content law fp enc v Hd) I) as (out & E1 & p & Pp & C & H1).
  rewrite E1. exists p. split; [auto|]. split; [auto|].
  destruct H1 as [[R P]|(e & R & [[x ->]| ->])]; eauto.
Qed.

Lemma js_to_writer_capacity v w cap out : displays_propagate v -> inv w ->
  bounded SW inv content cap -> (length (content w) <= cap w)%nat ->
  js_full fp enc v = Ok out ->
  (snd (js_to_writer SW fp enc w v) = Ok tt <-> (length out <= cap w - length (content w))%nat).
Proof.
  intros Hd I B L H. rewrite js_full_of_list in H by auto.
  destruct (js_ser VecWriter fp enc v []) as [o [[]|e1]] eqn:R; [|discriminate]. injection H as <-.
  unfold js_to_writer.
  rewrite (sim_capacity _ _ _ _ _ _ _ cap o (js_ser_sim SW inv content law fp enc v Hd) I B L R). lia.
Qed.
End W.

Lemma js_to_writer_reports {W E} (SW : SerWrite W E) fp enc v w w' lg r : displays_propagate v ->
  js_to_writer (Logged SW) fp enc (w, []) v = ((w', lg), r) ->
  (all_ok lg /\ forall e, r <> Err (JWriter e)) \/
  (exists pre e, lg = pre ++ [Err e] /\ all_ok pre /\ (r = Err (JWriter e) \/ r = Err JFormatError)).
Proof.
  intros Hd H. destruct (js_ser_stops SW fp enc v Hd w []) as (w1 & n & r1 & E1 & H1).
  unfold js_to_writer in H. rewrite E1 in H. cbn in H. injection H as <- <- <-. auto.
Qed.

Lemma js_slice_writer_fits fp enc v buf out : displays_propagate v ->
  js_full fp enc v = Ok out ->
  match js_to_writer SliceWriter fp enc (sl_new buf) v with
  | (w, Ok _) => (length out <= length buf)%nat /\ sl_as_ref w = Some out
  | (w, Err _) => (length buf < length out)%nat
  end.
Proof.
  intros Hd H.
  assert (I : sl_inv (sl_new buf)) by (unfold sl_inv; cbn; lia).
  assert (C0 : sl_content (sl_new buf) = []) by reflexivity.
  pose proof (js_to_writer_capacity SliceWriter sl_inv sl_content SliceWriter_lawful fp enc v (sl_new buf) sl_capacity out
    Hd I SliceWriter_bounded) as K. rewrite C0 in K. cbn [length] in K. specialize (K ltac:(lia) H).
  change (sl_capacity (sl_new buf)) with (length buf) in K. rewrite Nat.sub_0_r in K.
  pose proof (js_to_writer_ok_bytes SliceWriter sl_inv sl_content SliceWriter_lawful fp enc v (sl_new buf)) as B.
  destruct (js_to_writer SliceWriter fp enc (sl_new buf) v) as [w [[]|e]] eqn:R; cbn [snd] in K.
  - split; [apply K; auto|]. destruct (B w Hd I eq_refl) as (o & H' & C). rewrite H in H'. injection H' as <-.
    rewrite C0 in C. cbn in C.
    assert (Iw : sl_inv w).
    { destruct (js_ser_sim SliceWriter sl_inv sl_content SliceWriter_lawful fp enc v Hd (sl_new buf) [] I) as (? & _ & Iw & _).
      unfold js_to_writer in R. rewrite R in Iw. auto. }
    rewrite <- C. unfold sl_as_ref, sl_content. unfold sl_inv in Iw.
    destruct (_ <=? _)%nat eqn:L; [auto|]. lia.
  - destruct (Nat.le_gt_cases (length out) (length buf)) as [G|G]; [|auto].
    apply K in G. discriminate.
Qed.

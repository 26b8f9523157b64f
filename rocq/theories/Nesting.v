(** How deeply the programs of a type nest (C60). *)
From Verif Require Import Prelude PreludeFacts SerdeSer SerdeDe Types TypesFacts TypeDepth.

Section Nesting.
Context {E : Type} (custom : E).
(** Programs [G] may be nested where [K] calls are left. *)
Context (G : deser val E -> Prop) (K : nat).

(** For [n] steps: the program, run with [d] nested calls left, keeps within them. *)
Fixpoint dd (n d : nat) (p : deser val E) : Prop :=
  match n with
  | O => True
  | S n =>
    match p with
    | DRet _ => True
    | DHuman k => forall b, dd n d (k b)
    | DReq m v _ => m <> DIgnoredAny /\ sd n d (visit_seq v) /\ md n d (visit_map v) /\
        (m = DEnum -> ed n d (visit_enum v)) /\
        (m = DOption -> (exists d', d = S d' /\ dd n d' (visit_some v)) \/ ((K < d)%nat /\ G (visit_some v))) /\
        (m = DNewtypeStruct -> (exists d', d = S d' /\ dd n d' (visit_newtype v)) \/ ((K < d)%nat /\ G (visit_newtype v)))
    end
  end
with sd (n d : nat) (p : sprog val E) : Prop :=
  match n with
  | O => True
  | S n =>
    match p with
    | SRet _ => True
    | SNext seed k => ((exists d', d = S d' /\ dd n d' seed) \/ ((K < d)%nat /\ G seed)) /\ forall r, sd n d (k r)
    | SHint k => forall o, sd n d (k o)
    end
  end
with md (n d : nat) (p : mprog val E) : Prop :=
  match n with
  | O => True
  | S n =>
    match p with
    | MRet _ => True
    | MKey seed k => ((exists d', d = S d' /\ dd n d' seed) \/ ((K < d)%nat /\ G seed)) /\ forall r, md n d (k r)
    | MVal seed k => ((exists d', d = S d' /\ dd n d' seed) \/ ((K < d)%nat /\ G seed)) /\ forall r, md n d (k r)
    | MHint k => forall o, md n d (k o)
    end
  end
with ed (n d : nat) (p : eprog val E) : Prop :=
  match n with
  | O => True
  | S n =>
    match p with
    | ERet _ => True
    | EVariant seed _ kok => ((exists d', d = S d' /\ dd n d' seed) \/ ((K < d)%nat /\ G seed)) /\
        forall u, match kok u with
        | VNewtype seed _ => (exists d', d = S d' /\ dd n d' seed) \/ ((K < d)%nat /\ G seed)
        | VTuple v _ => sd n d (visit_seq v)
        | VStruct v _ => sd n d (visit_seq v) /\ md n d (visit_map v)
        | _ => True
        end
    end
  end.
Definition nest (n d : nat) (p : deser val E) : Prop := (exists d', d = S d' /\ dd n d' p) \/ ((K < d)%nat /\ G p).

Lemma sd_ret n d r : sd n d (SRet r). Proof. destruct n; exact I. Qed.
Lemma md_ret n d r : md n d (MRet r). Proof. destruct n; exact I. Qed.
Lemma ed_ret n d r : ed n d (ERet r). Proof. destruct n; exact I. Qed.

(** A program that only asks for one leaf. *)
Lemma dd_leaf n d m v : m <> DIgnoredAny -> m <> DOption -> m <> DNewtypeStruct -> m <> DEnum ->
  on_seq v = SRet (bad custom) -> on_map v = MRet (bad custom) -> dd n d (request m v).
Proof.
  intros H1 H2 H3 H4 Hs Hm. destruct n; [exact I|]. cbn. rewrite Hs, Hm.
  split; [exact H1|]. split; [apply sd_ret|]. split; [apply md_ret|]. split; [intros; contradiction|]. split; intros; contradiction.
Qed.
Lemma dd_ident n d strict ns : dd n d (ident custom strict ns).
Proof. apply dd_leaf; try discriminate; reflexivity. Qed.
Lemma dd_then n d p f : dd n d p -> dd n d (then_ p f).
Proof. destruct n; [exact (fun H => H)|]. destruct p; exact (fun H => H). Qed.

Lemma sd_loop seed d : (forall n, nest n d seed) -> forall n acc, sd n d (seq_loop seed acc).
Proof.
  intros H. induction n as [|n IH]; intros acc; [exact I|]. split; [exact (H n)|]. intros [[v|]|e]; [apply IH|apply sd_ret|apply sd_ret].
Qed.
Lemma md_loop kseed vseed d : (forall n, nest n d kseed) -> (forall n, nest n d vseed) -> forall n acc, md n d (map_loop kseed vseed acc).
Proof.
  intros Hk Hv. induction n as [n IH] using (well_founded_induction lt_wf). intros acc. destruct n as [|n]; [exact I|].
  split; [exact (Hk n)|]. intros [[k|]|e]; [|apply md_ret|apply md_ret].
  destruct n as [|n]; [exact I|]. split; [exact (Hv n)|]. intros [v|e]; [apply IH; lia|apply md_ret].
Qed.
Lemma sd_tuple d : forall ds acc n, Forall (fun x => forall n, nest n d (fst x)) ds -> sd n d (tuple_prog custom ds acc).
Proof.
  induction ds as [|[seed o] ds IH]; intros acc n H; [apply sd_ret|]. inversion H as [|? ? H1 H2]; subst. destruct n as [|n]; [exact I|].
  split; [exact (H1 n)|]. intros [[v|]|e]; [apply IH; auto| |apply sd_ret]. destruct o; [apply IH; auto|apply sd_ret].
Qed.
Lemma md_struct names d seeds absent : (exists d', d = S d') -> (forall n, nest n d ignored) -> Forall (fun x => forall n, nest n d x) seeds ->
  forall n got, md n d (struct_loop custom names seeds absent got).
Proof.
  intros (d' & ->) Hi Hs. induction n as [n IH] using (well_founded_induction lt_wf). intros got. destruct n as [|n]; [exact I|].
  split; [left; exists d'; split; [reflexivity|apply dd_ident]|].
  assert (Ig : md n (S d') (MVal ignored (fun r => match r with Ok _ => struct_loop custom names seeds absent got | Err e => MRet (Err e) end))).
  { destruct n as [|n]; [exact I|]. split; [exact (Hi n)|]. intros [v|e]; [apply IH; lia|apply md_ret]. }
  intros [[u|]|e]; [|apply md_ret|apply md_ret].
  destruct u as [| | | | | | | | | | | | |[i|]]; try exact Ig.
  destruct (nth_error seeds i) as [seed|] eqn:En; [|apply md_ret]. destruct (nth_error got i) as [[w|]|]; try apply md_ret.
  destruct n as [|n]; [exact I|]. split.
  - apply nth_error_In in En. rewrite Forall_forall in Hs. exact (Hs _ En n).
  - intros [v|e]; [apply IH; lia|apply md_ret].
Qed.

Lemma list_max_in {A} (f : A -> nat) l x : In x l -> (f x <= list_max (map f l))%nat.
Proof. intros H. pose proof (proj1 (list_max_le (map f l) (list_max (map f l))) (le_n _)) as L. rewrite Forall_forall in L. apply L, in_map, H. Qed.
Lemma all_list_in {A} (P : A -> Prop) l x : all_list P l -> In x l -> P x.
Proof. induction l as [|y l IH]; intros H Hx; [destruct Hx|]. destruct H as [H1 H2], Hx as [<-|Hx]; auto. Qed.

Lemma denote_dd t : (G ignored \/ skips_nothing t) -> forall n d, (type_depth t + K <= d)%nat -> dd n d (denote custom t).
Proof.
  induction t as [| | | | | | | | |t IH|t IH|t IH|ts IH|ts IH|k v IHk IHv|fs IH|vs IH] using ty_ind'; intros Hg n d Hd;
    try (apply dd_leaf; (discriminate || reflexivity)).
  - destruct n as [|n]; [exact I|]. cbn [type_depth] in Hd. destruct d as [|d]; [lia|]. cbn.
    split; [discriminate|]. split; [apply sd_ret|]. split; [apply md_ret|]. split; [discriminate|]. split; [|discriminate].
    intros _. left. exists d. split; [reflexivity|]. apply dd_then, IH; [exact Hg|lia].
  - destruct n as [|n]; [exact I|]. cbn [type_depth] in Hd. destruct d as [|d]; [lia|]. cbn.
    split; [discriminate|]. split; [apply sd_ret|]. split; [apply md_ret|]. split; [discriminate|]. split; [discriminate|].
    intros _. left. exists d. split; [reflexivity|]. apply IH; [exact Hg|lia].
  - destruct n as [|n]; [exact I|]. cbn [type_depth] in Hd. destruct d as [|d]; [lia|]. cbn.
    split; [discriminate|]. split; [|split; [apply md_ret|split; [discriminate|split; discriminate]]].
    destruct n as [|n]; [exact I|]. intros o. apply sd_loop. intros m. left. exists d. split; [reflexivity|]. apply IH; [exact Hg|lia].
  - destruct n as [|n]; [exact I|]. cbn [type_depth] in Hd. destruct d as [|d]; [lia|]. cbn.
    split; [discriminate|]. split; [|split; [apply md_ret|split; [discriminate|split; discriminate]]].
    apply sd_tuple. apply Forall_forall. intros x Hx m. apply in_map_iff in Hx. destruct Hx as (t & <- & Ht). left. exists d. split; [reflexivity|].
    rewrite Forall_forall in IH. pose proof (list_max_in type_depth ts t Ht). apply IH; [exact Ht| |lia]. destruct Hg as [Hg|Hg]; [left; exact Hg|right]. cbn in Hg. exact (all_list_in _ _ _ Hg Ht).
  - destruct n as [|n]; [exact I|]. cbn [type_depth] in Hd. destruct d as [|d]; [lia|]. cbn.
    split; [discriminate|]. split; [|split; [apply md_ret|split; [discriminate|split; discriminate]]].
    apply sd_tuple. apply Forall_forall. intros x Hx m. apply in_map_iff in Hx. destruct Hx as (t & <- & Ht). left. exists d. split; [reflexivity|].
    rewrite Forall_forall in IH. pose proof (list_max_in type_depth ts t Ht). apply IH; [exact Ht| |lia]. destruct Hg as [Hg|Hg]; [left; exact Hg|right]. cbn in Hg. exact (all_list_in _ _ _ Hg Ht).
  - destruct n as [|n]; [exact I|]. cbn [type_depth] in Hd. destruct d as [|d]; [lia|]. cbn.
    split; [discriminate|]. split; [apply sd_ret|]. split; [|split; [discriminate|split; discriminate]].
    destruct n as [|n]; [exact I|]. intros o.
    assert (Hk : G ignored \/ skips_nothing k) by (destruct Hg as [Hg|[Hg _]]; auto).
    assert (Hv : G ignored \/ skips_nothing v) by (destruct Hg as [Hg|[_ Hg]]; auto).
    apply md_loop; intros m; left; exists d; (split; [reflexivity|]); [apply IHk; [exact Hk|lia]|apply IHv; [exact Hv|lia]].
  - destruct Hg as [Hg|[]]. rewrite Forall_forall in IH. destruct n as [|n]; [exact I|]. cbn [type_depth] in Hd. destruct d as [|d]; [lia|]. cbn.
    assert (Hf : forall f, In f fs -> forall n, dd n d (denote custom (snd f))).
    { intros f Hf m. pose proof (list_max_in (fun f => type_depth (snd f)) fs f Hf) as L. cbv beta in L. apply IH; [exact Hf|left; exact Hg|lia]. }
    split; [discriminate|]. split; [|split; [|split; [discriminate|split; discriminate]]].
    + apply sd_tuple. apply Forall_forall. intros x Hx m. apply in_map_iff in Hx. destruct Hx as (f & <- & Hx). left. exists d. split; [reflexivity|]. apply Hf, Hx.
    + apply md_struct; [exists d; reflexivity| |].
      * intros m. right. split; [lia|exact Hg].
      * apply Forall_forall. intros x Hx m. apply in_map_iff in Hx. destruct Hx as (f & <- & Hx). left. exists d. split; [reflexivity|]. apply Hf, Hx.
  - rewrite Forall_forall in IH. destruct n as [|n]; [exact I|]. cbn [type_depth] in Hd. destruct d as [|d]; [lia|]. cbn.
    assert (Hf : forall f, In f vs -> forall n d', (d <= d')%nat -> dd n d' (denote custom (snd f))).
    { intros f Hf m d' Hd'. pose proof (list_max_in (fun f => type_depth (snd f)) vs f Hf) as L. cbv beta in L. apply IH; [exact Hf| |lia].
      destruct Hg as [Hg|Hg]; [left; exact Hg|right; cbn in Hg; exact (all_list_in (fun f => skips_nothing (snd f)) _ _ Hg Hf)]. }
    split; [discriminate|]. split; [apply sd_ret|]. split; [apply md_ret|]. split; [|split; discriminate].
    intros _. destruct n as [|n]; [exact I|]. split; [left; exists d; split; [reflexivity|apply dd_ident]|].
    intros u. destruct u as [| | | | | | | | | | | | |[i|]]; try exact I.
    rewrite nth_error_map. destruct (nth_error vs i) as [f|] eqn:En; [|exact I]. cbn [option_map]. apply nth_error_In in En.
    pose proof (fun n => Hf f En n d (le_n _)) as D1. pose proof (Hf f En (S n) (S d) (le_S _ _ (le_n _))) as D2.
    destruct (attr_of f); [exact I|left; exists d; split; [reflexivity|apply D1]| |];
      (destruct (denote custom (snd f)); [exact I|exact I|]); cbn in D2.
    + apply D2.
    + split; apply D2.
Qed.
End Nesting.

(** ** Programs that take or skip whatever they find *)
Section Greedy.
Context {E : Type} (custom : E).
Fixpoint gd (n : nat) (p : deser val E) : Prop :=
  match n with
  | O => True
  | S n => exists m v post, p = DReq m v post /\ (m = DAny \/ m = DIgnoredAny) /\ gs n (visit_seq v) /\ gm n (visit_map v)
  end
with gs (n : nat) (p : sprog val E) : Prop :=
  match n with
  | O => True
  | S n =>
    match p with
    | SRet _ => True
    | SNext seed k => gd n seed /\ forall r, gs n (k r)
    | SHint k => forall o, gs n (k o)
    end
  end
with gm (n : nat) (p : mprog val E) : Prop :=
  match n with
  | O => True
  | S n =>
    match p with
    | MRet _ => True
    | MKey seed k => gd n seed /\ forall r, gm n (k r)
    | MVal seed k => gd n seed /\ forall r, gm n (k r)
    | MHint k => forall o, gm n (k o)
    end
  end.
Lemma gs_ret n r : gs n (SRet r). Proof. destruct n; exact I. Qed.
Lemma gm_ret n r : gm n (MRet r). Proof. destruct n; exact I. Qed.

Definition open1 (p : deser val E) : deser val E := match p with DRet r => DRet r | DHuman k => DHuman k | DReq m v k => DReq m v k end.
Lemma open1_eq p : p = open1 p. Proof. destruct p; reflexivity. Qed.

Lemma gd_any : forall n, gd n (any custom) /\ (forall acc, gs n (any_seq custom acc)) /\ (forall acc, gm n (any_map custom acc)).
Proof.
  induction n as [n IH] using (well_founded_induction lt_wf). destruct n as [|n]; [repeat split|].
  destruct (IH n) as (I1 & I2 & I3); [lia|]. split; [|split].
  - cbn [gd]. do 3 eexists. split; [rewrite (open1_eq (any custom)); reflexivity|]. split; [left; reflexivity|]. cbn [visit_seq visit_map]. split; [apply I2|apply I3].
  - intros acc. cbn [gs]. cbn. split; [exact I1|]. intros [[v|]|e]; [apply I2|apply gs_ret|apply gs_ret].
  - intros acc. cbn [gm]. cbn. split; [exact I1|]. intros [[k|]|e]; [|apply gm_ret|apply gm_ret].
    destruct n as [|n]; [exact I|]. destruct (IH n) as (J1 & J2 & J3); [lia|]. split; [exact J1|]. intros [v|e]; [apply J3|apply gm_ret].
Qed.
Lemma gd_ignored : forall n, gd n (@ignored E) /\ gs n (@ignored_seq E) /\ gm n (@ignored_map E).
Proof.
  induction n as [n IH] using (well_founded_induction lt_wf). destruct n as [|n]; [repeat split|].
  destruct (IH n) as (I1 & I2 & I3); [lia|]. split; [|split].
  - cbn [gd]. do 3 eexists. split; [rewrite (open1_eq ignored); reflexivity|]. split; [right; reflexivity|]. cbn [visit_seq visit_map]. split; [apply I2|apply I3].
  - cbn [gs]. cbn. split; [exact I1|]. intros [[v|]|e]; [apply I2|apply gs_ret|apply gs_ret].
  - cbn [gm]. cbn. split; [exact I1|]. intros [[k|]|e]; [|apply gm_ret|apply gm_ret].
    destruct n as [|n]; [exact I|]. destruct (IH n) as (J1 & J2 & J3); [lia|]. split; [exact J1|]. intros [v|e]; [apply J3|apply gm_ret].
Qed.
End Greedy.

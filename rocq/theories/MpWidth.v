(** The width of [usize] does not matter to MessagePack decoding, as long as no
    length near 2^32 is skipped: two targets of 32 bits or more run every program
    alike. *)
From Verif Require Import Prelude PreludeFacts Utf8 Utf8Spec SerdeSer SerdeDe MpMagick MpSpec MpDe MpDeView MpDeReads MpDeEat MpDeSafe MpDeTop
  FloatOps Types MpWidthSpec.
Ltac Zify.zify_post_hook ::= Z.div_mod_to_equations.

Section Skips.
Context (skip : Prop) {U E : Type}.
Local Notation d_ok := (@d_ok skip U E).
Local Notation v_ok := (@v_ok skip U E).
Local Notation s_ok := (@s_ok skip U E).
Local Notation m_ok := (@m_ok skip U E).
Local Notation e_ok := (@e_ok skip U E).
Local Notation vp_ok := (@vp_ok skip U E).
(** When skipping is allowed, every program is fine. *)
CoFixpoint d_all (S : skip) (d : deser U E) : d_ok d :=
  match d with
  | DRet r => OK_ret r
  | DHuman k => OK_human k (fun b => d_all S (k b))
  | DReq m v post => OK_req m v post (fun _ => S) (v_all S v)
  end
with v_all (S : skip) (v : visitor U E) : v_ok v :=
  OK_visitor v (d_all S _) (d_all S _) (s_all S _) (m_all S _) (e_all S _)
with s_all (S : skip) (p : sprog U E) : s_ok p :=
  match p with
  | SRet r => OK_sret r
  | SNext d k => OK_snext d k (d_all S d) (fun r => s_all S (k r))
  | SHint k => OK_shint k (fun r => s_all S (k r))
  end
with m_all (S : skip) (p : mprog U E) : m_ok p :=
  match p with
  | MRet r => OK_mret r
  | MKey d k => OK_mkey d k (d_all S d) (fun r => m_all S (k r))
  | MVal d k => OK_mval d k (d_all S d) (fun r => m_all S (k r))
  | MHint k => OK_mhint k (fun r => m_all S (k r))
  end
with e_all (S : skip) (p : eprog U E) : e_ok p :=
  match p with
  | ERet r => OK_eret r
  | EVariant d kerr kok => OK_evariant d kerr kok (d_all S d) (fun u => vp_all S (kok u))
  end
with vp_all (S : skip) (p : vprog U E) : vp_ok p :=
  match p with
  | VRet r => OK_vret r
  | VUnit k => OK_vunit k
  | VNewtype d post => OK_vnewtype d post (d_all S d)
  | VTuple v post => OK_vtuple v post (v_all S v)
  | VStruct v post => OK_vstruct v post (v_all S v)
  end.
End Skips.

(** ** Two targets, [ar'] without overflow *)
Section Width.
Context (ar ar' : arch) (fo : float_ops) (orig : bytes).
Context (A : arch32up ar) (W : wide ar') (Sa : slice_of ar orig) (Sa' : slice_of ar' orig).
Local Notation M := (DM mpde mp_de_error).
Local Notation inv := (inv ar' orig).
Local Notation safeq := (safeq ar' orig).
Local Notation safe := (safe ar' orig).

Definition agree {X} (m m' : M X) : Prop := forall s, inv s -> m s = m' s.

Lemma ag_refl {X} (m : M X) : agree m m.
Proof. intros s _. reflexivity. Qed.
Lemma ag_bind {X Y} (m m' : M X) (k k' : X -> M Y) Q : agree m m' -> safeq m' Q -> (forall a, Q a -> agree (k a) (k' a)) ->
  agree (dbind m k) (dbind m' k').
Proof.
  intros Hm Sm Hk s Hs. unfold dbind. rewrite (Hm s Hs). specialize (Sm s Hs). destruct (m' s) as [s1 [a|e]| |]; auto.
  destruct Sm as (I1 & _ & Qa). apply Hk; auto.
Qed.
Lemma ag_try {X Y} (m m' : M X) (k k' : result X mp_de_error -> M Y) : agree m m' -> safe m' -> (forall r, agree (k r) (k' r)) ->
  agree (dtry m k) (dtry m' k').
Proof.
  intros Hm Sm Hk s Hs. unfold dtry. rewrite (Hm s Hs). specialize (Sm s Hs). destruct (m' s) as [s1 [a|e]| |]; auto; apply Hk; apply Sm.
Qed.
Lemma ag_post {X Y} (f : result X mp_de_error -> result Y mp_de_error) m m' : agree m m' -> agree (dpost f m) (dpost f m').
Proof. intros H s Hs. unfold dpost, dtry. rewrite (H s Hs). reflexivity. Qed.
Lemma ag_if {X} (b : bool) (m1 m1' m2 m2' : M X) : agree m1 m1' -> agree m2 m2' -> agree (if b then m1 else m2) (if b then m1' else m2').
Proof. destruct b; auto. Qed.

Lemma inv_len s : inv s -> zlen (sl_data (d_input s)) <= zlen orig.
Proof. intros (_ & _ & O & D & _). rewrite D. unfold zlen in *. rewrite skipn_length. lia. Qed.
Lemma inv_here s : inv s -> ready ar s.
Proof. intros Hs. pose proof (inv_len s Hs). pose proof (inv_ready _ _ _ Hs) as (H1 & _). destruct Sa as [_ S]. split; auto. split; [apply A|lia]. Qed.

Lemma ag_fetch : agree (fetch ar) (fetch ar').
Proof.
  intros s Hs. unfold fetch, dbind. rewrite peek_run by apply Hs. destruct (rest s); auto.
  rewrite (eat_some_run ar), (eat_some_run ar') by (first [apply (inv_here s Hs)|apply Hs|lia]). reflexivity.
Qed.
Lemma ag_eat1 : agree (eat_some ar 1) (eat_some ar' 1).
Proof. intros s Hs. rewrite (eat_some_run ar), (eat_some_run ar') by (first [apply (inv_here s Hs)|apply Hs|lia]). reflexivity. Qed.
Lemma ag_array n : 0 <= n <= 8 -> agree (fetch_array ar n) (fetch_array ar' n).
Proof.
  intros Hn s Hs. pose proof (inv_here s Hs) as H. pose proof (inv_ready _ _ _ Hs) as H'.
  unfold fetch_array, dbind, get_index. rewrite (uadd_run ar), (uadd_run ar') by (destruct H, H'; lia). cbv iota beta zeta.
  destruct (_ && _); auto. destruct (_ =? _); auto. rewrite (eat_some_run ar), (eat_some_run ar') by (auto; lia). reflexivity.
Qed.
Lemma ag_unsigned n : 0 <= n <= 8 -> agree (fetch_unsigned ar n) (fetch_unsigned ar' n).
Proof. intros H. eapply ag_bind; [apply ag_array; auto|eapply safe_fetch_array; auto|]. intros. apply ag_refl. Qed.
Lemma ag_signed n : 0 <= n <= 8 -> agree (fetch_signed ar n) (fetch_signed ar' n).
Proof. intros H. eapply ag_bind; [apply ag_array; auto|eapply safe_fetch_array; auto|]. intros. apply ag_refl. Qed.
Lemma ag_u8 : agree (fetch_u8 ar) (fetch_u8 ar'). Proof. apply ag_unsigned. lia. Qed.
Lemma ag_u16 : agree (fetch_u16 ar) (fetch_u16 ar'). Proof. apply ag_unsigned. lia. Qed.
Lemma ag_u32 : agree (fetch_u32 ar) (fetch_u32 ar'). Proof. apply ag_unsigned. lia. Qed.
Lemma ag_u64 : agree (fetch_u64 ar) (fetch_u64 ar'). Proof. apply ag_unsigned. lia. Qed.
Lemma ag_i8 : agree (fetch_i8 ar) (fetch_i8 ar'). Proof. apply ag_signed. lia. Qed.
Lemma ag_i16 : agree (fetch_i16 ar) (fetch_i16 ar'). Proof. apply ag_signed. lia. Qed.
Lemma ag_i32 : agree (fetch_i32 ar) (fetch_i32 ar'). Proof. apply ag_signed. lia. Qed.
Lemma ag_i64 : agree (fetch_i64 ar) (fetch_i64 ar'). Proof. apply ag_signed. lia. Qed.
Lemma ag_f32 : agree (fetch_f32 ar) (fetch_f32 ar'). Proof. apply ag_unsigned. lia. Qed.
Lemma ag_f64 : agree (fetch_f64 ar) (fetch_f64 ar'). Proof. apply ag_unsigned. lia. Qed.

Lemma ag_try_usize n : 0 <= n < 2 ^ 32 -> agree (try_usize ar n) (try_usize ar' n).
Proof.
  intros Hn s _. unfold try_usize. unfold arch32up in A. unfold wide in W.
  destruct (n <=? usize_max ar) eqn:E1, (n <=? usize_max ar') eqn:E2; auto; lia.
Qed.
Lemma ag_usize : agree (dbind (fetch_u32 ar) (fun n => try_usize ar n)) (dbind (fetch_u32 ar') (fun n => try_usize ar' n)).
Proof. eapply ag_bind; [apply ag_u32|apply safe_u32|]. intros n Hn. apply ag_try_usize. auto. Qed.

Ltac ag_num := first [exact ag_u8|exact ag_u16|exact ag_u32|exact ag_u64|exact ag_i8|exact ag_i16|exact ag_i32|exact ag_i64|exact ag_f32|exact ag_f64].
Ltac sf_num := first [apply safe_u8|apply safe_u16|apply safe_u32|apply safe_u64|apply safe_i8|apply safe_i16|apply safe_i32|apply safe_i64].

Lemma ag_parse_str : agree (parse_str ar) (parse_str ar').
Proof.
  eapply ag_bind; [apply ag_fetch|apply safe_fetch|]. intros c Hc. eapply ag_bind with (Q := fun _ => True).
  - repeat apply ag_if; first [apply ag_refl|apply ag_usize|ag_num].
  - repeat apply safe_if; first [apply safe_ret|apply safe_fail|eapply safeq_safe; first [apply safe_usize|sf_num]].
  - intros n _. apply ag_refl.
Qed.
Lemma ag_parse_bytes : agree (parse_bytes ar) (parse_bytes ar').
Proof.
  eapply ag_bind; [apply ag_fetch|apply safe_fetch|]. intros c Hc. eapply ag_bind with (Q := fun _ => True).
  - repeat apply ag_if; first [apply ag_refl|apply ag_usize|ag_num].
  - repeat apply safe_if; first [apply safe_ret|apply safe_fail|eapply safeq_safe; first [apply safe_usize|sf_num]].
  - intros n _. apply ag_refl.
Qed.
Lemma ag_parse_integer k : agree (parse_integer ar k) (parse_integer ar' k).
Proof.
  eapply ag_bind; [apply ag_fetch|apply safe_fetch|]. intros c Hc. repeat apply ag_if; try apply ag_refl;
    (eapply ag_bind with (Q := fun _ => True); [ag_num|eapply safeq_safe; sf_num|]; intros; apply ag_refl).
Qed.
Lemma ag_fetch_num c conv : agree (fetch_num ar c conv) (fetch_num ar' c conv).
Proof.
  repeat apply ag_if; try apply ag_refl;
    (eapply ag_bind with (Q := fun _ => True); [ag_num|eapply safeq_safe; sf_num|]; intros; apply ag_refl).
Qed.

(** Skipping agrees when there are no huge lengths. *)
Section Skip.
Context (NH : no_huge_lengths orig).

Lemma ag_uadd a b : 0 <= a -> a + b < 2 ^ 32 -> agree (uadd ar a b) (uadd ar' a b).
Proof. intros Ha Hb s _. unfold arch32up in A. unfold wide in W. rewrite (uadd_run ar), (uadd_run ar') by lia. reflexivity. Qed.

(** Bytes behind [c]: a length there is not huge. *)
Definition behind (c : Z) (s : mpde) : Prop := exists a, orig = a ++ c :: rest s.
Definition good (o : outcome mpde msg_type mp_de_error) : Prop :=
  match o with
  | Done s' (Ok t) => inv s' /\ match t with Single n => 0 <= n <= 2 ^ 31 | _ => True end
  | Done _ (Err _) => True
  | _ => False
  end.
Definition agc (c : Z) (m m' : M msg_type) : Prop := forall s, inv s -> behind c s -> m s = m' s /\ good (m' s).

Lemma agc_ret c t : match t with Single n => 0 <= n <= 2 ^ 31 | _ => True end -> agc c (dret t) (dret t).
Proof. intros H s Hs _. split; [reflexivity|]. split; auto. Qed.
Lemma agc_fail c e : agc c (dfail e) (dfail e).
Proof. intros s Hs _. split; [reflexivity|exact I]. Qed.
Lemma agc_if c (b : bool) m1 m1' m2 m2' : (b = true -> agc c m1 m1') -> (b = false -> agc c m2 m2') ->
  agc c (if b then m1 else m2) (if b then m1' else m2').
Proof. destruct b; auto. Qed.
Lemma agc_u c n k k' : 0 <= n <= 4 ->
  (forall x s, inv s -> 0 <= x < 2 ^ 32 -> x < 256 ^ n -> (n = 4 -> In c [0xc6; 0xc9; 0xdb] -> x < 2 ^ 31) -> k x s = k' x s /\ good (k' x s)) ->
  agc c (dbind (fetch_unsigned ar n) k) (dbind (fetch_unsigned ar' n) k').
Proof.
  intros Hn Hk s Hs (a & Ea). unfold dbind. rewrite (ag_unsigned n ltac:(lia) s Hs).
  pose proof (safe_unsigned ar' orig n ltac:(lia) s Hs) as S.
  destruct (fetch_unsigned_run ar' n s (inv_ready _ _ _ Hs) (inv_bytes _ _ _ Hs) ltac:(lia)) as [(s' & x & h & E & T & B)|[E _]];
    rewrite E in *; [|split; [reflexivity|exact I]].
  destruct S as (I' & _ & Hx). apply Hk; auto.
  - assert (256 ^ n <= 256 ^ 4) by (apply Z.pow_le_mono_r; lia). change (256 ^ 4) with (2 ^ 32) in *. lia.
  - lia.
  - intros -> Hc. apply (NH a c h (rest s') x); auto. rewrite Ea. destruct T as [_ ->]. reflexivity.
Qed.

Lemma agc_fetch k k' : (forall c, is_byte c -> agc c (k c) (k' c)) ->
  forall s, inv s -> dbind (fetch ar) k s = dbind (fetch ar') k' s /\ good (dbind (fetch ar') k' s).
Proof.
  intros Hk s Hs. unfold dbind. rewrite (ag_fetch s Hs).
  pose proof (safe_fetch ar' orig s Hs) as S. pose proof (fetch_run ar' s (inv_ready _ _ _ Hs)) as F.
  destruct (rest s) as [|c l] eqn:Er; [rewrite F in *; split; [reflexivity|exact I]|].
  destruct F as (s1 & E & T). rewrite E in *. destruct S as (I1 & _ & Hc). apply Hk; auto.
  destruct T as [_ T]. cbn [app] in T. rewrite Er in T. injection T as T. unfold behind. rewrite <- T.
  destruct Hs as (R & _ & O & D & _). exists (firstn (Z.to_nat (pos s)) orig). rewrite <- Er.
  unfold rest. rewrite D, skipn_add. rewrite <- (firstn_skipn (Z.to_nat (pos s)) orig) at 1. f_equal. f_equal. unfold pos.
  destruct R as (R & _). lia.
Qed.

Lemma header_at s : inv s -> eat_header ar s = eat_header ar' s /\ good (eat_header ar' s).
Proof.
  apply agc_fetch. clear s. intros c Hc.
  assert (U1 : forall n (f : Z -> msg_type), 0 <= n <= 4 ->
    (forall x, 0 <= x < 2 ^ 32 -> x < 256 ^ n -> match f x with Single m => 0 <= m <= 2 ^ 31 | _ => True end) ->
    agc c (dbind (fetch_unsigned ar n) (fun x => dret (f x))) (dbind (fetch_unsigned ar' n) (fun x => dret (f x)))).
  { intros n f Hn Hf. apply agc_u; auto. intros x s Hs Hx Hl _. split; [reflexivity|]. exact (conj Hs (Hf x Hx Hl)). }
  assert (U2 : forall (f : Z -> msg_type),
    (forall x, 0 <= x < 2 ^ 32 -> (In c [0xc6; 0xc9; 0xdb] -> x < 2 ^ 31) -> match f x with Single m => 0 <= m <= 2 ^ 31 | _ => True end) ->
    agc c (dbind (fetch_unsigned ar 4) (fun x => dbind (try_usize ar x) (fun x => dret (f x))))
          (dbind (fetch_unsigned ar' 4) (fun x => dbind (try_usize ar' x) (fun x => dret (f x))))).
  { intros f Hf. apply agc_u; [lia|]. intros x s Hs Hx Hl Hh. unfold dbind. rewrite (ag_try_usize x Hx s Hs).
    rewrite try_usize_run by (first [apply (inv_ready _ _ _ Hs)|lia]). split; [reflexivity|]. exact (conj Hs (Hf x Hx (Hh eq_refl))). }
  assert (U3 : forall n, 0 <= n <= 2 ->
    agc c (dbind (fetch_unsigned ar n) (fun x => dbind (uadd ar 1 x) (fun x => dret (Single x))))
          (dbind (fetch_unsigned ar' n) (fun x => dbind (uadd ar' 1 x) (fun x => dret (Single x))))).
  { intros n Hn. apply agc_u; [lia|]. intros x s Hs Hx Hl _. unfold dbind.
    assert (256 ^ n <= 256 ^ 2) by (apply Z.pow_le_mono_r; lia). change (256 ^ 2) with 65536 in *.
    rewrite (ag_uadd 1 x ltac:(lia) ltac:(lia) s Hs). rewrite uadd_run by (unfold wide in W; lia). split; [reflexivity|]. split; [auto|lia]. }
  assert (B : forall n x, 0 <= n <= 2 -> x < 256 ^ n -> x <= 2 ^ 31).
  { intros n x Hn Hx. assert (256 ^ n <= 256 ^ 2) by (apply Z.pow_le_mono_r; lia). change (256 ^ 2) with 65536 in *. lia. }
  unfold fetch_u8, fetch_u16, fetch_u32.
  repeat (apply agc_if; intros ?);
  lazymatch goal with
  | |- agc _ (dfail _) _ => apply agc_fail
  | |- agc _ (dret (Single (Z.land _ _))) _ => apply agc_ret; consts; rewrite (land_31' c 160) by (try reflexivity; lia); lia
  | |- agc _ (dret _) _ => apply agc_ret; first [exact I|lia]
  | _ => idtac
  end.
  - apply (U1 1 Single); [lia|]. intros x X1 X2. specialize (B 1 x). lia.
  - apply (U1 2 Single); [lia|]. intros x X1 X2. specialize (B 2 x). lia.
  - apply (U2 Single). intros x X1 X2. split; [lia|]. apply Z.lt_le_incl, X2. consts.
    assert (c = 198 \/ c = 219) as [->| ->] by lia; cbn; auto.
  - apply (U3 1). lia.
  - apply (U3 2). lia.
  - apply agc_u; [lia|]. intros x s Hs Hx Hl Hh. unfold dbind. rewrite (ag_try_usize x Hx s Hs).
    rewrite try_usize_run by (first [apply (inv_ready _ _ _ Hs)|lia]).
    assert (Hx' : x < 2 ^ 31) by (apply Hh; [reflexivity|]; consts; assert (c = 201) as -> by lia; cbn; auto).
    rewrite (ag_uadd 1 x ltac:(lia) ltac:(lia) s Hs). rewrite uadd_run by (unfold wide in W; lia). split; [reflexivity|]. split; [auto|lia].
  - apply (U1 2 Array); [lia|auto].
  - apply (U2 Array). auto.
  - apply (U1 2 Map); [lia|auto].
  - apply (U2 Map). auto.
Qed.

Lemma ag_single n : 0 <= n <= 2 ^ 31 -> agree (eat_single ar n) (eat_single ar' n).
Proof.
  intros Hn s Hs. unfold eat_single, dbind, get_index. pose proof (inv_here s Hs) as ((H1 & H2) & H3 & H4).
  destruct Sa as [_ S]. destruct Sa' as [_ S']. pose proof (inv_len s Hs) as L. unfold arch32up in A. unfold wide in W.
  rewrite (uadd_run ar), (uadd_run ar') by lia. reflexivity.
Qed.
Lemma ag_eat f : agree (eat_message ar f) (eat_message ar' f) /\ forall p n, agree (eat_items ar f p n) (eat_items ar' f p n).
Proof.
  induction f as [|f [IH1 IH2]]; split.
  - apply ag_refl.
  - intros p n. cbn [eat_items]. apply ag_if; apply ag_refl.
  - intros s Hs. cbn [eat_message]. unfold dbind. destruct (header_at s Hs) as [-> G].
    destruct (eat_header ar' s) as [s1 [t|e]| |]; auto. destruct G as [I1 G].
    destruct t as [n|n|n]; [apply ag_single; auto|apply IH2; auto|apply IH2; auto].
  - intros p n. cbn [eat_items]. apply ag_if; [apply ag_refl|].
    eapply ag_bind; [exact IH1|apply safe_eat_wide, W|]. intros _ _.
    eapply ag_bind; [apply ag_if; [exact IH1|apply ag_refl]|apply safe_if; [apply safe_eat_wide, W|apply safe_ret]|]. intros _ _. apply IH2.
Qed.
End Skip.

(** ** The Deserializer methods *)
Context (skip : Prop) (Skip : skip -> no_huge_lengths orig).
Section Methods.
Context {U : Type} (R R' : @runner U).
Record agree_runner : Prop := {
  ar_de : forall p, d_ok skip p -> agree (r_de R p) (r_de R' p);
  ar_seq : forall p n, s_ok skip p -> agree (r_seq R p n) (r_seq R' p n);
  ar_map : forall p n, m_ok skip p -> agree (r_map R p n) (r_map R' p n);
  ar_enum : forall u p, e_ok skip p -> agree (r_enum R u p) (r_enum R' u p);
  ar_eat : skip -> agree (r_eat R) (r_eat R')
}.
Context (AR : agree_runner) (SR : safe_runner ar' orig R').

Lemma ag_int k v : agree (@deserialize_int ar U k v) (deserialize_int ar' k v).
Proof. eapply ag_bind; [apply ag_parse_integer|apply safe_parse_integer|]. intros. apply ag_refl. Qed.
Lemma ag_str v : agree (@deserialize_str ar U v) (deserialize_str ar' v).
Proof. eapply ag_bind; [apply ag_parse_str|apply safe_parse_str|]. intros. apply ag_refl. Qed.
Lemma ag_bytes v : agree (@deserialize_bytes ar U v) (deserialize_bytes ar' v).
Proof. eapply ag_bind; [apply ag_parse_bytes|apply safe_parse_bytes|]. intros. apply ag_refl. Qed.
Lemma ag_char v : agree (@deserialize_char ar U v) (deserialize_char ar' v).
Proof. eapply ag_bind; [apply ag_parse_str|apply safe_parse_str|]. intros. apply ag_refl. Qed.
Lemma ag_bool v : agree (@deserialize_bool ar U v) (deserialize_bool ar' v).
Proof. eapply ag_bind; [apply ag_fetch|apply safe_fetch|]. intros. apply ag_refl. Qed.
Lemma ag_unit v : agree (@deserialize_unit ar U v) (deserialize_unit ar' v).
Proof. eapply ag_bind; [apply ag_fetch|apply safe_fetch|]. intros. apply ag_refl. Qed.
Lemma ag_float32 v : agree (@deserialize_f32 ar fo U v) (deserialize_f32 ar' fo v).
Proof.
  eapply ag_bind; [apply ag_fetch|apply safe_fetch|]. intros c _. eapply ag_bind with (Q := fun _ => True); [| |intros; apply ag_refl].
  - apply ag_if; [exact ag_f32|]. apply ag_if; [|apply ag_if; [apply ag_refl|apply ag_fetch_num]].
    eapply ag_bind; [exact ag_f64|apply safe_u64|intros; apply ag_refl].
  - apply safe_if; [eapply safeq_safe, safe_u32|]. apply safe_if; [eapply safe_bind; [apply safe_u64|intros; apply safe_ret]|].
    apply safe_if; [apply safe_ret|apply safe_fetch_num].
Qed.
Lemma ag_float64 v : agree (@deserialize_f64 ar fo U v) (deserialize_f64 ar' fo v).
Proof.
  eapply ag_bind; [apply ag_fetch|apply safe_fetch|]. intros c _. eapply ag_bind with (Q := fun _ => True); [| |intros; apply ag_refl].
  - apply ag_if; [exact ag_f64|]. apply ag_if; [|apply ag_if; [apply ag_refl|apply ag_fetch_num]].
    eapply ag_bind; [exact ag_f32|apply safe_u32|intros; apply ag_refl].
  - apply safe_if; [apply safe_u64|]. apply safe_if; [eapply safeq_bind; [apply safe_u32|intros; apply safe_ret]|].
    apply safe_if; [apply safe_ret|apply safe_fetch_num].
Qed.
Lemma ag_seq v : s_ok skip (visit_seq v) -> agree (deserialize_seq ar R v) (deserialize_seq ar' R' v).
Proof.
  intros Hv. eapply ag_bind; [apply ag_fetch|apply safe_fetch|]. intros c Hc. eapply ag_bind with (Q := fun n => 0 <= n).
  - repeat apply ag_if; first [apply ag_refl|apply ag_usize|ag_num].
  - repeat apply safe_if; [apply safeq_ret, Z.land_nonneg; left; apply Hc| | |apply safe_fail];
      (eapply safeq_weaken; [|first [apply safe_usize|apply safe_u16]]; cbn beta; lia).
  - intros n Hn. eapply ag_bind; [apply (ar_seq AR), Hv|apply (sr_seq _ _ _ SR), Hn|]. intros. apply ag_refl.
Qed.
Lemma ag_map v : m_ok skip (visit_map v) -> agree (deserialize_map ar R v) (deserialize_map ar' R' v).
Proof.
  intros Hv. eapply ag_bind; [apply ag_fetch|apply safe_fetch|]. intros c Hc. eapply ag_bind with (Q := fun n => 0 <= n).
  - repeat apply ag_if; first [apply ag_refl|apply ag_usize|ag_num].
  - repeat apply safe_if; [apply safeq_ret, Z.land_nonneg; left; apply Hc| | |apply safe_fail];
      (eapply safeq_weaken; [|first [apply safe_usize|apply safe_u16]]; cbn beta; lia).
  - intros n Hn. eapply ag_bind; [apply (ar_map AR), Hv|apply (sr_map _ _ _ SR), Hn|]. intros. apply ag_refl.
Qed.
Lemma ag_struct v : s_ok skip (visit_seq v) -> m_ok skip (visit_map v) -> agree (deserialize_struct ar R v) (deserialize_struct ar' R' v).
Proof.
  intros Hv Hw. eapply ag_bind; [apply ag_fetch|apply safe_fetch|]. intros c Hc. eapply ag_bind with (Q := fun ml : bool * Z => 0 <= snd ml).
  - assert (H16 : forall b : bool, agree (n <-- fetch_u16 ar ;; dret (b, n)) (n <-- fetch_u16 ar' ;; dret (b, n))).
    { intros b. eapply ag_bind; [apply ag_u16|apply safe_u16|]. intros. apply ag_refl. }
    assert (H32 : forall b : bool, agree (n <-- fetch_u32 ar ;; n <-- try_usize ar n ;; dret (b, n)) (n <-- fetch_u32 ar' ;; n <-- try_usize ar' n ;; dret (b, n))).
    { intros b. eapply ag_bind; [apply ag_u32|apply safe_u32|]. intros n Hn. eapply ag_bind; [apply ag_try_usize, Hn|apply (safe_try_usize _ _ (fun _ => True)), I|].
      intros. apply ag_refl. }
    repeat apply ag_if; first [apply ag_refl|apply H16|apply H32].
  - assert (H16 : forall b : bool, safeq (n <-- fetch_u16 ar' ;; dret (b, n)) (fun ml => 0 <= snd ml)).
    { intros b. eapply safeq_bind; [apply safe_u16|]. intros a Ha. apply safeq_ret. cbn [snd]. cbn beta in *. lia. }
    assert (H32 : forall b : bool, safeq (n <-- fetch_u32 ar' ;; n <-- try_usize ar' n ;; dret (b, n)) (fun ml => 0 <= snd ml)).
    { intros b. eapply safeq_bind; [apply safe_u32|]. intros a Ha.
      eapply safeq_bind; [apply (safe_try_usize _ _ (fun x => 0 <= x)); cbn beta in *; lia|]. intros x Hx. apply safeq_ret. auto. }
    repeat apply safe_if; auto; try apply safe_fail; apply safeq_ret; cbn; apply Z.land_nonneg; left; apply Hc.
  - intros [m n] Hn. cbn [fst snd] in *. eapply ag_bind with (Q := fun _ => True); [| |intros; apply ag_refl].
    + apply ag_if; [apply (ar_map AR), Hw|apply (ar_seq AR), Hv].
    + apply safe_if; [eapply safeq_safe, (sr_map _ _ _ SR)|eapply safeq_safe, (sr_seq _ _ _ SR)]; auto.
Qed.
(** Peek, then consume that byte on some branch. *)
Lemma ag_peek_eat {X} (b : Z -> bool) (k1 k1' : M X) (k k' : Z -> M X) : agree k1 k1' -> (forall c, agree (k c) (k' c)) ->
  agree (dbind peek (fun c => if b c then dbind (eat_some ar 1) (fun _ => k1) else k c))
        (dbind peek (fun c => if b c then dbind (eat_some ar' 1) (fun _ => k1') else k' c)).
Proof.
  intros H1 H2 s Hs. unfold dbind at 1 3. rewrite peek_run by apply Hs. destruct (rest s) as [|c l] eqn:E; auto.
  destruct (b c); [|apply H2; auto]. unfold dbind. rewrite (ag_eat1 s Hs), eat_some_run by (try apply Hs; lia). apply H1.
  apply (inv_index ar' orig s 1 Hs). rewrite E, zlen_cons. pose proof (zlen_nonneg l). lia.
Qed.
Lemma ag_peek {X} (k k' : Z -> M X) : (forall c, agree (k c) (k' c)) -> agree (dbind peek k) (dbind peek k').
Proof. intros H. eapply ag_bind; [apply ag_refl|apply safe_peek|]. auto. Qed.
Lemma ag_any v : v_ok skip v -> agree (deserialize_any ar fo R v) (deserialize_any ar' fo R' v).
Proof.
  intros Hv. inversion Hv as [v0 V1 V2 V3 V4 V5]; subst v0. apply ag_peek. intros c.
  repeat apply ag_if; first [apply ag_refl|apply ag_int|apply ag_map; assumption|apply ag_seq; assumption|apply ag_str|apply ag_unit|apply ag_bool|apply ag_bytes
    |apply ag_float32|apply ag_float64].
Qed.
Lemma ag_method m v : (m = DIgnoredAny -> skip) -> v_ok skip v -> agree (mp_method ar fo R m v) (mp_method ar' fo R' m v).
Proof.
  intros Hm Hv. inversion Hv as [v0 V1 V2 V3 V4 V5]; subst v0.
  destruct m; cbn [mp_method]; lazymatch goal with
  | |- agree (dfail _) _ => apply ag_refl
  | |- agree (deserialize_any _ _ _ _) _ => apply ag_any; assumption
  | |- agree (deserialize_bool _ _) _ => apply ag_bool
  | |- agree (deserialize_int _ _ _) _ => apply ag_int
  | |- agree (deserialize_f32 _ _ _) _ => apply ag_float32
  | |- agree (deserialize_f64 _ _ _) _ => apply ag_float64
  | |- agree (deserialize_char _ _) _ => apply ag_char
  | |- agree (deserialize_str _ _) _ => apply ag_str
  | |- agree (deserialize_bytes _ _) _ => apply ag_bytes
  | |- agree (deserialize_unit _ _) _ => apply ag_unit
  | |- agree (deserialize_seq _ _ _) _ => apply ag_seq; assumption
  | |- agree (deserialize_map _ _ _) _ => apply ag_map; assumption
  | |- agree (deserialize_struct _ _ _) _ => apply ag_struct; assumption
  | |- agree (deserialize_newtype_struct _ _) _ => apply (ar_de AR); assumption
  | _ => idtac
  end.
  - apply ag_peek_eat; [apply ag_refl|]. intros _. apply (ar_de AR). auto.
  - apply ag_peek_eat; [apply (ar_enum AR)|intros _; apply (ar_enum AR)]; auto.
  - apply ag_peek. intros c. repeat apply ag_if; [apply ag_int|apply ag_str|apply ag_refl].
  - eapply ag_bind; [apply (ar_eat AR); auto|apply (sr_eat _ _ _ SR)|]. intros. apply ag_refl.
Qed.
Lemma ag_variant u p : vp_ok skip p -> agree (run_variant ar R u p) (run_variant ar' R' u p).
Proof.
  intros Hp. destruct Hp as [r|k|d post Hd|v post Hv|v post Hv]; cbn [run_variant]; try apply ag_refl; apply ag_post, ag_if; try apply ag_refl.
  - apply (ar_de AR), Hd.
  - inversion Hv; subst. apply ag_seq; auto.
  - inversion Hv; subst. apply ag_struct; auto.
Qed.
End Methods.

Lemma ag_run {U} fuel : @agree_runner U (mp_run ar fo fuel) (mp_run ar' fo fuel).
Proof.
  induction fuel as [|f IH]; [split; intros; apply ag_refl|].
  pose proof (@safe_run ar' fo orig (or_introl W) U f) as SR. split; cbn [mp_run r_de r_seq r_map r_enum r_eat].
  - intros p Hp. destruct Hp as [r|k Hk|m v post Hm Hv]; cbn [step_de]; [apply ag_refl|apply (ar_de _ _ IH), Hk|]. apply ag_post, ag_method; auto.
  - intros p n Hp. destruct Hp as [r|d k Hd Hk|k Hk]; cbn [step_seq]; [apply ag_refl| |apply (ar_seq _ _ IH), Hk].
    apply ag_if; [apply (ar_seq _ _ IH), Hk|]. apply ag_try; [apply (ar_de _ _ IH), Hd|apply (sr_de _ _ _ SR)|]. intros r. apply (ar_seq _ _ IH), Hk.
  - intros p n Hp. destruct Hp as [r|d k Hd Hk|d k Hd Hk|k Hk]; cbn [step_map]; [apply ag_refl| | |apply (ar_map _ _ IH), Hk].
    + apply ag_if; [apply (ar_map _ _ IH), Hk|]. apply ag_try; [apply (ar_de _ _ IH), Hd|apply (sr_de _ _ _ SR)|]. intros r. apply (ar_map _ _ IH), Hk.
    + apply ag_try; [apply (ar_de _ _ IH), Hd|apply (sr_de _ _ _ SR)|]. intros r. apply (ar_map _ _ IH), Hk.
  - intros u p Hp. destruct Hp as [r|d kerr kok Hd Hk]; cbn [step_enum]; [apply ag_refl|].
    apply ag_try; [apply (ar_de _ _ IH), Hd|apply (sr_de _ _ _ SR)|]. intros [x|e]; [apply ag_variant; auto|apply ag_refl].
  - intros S. apply ag_eat. auto.
Qed.
End Width.

(** ** The entry points *)
Lemma width_from_slice ar ar' fo U fuel (p : deser U mp_de_error) input :
  arch32up ar -> wide ar' -> slice_of ar input -> slice_of ar' input ->
  no_huge_lengths input \/ d_ok False p ->
  mp_from_slice ar fo fuel p input = mp_from_slice ar' fo fuel p input.
Proof.
  intros A W S S' H. unfold mp_from_slice, dbind.
  assert (A' : arch32up ar') by (unfold arch32up, wide in *; lia).
  assert (E : r_de (mp_run ar fo fuel) p (de_from_slice input) = r_de (mp_run ar' fo fuel) p (de_from_slice input)).
  { pose proof (init_inv ar' input A' S') as I0. destruct H as [N|D].
    - apply (ar_de ar' input True _ _ (ag_run ar ar' fo input A W S S' True (fun _ => N) fuel)); auto. apply d_all. exact I.
    - apply (ar_de ar' input False _ _ (ag_run ar ar' fo input A W S S' False (fun F => match F with end) fuel)); auto. }
  rewrite E. reflexivity.
Qed.
Lemma width_split_tail ar ar' fo U fuel (p : deser U mp_de_error) input :
  arch32up ar -> wide ar' -> slice_of ar input -> slice_of ar' input ->
  no_huge_lengths input \/ never_skips p ->
  mp_from_slice_split_tail ar fo fuel p input = mp_from_slice_split_tail ar' fo fuel p input.
Proof. intros A W S S' H. unfold mp_from_slice_split_tail. rewrite (width_from_slice ar ar') by auto. reflexivity. Qed.


(** Any two targets of 32 bits or more. *)
Lemma width_targets ar ar' fo U fuel (p : deser U mp_de_error) input :
  arch32up ar -> arch32up ar' -> slice_of ar input -> slice_of ar' input -> never_skips p \/ no_huge_lengths input ->
  mp_from_slice ar fo fuel p input = mp_from_slice ar' fo fuel p input /\
  mp_from_slice_split_tail ar fo fuel p input = mp_from_slice_split_tail ar' fo fuel p input.
Proof.
  intros A A' S S' H. set (w := {| usize_max := 2 ^ 64 + usize_max ar; overflow_checks := false |}).
  assert (W : wide w) by (unfold wide, arch32up, w in *; cbn [usize_max]; lia).
  assert (Sw : slice_of w input) by (destruct S; split; auto; unfold w, arch32up in *; cbn [usize_max]; lia).
  apply or_comm in H. rewrite (width_from_slice ar w), (width_from_slice ar' w), (width_split_tail ar w), (width_split_tail ar' w) by auto. auto.
Qed.

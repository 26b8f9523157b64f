(** Facts about the universe of types shared by the two formats. *)
From Verif Require Import Prelude PreludeFacts SerdeDe Types.

(** Unfolding of coinductive programs. *)
Definition dfrob {U E} (p : deser U E) : deser U E :=
  match p with DRet r => DRet r | DHuman k => DHuman k | DReq m v post => DReq m v post end.
Lemma dfrob_eq {U E} (p : deser U E) : p = dfrob p. Proof. destruct p; reflexivity. Qed.
Definition sfrob {U E} (p : sprog U E) : sprog U E :=
  match p with SRet r => SRet r | SNext s k => SNext s k | SHint k => SHint k end.
Lemma sfrob_eq {U E} (p : sprog U E) : p = sfrob p. Proof. destruct p; reflexivity. Qed.
Definition mfrob {U E} (p : mprog U E) : mprog U E :=
  match p with MRet r => MRet r | MKey s k => MKey s k | MVal s k => MVal s k | MHint k => MHint k end.
Lemma mfrob_eq {U E} (p : mprog U E) : p = mfrob p. Proof. destruct p; reflexivity. Qed.

(** [IgnoredAny] accepts everything. *)
Lemma ignored_req {E} : exists v, @ignored E = DReq DIgnoredAny v (fun r => r) /\
  visit_unit v = Ok UUnit /\ (forall b, visit_bool v b = Ok UUnit) /\ (forall s, visit_str v s = Ok UUnit) /\
  visit_seq v = ignored_seq /\ visit_map v = ignored_map.
Proof. eexists. split; [rewrite (dfrob_eq ignored) at 1; reflexivity|]. repeat split. Qed.

(** When does the width of [usize] matter to MessagePack decoding?  Only when a value
    with a huge announced length is skipped. *)
From Verif Require Import Prelude Utf8Spec SerdeSer SerdeDe MpSpec Types.

(** ** Programs that may skip values only if [skip] *)
Section Skips.
Context (skip : Prop) {U E : Type}.
CoInductive d_ok : deser U E -> Prop :=
| OK_ret r : d_ok (DRet r)
| OK_human k : (forall b, d_ok (k b)) -> d_ok (DHuman k)
| OK_req m v post : (m = DIgnoredAny -> skip) -> v_ok v -> d_ok (DReq m v post)
with v_ok : visitor U E -> Prop :=
| OK_visitor v : d_ok (visit_some v) -> d_ok (visit_newtype v) -> s_ok (visit_seq v) -> m_ok (visit_map v) -> e_ok (visit_enum v) -> v_ok v
with s_ok : sprog U E -> Prop :=
| OK_sret r : s_ok (SRet r)
| OK_snext d k : d_ok d -> (forall r, s_ok (k r)) -> s_ok (SNext d k)
| OK_shint k : (forall r, s_ok (k r)) -> s_ok (SHint k)
with m_ok : mprog U E -> Prop :=
| OK_mret r : m_ok (MRet r)
| OK_mkey d k : d_ok d -> (forall r, m_ok (k r)) -> m_ok (MKey d k)
| OK_mval d k : d_ok d -> (forall r, m_ok (k r)) -> m_ok (MVal d k)
| OK_mhint k : (forall r, m_ok (k r)) -> m_ok (MHint k)
with e_ok : eprog U E -> Prop :=
| OK_eret r : e_ok (ERet r)
| OK_evariant d kerr kok : d_ok d -> (forall u, vp_ok (kok u)) -> e_ok (EVariant d kerr kok)
with vp_ok : vprog U E -> Prop :=
| OK_vret r : vp_ok (VRet r)
| OK_vunit k : vp_ok (VUnit k)
| OK_vnewtype d post : d_ok d -> vp_ok (VNewtype d post)
| OK_vtuple v post : v_ok v -> vp_ok (VTuple v post)
| OK_vstruct v post : v_ok v -> vp_ok (VStruct v post).

End Skips.
Arguments OK_ret {skip U E}.
Arguments OK_human {skip U E}.
Arguments OK_req {skip U E}.
Arguments OK_visitor {skip U E}.
Arguments OK_sret {skip U E}.
Arguments OK_snext {skip U E}.
Arguments OK_shint {skip U E}.
Arguments OK_mret {skip U E}.
Arguments OK_mkey {skip U E}.
Arguments OK_mval {skip U E}.
Arguments OK_mhint {skip U E}.
Arguments OK_eret {skip U E}.
Arguments OK_evariant {skip U E}.
Arguments OK_vret {skip U E}.
Arguments OK_vunit {skip U E}.
Arguments OK_vnewtype {skip U E}.
Arguments OK_vtuple {skip U E}.
Arguments OK_vstruct {skip U E}.
Definition never_skips {U E} (p : deser U E) : Prop := d_ok False p.

(** Types whose decoder never skips: no struct inside (a derived struct skips the
    values of unknown keys). *)
Fixpoint no_struct (t : ty) : Prop :=
  match t with
  | TOption t | TNewtype t | TSeq t => no_struct t
  | TTuple l | TTupleStruct l => all_list no_struct l
  | TMap k v => no_struct k /\ no_struct v
  | TStruct _ => False
  | TEnum vs => all_list (fun f => no_struct (snd f)) vs
  | _ => True
  end.

(** No 32-bit length of 2^31 or more behind a str32, bin32 or ext32 code, wherever
    such bytes may occur. *)
Definition no_huge_lengths (input : bytes) : Prop := forall a c h z n,
  input = a ++ c :: h ++ z -> In c [0xc6; 0xc9; 0xdb] -> uint_be 4 n h -> n < 2 ^ 31.


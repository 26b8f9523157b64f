(** A self-describing value that is written again, as a program does that turns one format
    into the other.  Not in /repo: this models the [Serialize] of a type such as
    [serde_value::Value], the counterpart of [any] in Types.v. *)
From Verif Require Import Prelude SerdeSer Types.

(** Numbers from 0 on are u64, others i64; sequences and maps know their lengths. *)
Fixpoint value_trace (v : val) : sval :=
  match v with
  | UBool b => SBool b
  | UInt z => SInt (if 0 <=? z then U64 else I64) z
  | UF32 b => SF32 b
  | UF64 b => SF64 b
  | UChar c => SChar c
  | UStr s => SStr s
  | UBytes s => SBytes s
  | UUnit => SUnit
  | UNone => SNone
  | USome v => SSome (value_trace v)
  | USeq l => SSeq (Some (zlen l)) (map value_trace l)
  | UMap l => SMap (Some (zlen l)) (flat_map (fun e => [(true, value_trace (fst e)); (false, value_trace (snd e))]) l)
  | UVar _ _ | UIdent _ => SCustom
  end.

(** The exact bytes the MessagePack serializers write. *)
From Verif Require Import Prelude Writer SerdeSer MpSpec MpBytesSpec MpSer MpErrMap MpBytes PropsMpSer.

(** C08: serialization succeeds exactly for the documented call trees and the output is
    then, byte for byte, the one specified. *)
Theorem C08_msgpack_exact_bytes : forall cfg fl v out,
  sval_ok v -> 2 ^ 32 - 1 <= cfg_usize_max cfg ->
  (mp_to_vec cfg fl v = Ok out <-> mp_doc (style_of fl) v <> None /\ out = mp_bytes (style_of fl) v).
Proof. exact (fun cfg fl v out Hv Hc => to_vec_bytes cfg fl v Hv Hc out). Qed.
Print Assumptions C08_msgpack_exact_bytes.

(** An integer with two shortest formats, as a signed and as an unsigned type, and the
    struct of [C08_case] in two flavours. *)
Example C08_exact_case :
  sval_ok demo /\ mp_doc SNameMap demo <> None /\
  mp_bytes SIndexMap (STuple 2 [SInt I32 300; SInt U32 300]) = [0x92; 0xd1; 1; 44; 0xcd; 1; 44] /\
  mp_bytes SIndexMap demo = [0x83; 0; 0xcd; 1; 44; 2; 0xa2; 104; 105; 3; 0x92; 0xc3; 0xc0] /\
  mp_bytes SNameMap demo = [0x83; 0xa1; 97; 0xcd; 1; 44; 0xa1; 99; 0xa2; 104; 105; 0xa1; 100; 0x92; 0xc3; 0xc0].
Proof. split; [ok_demo|]. split; [discriminate|]. repeat split. Qed.

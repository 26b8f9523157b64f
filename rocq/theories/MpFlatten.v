(** MessagePack: a struct with a flattened field is not written (C72). *)
From Verif Require Import Prelude SerdeSer MpSer Types TypesFacts MpTypedSer Flatten.

Theorem mp_flatten_never cfg fl fs p g l w :
  hastype (TStruct fs) (USeq l) -> hastype g w -> (exists gs, g = TStruct gs) \/ (exists k v, g = TMap k v) ->
  mp_to_vec cfg fl (flat_trace fs p g (USeq [USeq l; w])) = Err MMapLength.
Proof.
  intros _ Hg G. unfold flat_trace. cbn [trace]. unfold struct_call at 1. 
  assert (Ee : exists es, flat_entries (trace g w) = Some es).
  { destruct G as [[gs ->]|(k & v & ->)]; destruct w; cbn [hastype] in Hg; try tauto; cbn [trace]; try unfold struct_call; cbn; eauto. }
  destruct Ee as [es ->]. destruct fl; reflexivity.
Qed.

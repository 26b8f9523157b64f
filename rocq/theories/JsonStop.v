(** JSON arrays and objects whose visitor stops early (C26). *)
From Verif Require Import Prelude PreludeFacts SerdeSer SerdeDe JsonSpec JsonDe JsonDeSafe JsonView JsonTok JsonMeth JsonEats JsonFaultSpec JsonFaultLeaf JsonFault JsonFaultTop Types.

Section Stop.
Context (ar : arch) (fl : float_parser) (any_f32 : bool) (dec : byte_decoder).
Local Notation run f := (js_run ar fl any_f32 dec f).
Local Notation fails m l e := (gives ar dec m l (failed e)).
Local Notation eats := (eats ar dec).
Implicit Type v : visitor val js_de_error.

Lemma map_stops v l r u k e : begins l 123 r -> eats (fun f => jr_map (run f) (visit_map v) true) u r k ->
  (any_ws k /\ e = JUnexpectedEof) \/ (exists c k', begins k c k' /\ c <> 125 /\ e = JExpectedObjectEnd) ->
  fails (fun f => j_deserialize_map (run f) v) l e.
Proof.
  intros Hb H C. unfold j_deserialize_map. eapply gives_ws; [exact Hb|]. cbn [Z.eqb Pos.eqb]. apply gives_eat1.
  eapply (gives_bind _ _ (fun f => jr_map (run f) (visit_map v) true)); [exact H|].
  destruct C as [[Hk ->]|(c & k' & Hk & N & ->)].
  - apply fails_ws. exact Hk.
  - eapply gives_ws; [exact Hk|]. replace (c =? 125) with false by lia. apply fails_fail.
Qed.
Lemma seq_stops v l r u k e : begins l 91 r -> eats (fun f => jr_seq (run f) (visit_seq v) true) u r k ->
  (any_ws k /\ e = JUnexpectedEof) \/ (exists c k', begins k c k' /\ c <> 93 /\ e = JExpectedArrayEnd) ->
  fails (fun f => j_deserialize_seq (run f) v) l e.
Proof.
  intros Hb H [[Hk ->]|(c & k' & Hk & N & ->)]; [eapply seq_open|eapply seq_many]; eauto.
Qed.
Lemma begins_self l c r : begins l c r -> begins (c :: r) c r.
Proof. intros (w & _ & _ & N). exists []. split; [reflexivity|]. split; [constructor|exact N]. Qed.

Theorem object_stops m v input r u k e : In m [DMap; DStruct; DAny; DIgnoredAny] -> (dec = Base64Decoder -> 3 * zlen input <= usize_max ar) ->
  begins input 123 r -> eats (fun f => jr_map (run f) (visit_map v) true) u r k ->
  (any_ws k /\ e = JUnexpectedEof) \/ (exists c k', begins k c k' /\ c <> 125 /\ e = JExpectedObjectEnd) ->
  exists N, forall fuel, (N <= fuel)%nat -> exists s, js_from_mut_slice ar fl any_f32 dec fuel (DReq m v (fun r => r)) input = Done s (Err e).
Proof.
  intros Hm F Hb H C. apply top_fails; auto. apply fails_req. pose proof (begins_self _ _ _ Hb) as Hs.
  destruct Hm as [<-|[<-|[<-|[<-|[]]]]]; cbn [js_method].
  - eapply map_stops; eauto.
  - unfold j_deserialize_struct. eapply gives_ws; [exact Hb|]. cbn [Z.eqb Pos.eqb]. eapply map_stops; eauto.
  - unfold j_deserialize_any. eapply gives_ws; [exact Hb|]. cbn [Z.eqb Pos.eqb orb]. eapply map_stops; eauto.
  - unfold j_deserialize_ignored_any. eapply gives_ws; [exact Hb|]. cbn [Z.eqb Pos.eqb orb]. eapply map_stops; eauto.
Qed.
Theorem array_stops m v input r u k e : In m [DSeq; DTuple; DTupleStruct; DStruct; DAny; DIgnoredAny] -> (dec = Base64Decoder -> 3 * zlen input <= usize_max ar) ->
  begins input 91 r -> eats (fun f => jr_seq (run f) (visit_seq v) true) u r k ->
  (any_ws k /\ e = JUnexpectedEof) \/ (exists c k', begins k c k' /\ c <> 93 /\ e = JExpectedArrayEnd) ->
  exists N, forall fuel, (N <= fuel)%nat -> exists s, js_from_mut_slice ar fl any_f32 dec fuel (DReq m v (fun r => r)) input = Done s (Err e).
Proof.
  intros Hm F Hb H C. apply top_fails; auto. apply fails_req. pose proof (begins_self _ _ _ Hb) as Hs.
  destruct Hm as [<-|[<-|[<-|[<-|[<-|[<-|[]]]]]]]; cbn [js_method]; try (eapply seq_stops; eauto).
  - unfold j_deserialize_struct. eapply gives_ws; [exact Hb|]. cbn [Z.eqb Pos.eqb]. eapply seq_stops; eauto.
  - unfold j_deserialize_any. eapply gives_ws; [exact Hb|]. cbn [Z.eqb Pos.eqb orb]. eapply seq_stops; eauto.
  - unfold j_deserialize_ignored_any. eapply gives_ws; [exact Hb|]. cbn [Z.eqb Pos.eqb orb]. eapply seq_stops; eauto.
Qed.
End Stop.

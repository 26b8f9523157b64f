(** Properties of the texts of errors. *)
From Verif Require Import Prelude Utf8Spec Writer MpSer MpDe JsonSer JsonDe ErrorText ErrorTextFacts.

(** C69: the text tells which error it is, and with std or alloc (both [Some]) also the
    message of a custom one; so does that of the errors of the serializers writing to
    containers. *)
Theorem C69_msgpack_de_text : forall m m' e e', (m = None <-> m' = None) ->
  mp_de_text m e = mp_de_text m' e' -> e = e' /\ (e = DeserializeError -> m = m').
Proof. exact mp_de_named. Qed.
Print Assumptions C69_msgpack_de_text.
Theorem C69_json_de_text : forall m m' e e', (m = None <-> m' = None) ->
  js_de_text m e = js_de_text m' e' -> e = e' /\ (e = JDeserializeError -> m = m').
Proof. exact js_de_named. Qed.
Print Assumptions C69_json_de_text.
Theorem C69_msgpack_ser_text : forall m m' (e e' : mp_ser_error ser_error) t, (m = None <-> m' = None) ->
  mp_ser_text ser_error_text m e = Some t -> mp_ser_text ser_error_text m' e' = Some t -> e = e' /\ (e = MSerializeError -> m = m').
Proof. exact mp_ser_named. Qed.
Print Assumptions C69_msgpack_ser_text.
Theorem C69_json_ser_text : forall m m' (e e' : js_ser_error ser_error) t, (m = None <-> m' = None) ->
  js_ser_text ser_error_text m e = Some t -> js_ser_text ser_error_text m' e' = Some t -> e = e' /\ (e = JSerializeError -> m = m').
Proof. exact js_ser_named. Qed.
Print Assumptions C69_json_ser_text.

(** C69: texts are strings and, those of the deserializers, not empty. *)
Theorem C69_msgpack_de_utf8 : forall m e, match m with Some s => valid_utf8 s | None => True end ->
  valid_utf8 (mp_de_text m e) /\ mp_de_text m e <> [].
Proof. exact mp_de_valid. Qed.
Print Assumptions C69_msgpack_de_utf8.
Theorem C69_json_de_utf8 : forall m e, match m with Some s => valid_utf8 s | None => True end ->
  valid_utf8 (js_de_text m e) /\ js_de_text m e <> [].
Proof. exact js_de_valid. Qed.
Print Assumptions C69_json_de_utf8.
Theorem C69_msgpack_ser_utf8 : forall E (w : E -> bytes) m e t, match m with Some s => valid_utf8 s | None => True end ->
  (forall e, valid_utf8 (w e)) -> mp_ser_text w m e = Some t -> valid_utf8 t.
Proof. exact (@mp_ser_valid). Qed.
Print Assumptions C69_msgpack_ser_utf8.
Theorem C69_json_ser_utf8 : forall E (w : E -> bytes) m e t, match m with Some s => valid_utf8 s | None => True end ->
  (forall e, valid_utf8 (w e)) -> js_ser_text w m e = Some t -> valid_utf8 t.
Proof. exact (@js_ser_valid). Qed.
Print Assumptions C69_json_ser_utf8.

(** "bad while deserializing JSON"; the apostrophe of the text without std and alloc. *)
Example C69_case : js_de_text (Some [98; 97; 100]) JDeserializeError =
    [98;97;100; 32; 119;104;105;108;101; 32; 100;101;115;101;114;105;97;108;105;122;105;110;103; 32; 74;83;79;78] /\
  mp_de_text (Some [98; 97; 100]) TrailingElements = mp_de_text None TrailingElements /\
  nth_error (js_de_text None JDeserializeError) 32 = Some 0xe2 /\
  js_ser_text ser_error_text None (JWriter BufferFull) = Some [98;117;102;102;101;114; 32; 105;115; 32; 102;117;108;108].
Proof. repeat split. Qed.

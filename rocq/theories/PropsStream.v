(** Property theorems about several messages one after another (C64).  The loops a user
    writes around the crates are in [Stream]. *)
From Verif Require Import Prelude Utf8Spec Writer WriterContract SerdeSer SerdeDe MpSpec MpSer MpDe MpDeView MpDeTop Base64Spec JsonSpec JsonTypeSpec JsonSer JsonDe
  Types MpTypeSpec StreamSpec Stream StreamProofs JsonErrMap JsonStream PropsMpSer PropsMpTyped PropsJsonDe PropsJsonSer JsonCases.

(** C64: values written one after another to any writer and read back in order.  A
    writer that fails (full, disconnected) leaves a stream from which exactly the values
    written completely are read, and then the end is reported. *)
Theorem C64_msgpack_stream :
  forall W E (SW : SerWrite W E) inv content, lawful SW inv content ->
  forall ar fo cfg fl (ms : list (ty * val * bytes)) w w' r, arch32up ar -> inv w ->
  Forall (fun m => wf (fst (fst m)) /\ hastype (fst (fst m)) (snd (fst m)) /\ strict (fst (fst m)) /\
                   mp_to_vec cfg fl (trace (fst (fst m)) (snd (fst m))) = Ok (snd m)) ms ->
  slice_of ar (concat (map snd ms)) ->
  mp_write_each SW cfg fl w (map (fun m => trace (fst (fst m)) (snd (fst m))) ms) = (w', r) ->
  exists p k N, content w' = content w ++ p /\ prefix p (concat (map snd ms)) /\ (r = Ok tt -> k = length ms) /\ (k <= length ms)%nat /\
    (k = length ms -> p = concat (map snd ms)) /\
    forall fuel, (N <= fuel)%nat ->
      mp_read_each ar fo fuel (map (fun m => fst (fst m)) ms) p =
        (map (fun m => snd (fst m)) (firstn k ms), if (k =? length ms)%nat then Finished [] else Failed UnexpectedEof).
Proof. exact @stream_trip. Qed.
Print Assumptions C64_msgpack_stream.

(** (true, "hi"), 300 and () into buffers of 4 to 9 bytes, read back from what is there. *)
Definition three : list (ty * val) := [(TTuple [TBool; TStr], USeq [UBool true; UStr [104; 105]]); (TInt U16, UInt 300); (TUnit, UUnit)].
Example C64_msgpack_case :
  map (fun n => let '(w, r) := mp_write_each SliceWriter cfg64 Compact (sl_new (repeat 0 n)) (map (fun m => trace (fst m) (snd m)) three) in
                match sl_as_ref w with
                | Some p => (p, r, mp_read_each PropsMpDe.x64 PropsMpDe.no_floats 40 (map fst three) p)
                | None => ([], r, ([], Broken))
                end) [4; 7; 8; 9]%nat
  = [([146; 195; 162], Err (MWriter BufferFull), ([], Failed UnexpectedEof));
     ([146; 195; 162; 104; 105; 205], Err (MWriter BufferFull), ([USeq [UBool true; UStr [104; 105]]], Failed UnexpectedEof));
     ([146; 195; 162; 104; 105; 205; 1; 44], Err (MWriter BufferFull), ([USeq [UBool true; UStr [104; 105]]; UInt 300], Failed UnexpectedEof));
     ([146; 195; 162; 104; 105; 205; 1; 44; 192], Ok tt, (map snd three, Finished []))].
Proof. vm_compute. reflexivity. Qed.

(** C64: a stream of messages of any kind is cut where they end without decoding them. *)
Theorem C64_msgpack_split :
  forall ar, arch32up ar -> forall bss input fuel n,
  Forall (fun bs => exists m, mp_fmt m bs) bss -> input = concat bss -> slice_of ar input ->
  (2 * length input + 1 <= fuel)%nat -> (length bss < n)%nat ->
  mp_split_each ar fuel n (de_from_slice input) = (map zlen bss, Finished []).
Proof. exact split_complete. Qed.
Print Assumptions C64_msgpack_split.

(** C64: and one that breaks off inside a message is told from one that does not. *)
Theorem C64_msgpack_split_cut :
  forall ar, arch32up ar -> forall bss p m c q input fuel n,
  2 ^ 33 <= usize_max ar -> Forall (fun bs => exists m, mp_fmt m bs) bss -> p <> [] -> mp_fmt m (p ++ c :: q) ->
  input = concat bss ++ p -> slice_of ar input -> (2 * length input + 1 <= fuel)%nat -> (length bss < n)%nat ->
  mp_split_each ar fuel n (de_from_slice input) = (map zlen bss, Failed UnexpectedEof).
Proof. exact split_cut. Qed.
Print Assumptions C64_msgpack_split_cut.

(** [[true, "hi"]], an extension of 2 bytes, 300; then the same without the last byte. *)
Example C64_split_case :
  (exists m, mp_fmt m [0xd5; 7; 1; 2]) /\
  map (fun input => mp_split_each PropsMpDe.x64 40 9 (de_from_slice input))
    [[0x92; 0xc3; 0xa2; 104; 105; 0xd5; 7; 1; 2; 0xcd; 1; 44]; [0x92; 0xc3; 0xa2; 104; 105; 0xd5; 7; 1; 2; 0xcd; 1]]
  = [([5; 4; 3], Finished []); ([5; 4], Failed UnexpectedEof)].
Proof. split; [eexists; apply (MF_ext 7 [1; 2] [0xd5]); [unfold is_byte; lia|repeat (apply Forall_cons; [unfold is_byte; lia|]); apply Forall_nil|apply EH_fix2]|vm_compute; reflexivity]. Qed.

(** C64: JSON texts one after another, with or without whitespace between them, are read
    in order from one [Deserializer] ([texts]: a number must not be followed by what
    could belong to it). *)
Theorem C64_json_texts :
  forall ar fl any_f32 dec l input,
  texts (reads_as any_ws (f32_from_str fl) (f64_from_str fl)
    (match dec with NopeDecoder => bytes_as_string | HexDecoder => hex_bytes | Base64Decoder => bytes_as_base64 end)) l input ->
  Forall (fun m => wf (fst m)) l -> (dec = Base64Decoder -> 3 * zlen input <= usize_max ar) ->
  exists N, forall fuel, (N <= fuel)%nat -> js_read_each ar fl any_f32 dec fuel (map fst l) (j_from_mut_slice input) = (map snd l, Finished []).
Proof. exact texts_reads. Qed.
Print Assumptions C64_json_texts.

(** [1[true]"a" null] is read as 1, [true], "a" and (). *)
Example C64_texts_case :
  texts (reads_as any_ws (f32_from_str bits_fl) (f64_from_str bits_fl) bytes_as_string)
    [(TInt U8, UInt 1); (TSeq TBool, USeq [UBool true])] [49; 91; 116; 114; 117; 101; 93; 32] /\
  js_read_each x64 bits_fl false NopeDecoder 20 [TInt U8; TSeq TBool; TStr; TUnit]
    (j_from_mut_slice [49; 91; 116; 114; 117; 101; 93; 34; 97; 34; 32; 110; 117; 108; 108])
  = ([UInt 1; USeq [UBool true]; UStr [97]; UUnit], Finished []).
Proof.
  split; [|vm_compute; reflexivity].
  apply (Texts_one _ [] (TInt U8) (UInt 1) (JNum [49]) [49] [91; 116; 114; 117; 101; 93; 32]); [constructor|..].
  { exists [49]. split; auto. split; [unfold in_ikind; cbn; lia|]. exists false, [49]. split; [auto|].
    split; [split; [split; [discriminate|repeat constructor; unfold is_digit; lia]|right; exists 49, []; split; [auto|lia]]|]. split; [reflexivity|discriminate]. }
  { apply T_num. split; [discriminate|repeat constructor; unfold is_digit; lia]. }
  { cbn. unfold is_digit. lia. }
  apply (Texts_one _ [] (TSeq TBool) (USeq [UBool true]) (JArr [JBool true]) [91; 116; 114; 117; 101; 93] [32]); [constructor|..].
  { exists [JBool true]. split; auto. repeat constructor. }
  { apply (T_arr _ _ _ _ [JBool true] [116; 114; 117; 101]). apply (L_one _ _ _ _ (JBool true) [116; 114; 117; 101] [] []); constructor. }
  { exact I. }
  apply Texts_end. repeat constructor; unfold is_ws; lia.
Qed.

(** C64: without anything between them numbers run together, so this does not hold of
    what the serializer writes value after value. *)
Theorem C64_json_unseparated_refuted :
  exists l : list (ty * val), Forall (fun m => wf (fst m) /\ hastype (fst m) (snd m)) l /\
  exists outs, Forall2 (fun m out => js_to_string demo_fp HexStrByteEncoder (trace (fst m) (snd m)) = Ok out) l outs /\
    forall fuel, (20 <= fuel)%nat -> js_read_each x64 bits_fl false HexDecoder fuel (map fst l) (j_from_mut_slice (concat outs)) <> (map snd l, Finished []).
Proof.
  exists [(TInt U8, UInt 1); (TInt U8, UInt 2)]. split.
  { repeat constructor; cbn; lia. }
  exists [[49]; [50]]. split; [repeat constructor; vm_compute; reflexivity|].
  intros fuel Hf. do 20 (destruct fuel as [|fuel]; [lia|]). vm_compute. discriminate.
Qed.
Print Assumptions C64_json_unseparated_refuted.

(** C64: a line for each value, through any writer, is read back. *)
Theorem C64_json_lines :
  forall ar fl fp any_f32 enc dec W E (SW : SerWrite W E) inv content, lawful SW inv content ->
  (forall b, 0 <= b < 2 ^ 32 -> finite32 b -> f32_from_str fl (format_f32 fp b) = Some (if b =? 0x80000000 then 0 else b)) ->
  (forall b, 0 <= b < 2 ^ 64 -> finite64 b -> f64_from_str fl (format_f64 fp b) = Some (if b =? 0x8000000000000000 then 0 else b)) ->
  printer_ok fp ->
  In (enc, dec) [(ArrayByteEncoder, NopeDecoder); (ArrayByteEncoder, HexDecoder); (ArrayByteEncoder, Base64Decoder);
                 (HexStrByteEncoder, HexDecoder); (Base64ByteEncoder, Base64Decoder)] ->
  forall (l : list (ty * val)) w w', Forall (fun m => wf (fst m) /\ hastype (fst m) (snd m) /\ no_newtype_keys (fst m) /\ survives (fst m) (snd m)) l ->
  inv w -> js_write_each SW fp enc w (map (fun m => trace (fst m) (snd m)) l) = (w', Ok tt) ->
  exists out, content w' = content w ++ out /\
  ((dec = Base64Decoder -> 3 * zlen out <= usize_max ar) ->
   exists N, forall fuel, (N <= fuel)%nat -> js_read_each ar fl any_f32 dec fuel (map fst l) (j_from_mut_slice out) = (map snd l, Finished [])).
Proof. exact @lines_trip. Qed.
Print Assumptions C64_json_lines.

(** The three values of above in a buffer of 21 bytes. *)
Example C64_lines_case :
  Forall (fun m => wf (fst m) /\ hastype (fst m) (snd m) /\ no_newtype_keys (fst m) /\ survives (fst m) (snd m)) three /\
  (let '(w, r) := js_write_each SliceWriter demo_fp HexStrByteEncoder (sl_new (repeat 0 21)) (map (fun m => trace (fst m) (snd m)) three) in
   (sl_as_ref w, r)) = (Some [91; 116; 114; 117; 101; 44; 34; 104; 105; 34; 93; 10; 51; 48; 48; 10; 110; 117; 108; 108; 10], Ok tt) /\
  js_read_each x64 bits_fl false HexDecoder 40 (map fst three)
    (j_from_mut_slice [91; 116; 114; 117; 101; 44; 34; 104; 105; 34; 93; 10; 51; 48; 48; 10; 110; 117; 108; 108; 10]) = (map snd three, Finished []).
Proof.
  split; [|split; vm_compute; reflexivity]. unfold three. repeat apply Forall_cons; try apply Forall_nil; cbn [fst snd].
  all: split; [shown|]; split; [shown; cbn; try reflexivity|]; split; [cbn; auto|cbn; intuition auto; lia].
Qed.

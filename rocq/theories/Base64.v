(** Model of /repo/ser-write-json/src/base64.rs. *)
From Verif Require Import Prelude Writer SerMonad.
From Verif Require Export Arch.

(** base64.rs:5: [b"ABC...Zabc...z0123456789+/"]. *)
Definition ALPHABET : bytes :=
  [65;66;67;68;69;70;71;72;73;74;75;76;77;78;79;80;81;82;83;84;85;86;87;88;89;90;
   97;98;99;100;101;102;103;104;105;106;107;108;109;110;111;112;113;114;115;116;117;118;119;120;121;122;
   48;49;50;51;52;53;54;55;56;57;43;47].

(** [ALPHABET[(n & 0x3F) as usize]]: the index is always in range. *)
Definition b64_armour (n : Z) : Z := nth (Z.to_nat (Z.land n 0x3F)) ALPHABET 0.

(** [a << n] on [u8]. *)
Definition shl8 (a n : Z) : Z := Z.shiftl a n mod 256.

(** [encode] (base64.rs:11-43), in the writer's own error type. *)
Fixpoint b64_encode {W E} (SW : SerWrite W E) (bytes : bytes) : SM W E Z :=
  match bytes with
  | a :: b :: c :: rest =>
    let output := map b64_armour
      [ Z.shiftr a 2;
        Z.lor (shl8 (Z.land a 0x03) 4) (Z.shiftr (Z.land b 0xF0) 4);
        Z.lor (shl8 (Z.land b 0x0F) 2) (Z.shiftr (Z.land c 0xC0) 6);
        Z.land c 0x3F ] in
    sbind (slift (fun e => e) (fun w => sw_write SW w output)) (fun _ => b64_encode SW rest)
  | [a; b] =>
    let output := map b64_armour
      [ Z.shiftr a 2;
        Z.lor (shl8 (Z.land a 0x03) 4) (Z.shiftr (Z.land b 0xF0) 4);
        shl8 (Z.land b 0x0F) 2 ] in
    sbind (slift (fun e => e) (fun w => sw_write SW w output)) (fun _ => sret 1)
  | [a] =>
    let output := map b64_armour [ Z.shiftr a 2; shl8 (Z.land a 0x03) 4 ] in
    sbind (slift (fun e => e) (fun w => sw_write SW w output)) (fun _ => sret 2)
  | [] => sret 0
  end.

(** [get_code] (base64.rs:46-55). *)
Definition get_code (c : Z) : option Z :=
  if (65 <=? c) && (c <=? 90) then Some (c - 65)
  else if (97 <=? c) && (c <=? 122) then Some (c - 97 + 26)
  else if (48 <=? c) && (c <=? 57) then Some (c - 48 + 52)
  else if c =? 47 then Some 63
  else if c =? 43 then Some 62
  else None.

(** [decode_cell] (base64.rs:94-99); [<<] on [u32]. *)
Definition decode_cell (acc c : Z) : result Z Z :=
  match get_code c with
  | Some code => Ok (Z.lor (Z.shiftl acc 6 mod 2 ^ 32) code)
  | None => Err acc
  end.

(** [cells.iter().try_fold(acc, decode_cell)]. *)
Fixpoint try_fold (acc : Z) (cells : bytes) : result Z Z :=
  match cells with
  | [] => Ok acc
  | c :: cells => match decode_cell acc c with
                  | Ok acc => try_fold acc cells
                  | Err acc => Err acc
                  end
  end.

(** What [decode] ends with: the new content of the slice and the two counts, or a
    panic (also standing for the undefined behaviour of [unwrap_unchecked] on [None]). *)
Inductive b64_outcome :=
| B64 (mem : bytes) (decoded_len encoded_len : Z)
| B64Panic.

(** [u32::leading_zeros]. *)
Definition leading_zeros32 (x : Z) : Z := if x <=? 0 then 32 else 31 - Z.log2 x.

Section Decode.
Context (ar : arch).

(** [dcount * 4 / 3] on [usize]; [None] is the overflow panic. *)
Definition encoded_of (dcount : Z) : option Z :=
  if dcount * 4 <=? usize_max ar then Some (dcount * 4 / 3)
  else if overflow_checks ar then None
  else Some ((dcount * 4) mod (usize_max ar + 1) / 3).

(** The [while] loop of [handle_tail] (base64.rs:144-147); [dest] is the position of
    the destination iterator, whose [next().unwrap()] panics at the end of the slice. *)
Fixpoint tail_loop (tail_dcount : nat) (packed : Z) (mem : bytes) (dest : nat) : option bytes :=
  match tail_dcount with
  | O => Some mem
  | S n =>
    if (dest <? length mem)%nat
    then tail_loop n packed (splice mem dest [as_u8 (Z.shiftr packed (Z.of_nat tail_dcount * 8))]) (S dest)
    else None
  end.

(** [handle_tail] (base64.rs:135-149). *)
Definition handle_tail (dcount packed : Z) (mem : bytes) (dest : nat) : b64_outcome :=
  if packed <=? 0 then B64Panic        (* 31 - 32 underflows *)
  else
    let leftovers := (31 - leading_zeros32 packed) / 6 in
    let packed := Z.shiftl packed (leftovers * 2) mod 2 ^ 32 in
    let tail_dcount := Z.max 0 (leftovers - 1) in
    match encoded_of dcount with
    | None => B64Panic
    | Some e =>
      let ecount := e + leftovers in
      let dcount := dcount + tail_dcount in
      match tail_loop (Z.to_nat tail_dcount) packed mem dest with
      | Some mem => B64 mem dcount ecount
      | None => B64Panic
      end
    end.

(** The loop of [decode] over [n] more chunks, the next one at [src] (base64.rs:111-126),
    and what follows it (base64.rs:127-132).  Reads go through the shared cells: they see
    what was written before. *)
Fixpoint decode_loop (n : nat) (mem : bytes) (src dest : nat) (dcount : Z) : b64_outcome :=
  match n with
  | S n =>
    match try_fold 1 (slice mem src 4) with
    | Ok packed =>
      if (dest + 3 <=? length mem)%nat then
        decode_loop n
          (splice mem dest [as_u8 (Z.shiftr packed 16); as_u8 (Z.shiftr packed 8); as_u8 packed])
          (src + 4) (dest + 3) (dcount + 3)
      else B64Panic
    | Err packed => handle_tail dcount packed mem dest
    end
  | O =>
    match try_fold 1 (skipn src mem) with
    | Ok packed =>
      if packed =? 1 then
        match encoded_of dcount with Some e => B64 mem dcount e | None => B64Panic end
      else handle_tail dcount packed mem dest
    | Err packed => handle_tail dcount packed mem dest
    end
  end.

(** [decode] (base64.rs:106-133). *)
Definition b64_decode (slice : bytes) : b64_outcome :=
  decode_loop (length slice / 4) slice 0 0 0.
End Decode.

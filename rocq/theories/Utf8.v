(** Model of the parts of core's UTF-8 support that /repo calls:
    [core::str::from_utf8] (ser-write-msgpack/src/de.rs:303-312,
    ser-write-json/src/de.rs:693-700), [char::from_str] (msgpack de.rs:585-591,
    json de.rs deserialize_char) and [char::encode_utf8].
    core itself is not part of /repo; the decoder below follows the table of
    well-formed byte sequences of the Unicode standard (table 3-7), which is what
    core implements; [Utf8Facts] proves it equivalent to [Utf8Spec]. *)
From Verif Require Import Prelude.

Definition inr (lo hi b : Z) : bool := (lo <=? b) && (b <=? hi).

(** Decode a whole byte string, [None] when it is not well-formed. *)
Fixpoint utf8_decode (l : bytes) : option (list Z) :=
  match l with
  | [] => Some []
  | b0 :: l0 =>
    if inr 0 0x7F b0 then option_map (cons b0) (utf8_decode l0)
    else match l0 with
    | [] => None
    | b1 :: l1 =>
      if inr 0xC2 0xDF b0 && inr 0x80 0xBF b1 then
        option_map (cons ((b0 - 0xC0) * 64 + (b1 - 0x80))) (utf8_decode l1)
      else match l1 with
      | [] => None
      | b2 :: l2 =>
        if ((inr 0xE0 0xE0 b0 && inr 0xA0 0xBF b1) || (inr 0xE1 0xEC b0 && inr 0x80 0xBF b1)
            || (inr 0xED 0xED b0 && inr 0x80 0x9F b1) || (inr 0xEE 0xEF b0 && inr 0x80 0xBF b1))
           && inr 0x80 0xBF b2 then
          option_map (cons ((b0 - 0xE0) * 4096 + (b1 - 0x80) * 64 + (b2 - 0x80))) (utf8_decode l2)
        else match l2 with
        | [] => None
        | b3 :: l3 =>
          if ((inr 0xF0 0xF0 b0 && inr 0x90 0xBF b1) || (inr 0xF1 0xF3 b0 && inr 0x80 0xBF b1)
              || (inr 0xF4 0xF4 b0 && inr 0x80 0x8F b1))
             && inr 0x80 0xBF b2 && inr 0x80 0xBF b3 then
            option_map (cons ((b0 - 0xF0) * 262144 + (b1 - 0x80) * 4096 + (b2 - 0x80) * 64 + (b3 - 0x80)))
                       (utf8_decode l3)
          else None
        end
      end
    end
  end.

(** [core::str::from_utf8(bs).is_ok()]. *)
Definition from_utf8_ok (bs : bytes) : bool :=
  match utf8_decode bs with Some _ => true | None => false end.

(** [char::from_str(s).ok()] on a valid string: exactly one char. *)
Definition char_from_str (bs : bytes) : option Z :=
  match utf8_decode bs with Some [c] => Some c | _ => None end.

(** [char::encode_utf8] as implemented in core with shifts and masks. *)
Definition encode_utf8 (c : Z) : bytes :=
  if c <? 0x80 then [c]
  else if c <? 0x800 then [Z.lor (Z.shiftr c 6) 0xC0; Z.lor (Z.land c 0x3F) 0x80]
  else if c <? 0x10000 then
    [Z.lor (Z.shiftr c 12) 0xE0; Z.lor (Z.land (Z.shiftr c 6) 0x3F) 0x80; Z.lor (Z.land c 0x3F) 0x80]
  else
    [Z.lor (Z.shiftr c 18) 0xF0; Z.lor (Z.land (Z.shiftr c 12) 0x3F) 0x80;
     Z.lor (Z.land (Z.shiftr c 6) 0x3F) 0x80; Z.lor (Z.land c 0x3F) 0x80].

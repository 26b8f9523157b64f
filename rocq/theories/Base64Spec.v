(** Specification of Base64 (RFC 4648 section 4), without padding. *)
From Verif Require Import Prelude.

(** RFC 4648 table 1: the character of a 6-bit value. *)
Definition b64_char (v : Z) : Z :=
  if v <? 26 then 65 + v             (* A-Z *)
  else if v <? 52 then 97 + (v - 26) (* a-z *)
  else if v <? 62 then 48 + (v - 52) (* 0-9 *)
  else if v =? 62 then 43            (* + *)
  else 47.                           (* / *)

(** A character of the alphabet and its value. *)
Definition b64_code (c v : Z) : Prop := 0 <= v < 64 /\ c = b64_char v.
Definition in_alphabet (c : Z) : Prop := exists v, b64_code c v.

(** The four (three, two) base-64 digits of a 24 (18, 12) bit number. *)
Definition digits4 (n : Z) : list Z := [n / 262144; n / 4096 mod 64; n / 64 mod 64; n mod 64].
Definition digits3 (n : Z) : list Z := [n / 4096; n / 64 mod 64; n mod 64].
Definition digits2 (n : Z) : list Z := [n / 64; n mod 64].

(** 24-bit groups are four digits; a final group of 16 (8) bits is filled up with
    zero bits on the right to three (two) digits. *)
Fixpoint b64_digits (bs : bytes) : list Z :=
  match bs with
  | a :: b :: c :: r => digits4 (a * 65536 + b * 256 + c) ++ b64_digits r
  | [a; b] => digits3 ((a * 256 + b) * 4)
  | [a] => digits2 (a * 16)
  | [] => []
  end.

(** The Base64 text of a byte string, and the number of [=] that complete it. *)
Definition b64_text (bs : bytes) : bytes := map b64_char (b64_digits bs).
Definition b64_padding (bs : bytes) : Z := (3 - zlen bs mod 3) mod 3.

(** What a string of digits denotes; spare bits at the end are dropped. *)
Fixpoint b64_bytes (ds : list Z) : bytes :=
  match ds with
  | a :: b :: c :: d :: r =>
    let n := ((a * 64 + b) * 64 + c) * 64 + d in
    n / 65536 :: n / 256 mod 256 :: n mod 256 :: b64_bytes r
  | [a; b; c] => let n := ((a * 64 + b) * 64 + c) / 4 in [n / 256; n mod 256]
  | [a; b] => [(a * 64 + b) / 16]
  | _ => []
  end.

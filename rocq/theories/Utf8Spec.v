(** Specification of UTF-8 (RFC 3629), as the encoding of Unicode scalar values. *)
From Verif Require Import Prelude.

(** Unicode scalar values: what a Rust [char] can hold. *)
Definition is_scalar (c : Z) : Prop := 0 <= c <= 0xD7FF \/ 0xE000 <= c <= 0x10FFFF.
Definition is_scalarb (c : Z) : bool :=
  ((0 <=? c) && (c <=? 0xD7FF)) || ((0xE000 <=? c) && (c <=? 0x10FFFF)).

(** RFC 3629 section 3: the encoding of one scalar value. *)
Definition utf8_char (c : Z) : bytes :=
  if c <=? 0x7F then [c]
  else if c <=? 0x7FF then [0xC0 + c / 64; 0x80 + c mod 64]
  else if c <=? 0xFFFF then [0xE0 + c / 4096; 0x80 + (c / 64) mod 64; 0x80 + c mod 64]
  else [0xF0 + c / 262144; 0x80 + (c / 4096) mod 64; 0x80 + (c / 64) mod 64; 0x80 + c mod 64].

(** The encoding of a text. *)
Definition utf8 (cs : list Z) : bytes := flat_map utf8_char cs.

(** A byte string is valid UTF-8 when it encodes some text. *)
Definition valid_utf8 (bs : bytes) : Prop := exists cs, Forall is_scalar cs /\ bs = utf8 cs.

#[global] Arguments utf8_char : simpl never.

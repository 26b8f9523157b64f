(** Constants of [mod magick] in ser-write-msgpack/src/lib.rs:90-153. *)
From Verif Require Import Prelude.

(** ser-write-msgpack/src/lib.rs:93-152. *)
Definition MAX_POSFIXINT := 0x7f.
Definition MIN_NEGFIXINT := -32.
Definition NIL := 0xc0.
Definition RESERVED := 0xc1.
Definition FALSE := 0xc2.
Definition TRUE := 0xc3.
Definition FIXMAP := 0x80.
Definition MAX_FIXMAP_SIZE := 0xf.
Definition FIXMAP_MAX := 0x8f.
Definition FIXARRAY := 0x90.
Definition MAX_FIXARRAY_SIZE := 0xf.
Definition FIXARRAY_MAX := 0x9f.
Definition FIXSTR := 0xa0.
Definition MAX_FIXSTR_SIZE := 0x1f.
Definition FIXSTR_MAX := 0xbf.
Definition BIN_8 := 0xc4.
Definition BIN_16 := 0xc5.
Definition BIN_32 := 0xc6.
Definition EXT_8 := 0xc7.
Definition EXT_16 := 0xc8.
Definition EXT_32 := 0xc9.
Definition FLOAT_32 := 0xca.
Definition FLOAT_64 := 0xcb.
Definition UINT_8 := 0xcc.
Definition UINT_16 := 0xcd.
Definition UINT_32 := 0xce.
Definition UINT_64 := 0xcf.
Definition INT_8 := 0xd0.
Definition INT_16 := 0xd1.
Definition INT_32 := 0xd2.
Definition INT_64 := 0xd3.
Definition FIXEXT_1 := 0xd4.
Definition FIXEXT_2 := 0xd5.
Definition FIXEXT_4 := 0xd6.
Definition FIXEXT_8 := 0xd7.
Definition FIXEXT_16 := 0xd8.
Definition STR_8 := 0xd9.
Definition STR_16 := 0xda.
Definition STR_32 := 0xdb.
Definition ARRAY_16 := 0xdc.
Definition ARRAY_32 := 0xdd.
Definition MAP_16 := 0xde.
Definition MAP_32 := 0xdf.
Definition NEGFIXINT := 0xe0.

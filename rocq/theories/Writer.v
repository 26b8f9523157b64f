(** Model of the core crate: /repo/src/lib.rs. *)
From Verif Require Import Prelude.

(** [SerError] (src/lib.rs:31-34). *)
Inductive ser_error := BufferFull.

(** [trait SerWrite] (src/lib.rs:47-68): a writer is a state type [W], an error
    type [E] and three operations; [&mut self] is state passing.  The forwarding
    impl for [&mut T] (src/lib.rs:70-87) is the identity in this representation. *)
Record SerWrite (W E : Type) := {
  sw_write : W -> bytes -> W * result unit E;
  sw_write_byte : W -> Z -> W * result unit E;
  sw_write_str : W -> bytes -> W * result unit E
}.
Arguments sw_write {W E} _ _ _.
Arguments sw_write_byte {W E} _ _ _.
Arguments sw_write_str {W E} _ _ _.

(** The provided methods [write_byte] and [write_str] in terms of [write]
    (src/lib.rs:58-60 and 65-67). *)
Definition SerWrite_default {W E} (write : W -> bytes -> W * result unit E) : SerWrite W E := {|
  sw_write := write;
  sw_write_byte := fun w b => write w [b];
  sw_write_str := fun w s => write w s
|}.

(** [SliceWriter] (src/lib.rs:91-94).  The borrowed [buf: &mut [u8]] is a window
    [sl_base, sl_base + sl_cap) of a block of memory [sl_mem], so that two
    slices obtained from the same buffer can be told apart or found to overlap;
    [sl_len] is the field [len].  Simplification: [usize] arithmetic is on [nat];
    two Rust lengths are at most [isize::MAX] each, so [len + buf.len()] cannot
    overflow for a writer made by [new]. *)
Record slice_writer := {
  sl_mem : bytes;
  sl_base : nat;
  sl_cap : nat;
  sl_len : nat
}.

(** [SliceWriter::new] (src/lib.rs:112-114) over a whole memory block. *)
Definition sl_new (buf : bytes) : slice_writer :=
  {| sl_mem := buf; sl_base := 0; sl_cap := length buf; sl_len := 0 |}.

(** [as_ref] / [as_mut] (src/lib.rs:98-100, 105-107): [&self.buf[..self.len]];
    [None] is the panic of an out of range slice. *)
Definition sl_as_ref (w : slice_writer) : option bytes :=
  if (sl_len w <=? sl_cap w)%nat then Some (slice (sl_mem w) (sl_base w) (sl_len w)) else None.

(** [is_empty] (src/lib.rs:120-122). *)
Definition sl_is_empty (w : slice_writer) : bool := (sl_len w =? 0)%nat.

(** [capacity] (src/lib.rs:124-126). *)
Definition sl_capacity (w : slice_writer) : nat := sl_cap w.

(** [rem_capacity] (src/lib.rs:128-130); [None] is the subtraction underflow panic. *)
Definition sl_rem_capacity (w : slice_writer) : option nat :=
  if (sl_len w <=? sl_cap w)%nat then Some (sl_cap w - sl_len w)%nat else None.

(** [clear] (src/lib.rs:132-134). *)
Definition sl_clear (w : slice_writer) : slice_writer :=
  {| sl_mem := sl_mem w; sl_base := sl_base w; sl_cap := sl_cap w; sl_len := 0 |}.

(** [split] (src/lib.rs:140-143): [split_at_mut(self.len)] panics when [len] is
    beyond the buffer.  The head is returned as a window (base, length). *)
Definition sl_split (w : slice_writer) : option ((nat * nat) * slice_writer) :=
  if (sl_len w <=? sl_cap w)%nat then
    Some ((sl_base w, sl_len w),
          {| sl_mem := sl_mem w; sl_base := (sl_base w + sl_len w)%nat;
             sl_cap := (sl_cap w - sl_len w)%nat; sl_len := 0 |})
  else None.

(** [write] (src/lib.rs:149-159): [get_mut(self.len..end)] is [Some] iff
    [self.len <= end <= buf.len()]. *)
Definition sl_write (w : slice_writer) (buf : bytes) : slice_writer * result unit ser_error :=
  let end_ := (sl_len w + length buf)%nat in
  if ((sl_len w <=? end_) && (end_ <=? sl_cap w))%nat then
    ({| sl_mem := splice (sl_mem w) (sl_base w + sl_len w) buf;
        sl_base := sl_base w; sl_cap := sl_cap w; sl_len := end_ |}, Ok tt)
  else (w, Err BufferFull).

(** [impl SerWrite for SliceWriter] (src/lib.rs:146-160): default [write_byte]
    and [write_str]. *)
Definition SliceWriter : SerWrite slice_writer ser_error := SerWrite_default sl_write.

(** [impl fmt::Write for SliceWriter] (src/lib.rs:162-166); [fmt::Error] is [tt]. *)
Definition sl_fmt_write_str (w : slice_writer) (s : bytes) : slice_writer * result unit unit :=
  let '(w', r) := sw_write_str SliceWriter w s in
  (w', match r with Ok _ => Ok tt | Err _ => Err tt end).

(** The growable list writer with an allocator that never fails: the reference
    against which all writers are compared ([Vec<u8>] of src/foreign.rs:25-45
    when memory is available). *)
Definition VecWriter {E} : SerWrite bytes E :=
  SerWrite_default (fun w buf => (w ++ buf, Ok tt)).

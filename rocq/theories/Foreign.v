(** Model of /repo/src/foreign.rs: [SerWrite] for containers of other crates.

    The containers themselves (std, arrayvec, heapless, smallvec, tinyvec) are
    not part of /repo; each is modelled by its documented behaviour: a list of
    bytes plus a capacity, plus an allocator oracle where it may allocate. *)
From Verif Require Import Prelude Writer.

(** Allocator: asked for the [n]-th time, for room for [need] bytes in all, it
    refuses ([None]) or grants [need + extra] bytes ([Some extra]; containers grow
    amortized, so [extra] is theirs to choose).  An arbitrary oracle stands for any
    allocator history. *)
Definition allocator := nat -> nat -> option nat.

(** [Vec<u8>], [VecDeque<u8>]: content, capacity, number of requests made so far.
    [hv_abort]: an infallible growth was refused ([handle_alloc_error]: the process
    is gone). *)
Record heap_vec := { hv_data : bytes; hv_cap : nat; hv_tick : nat; hv_alloc : allocator; hv_abort : bool }.

(** [try_reserve(additional)] of [Vec]/[VecDeque]: asks the allocator only when the
    capacity does not suffice; no change to the content. *)
Definition hv_try_reserve (v : heap_vec) (additional : nat) : heap_vec * bool :=
  let need := (length (hv_data v) + additional)%nat in
  if (need <=? hv_cap v)%nat then (v, true)
  else
    let '(cap, ok) := match hv_alloc v (hv_tick v) need with
                      | Some extra => ((need + extra)%nat, true)
                      | None => (hv_cap v, false)
                      end in
    ({| hv_data := hv_data v; hv_cap := cap; hv_tick := S (hv_tick v);
        hv_alloc := hv_alloc v; hv_abort := hv_abort v |}, ok).

(** [extend_from_slice], [push], [push_back]: grows infallibly when it has to, that
    is, a refusal aborts. *)
Definition hv_extend (v : heap_vec) (bs : bytes) : heap_vec :=
  let '(v, ok) := hv_try_reserve v (length bs) in
  {| hv_data := if ok then hv_data v ++ bs else hv_data v; hv_cap := hv_cap v; hv_tick := hv_tick v;
     hv_alloc := hv_alloc v; hv_abort := hv_abort v || negb ok |}.

(** [impl SerWrite for Vec<u8>] (src/foreign.rs:25-45). *)
Definition vec_write (v : heap_vec) (buf : bytes) : heap_vec * result unit ser_error :=
  let '(v, ok) := hv_try_reserve v (length buf) in
  if ok then (hv_extend v buf, Ok tt) else (v, Err BufferFull).
Definition vec_write_byte (v : heap_vec) (b : Z) : heap_vec * result unit ser_error :=
  let '(v, ok) := hv_try_reserve v 1 in
  if ok then (hv_extend v [b], Ok tt) else (v, Err BufferFull).
Definition StdVec : SerWrite heap_vec ser_error :=
  {| sw_write := vec_write; sw_write_byte := vec_write_byte; sw_write_str := vec_write |}.

(** [impl SerWrite for VecDeque<u8>] (src/foreign.rs:49-64): [extend] with
    [buf.iter().copied()] pushes the bytes one by one at the back. *)
Definition deque_write (v : heap_vec) (buf : bytes) : heap_vec * result unit ser_error :=
  let '(v, ok) := hv_try_reserve v (length buf) in
  if ok then (fold_left (fun v b => hv_extend v [b]) buf v, Ok tt) else (v, Err BufferFull).
Definition deque_write_byte (v : heap_vec) (b : Z) : heap_vec * result unit ser_error :=
  let '(v, ok) := hv_try_reserve v 1 in
  if ok then (hv_extend v [b], Ok tt) else (v, Err BufferFull).
Definition StdVecDeque : SerWrite heap_vec ser_error :=
  {| sw_write := deque_write; sw_write_byte := deque_write_byte; sw_write_str := deque_write |}.

(** [std::io::Cursor<&mut [u8]>] (also arrays and [Box<[u8]>]). *)
Record cursor := { cu_buf : bytes; cu_pos : nat }.

(** [io::Write for Cursor<&mut [u8]>]: copies what fits at [min(pos, len)] and
    advances by the amount copied. *)
Definition cursor_io_write (c : cursor) (buf : bytes) : cursor * nat :=
  let start := Nat.min (cu_pos c) (length (cu_buf c)) in
  let amt := Nat.min (length buf) (length (cu_buf c) - start) in
  ({| cu_buf := splice (cu_buf c) start (firstn amt buf); cu_pos := (cu_pos c + amt)%nat |}, amt).

(** [impl SerWrite for Cursor<T>] (src/foreign.rs:68-77) through
    [io::Write::write_all]: an incomplete first write is followed by a write of
    0 bytes, i.e. the [WriteZero] error, mapped to [BufferFull]. *)
Definition cursor_write (c : cursor) (buf : bytes) : cursor * result unit ser_error :=
  match buf with
  | [] => (c, Ok tt)
  | _ =>
    let '(c', n) := cursor_io_write c buf in
    (c', if (n =? length buf)%nat then Ok tt else Err BufferFull)
  end.
Definition StdCursor : SerWrite cursor ser_error := SerWrite_default cursor_write.

(** [Cursor<Vec<u8>>] (same impl, src/foreign.rs:68-77): overwrites from [pos],
    zero-fills a gap, grows as needed (an allocation failure aborts the process
    and is not modelled). *)
Definition cursor_vec_write (c : cursor) (buf : bytes) : cursor * result unit ser_error :=
  match buf with
  | [] => (c, Ok tt)
  | _ =>
    let padded := cu_buf c ++ repeat 0 (cu_pos c - length (cu_buf c)) in
    ({| cu_buf := firstn (cu_pos c) padded ++ buf ++ skipn (cu_pos c + length buf) padded;
        cu_pos := (cu_pos c + length buf)%nat |}, Ok tt)
  end.
Definition StdCursorVec : SerWrite cursor ser_error := SerWrite_default cursor_vec_write.

(** Fixed-capacity vectors: [arrayvec::ArrayVec], [heapless::Vec], [heapless::VecView]. *)
Record fixed_vec := { fv_data : bytes; fv_cap : nat }.

Definition fv_try_extend (v : fixed_vec) (bs : bytes) : option fixed_vec :=
  if (fv_cap v - length (fv_data v) <? length bs)%nat then None
  else Some {| fv_data := fv_data v ++ bs; fv_cap := fv_cap v |}.
Definition fv_try_push (v : fixed_vec) (b : Z) : option fixed_vec :=
  if (length (fv_data v) <? fv_cap v)%nat
  then Some {| fv_data := fv_data v ++ [b]; fv_cap := fv_cap v |} else None.

(** [impl SerWrite for arrayvec::ArrayVec] (src/foreign.rs:89-99). *)
Definition arrayvec_write (v : fixed_vec) (buf : bytes) : fixed_vec * result unit ser_error :=
  match fv_try_extend v buf with Some v' => (v', Ok tt) | None => (v, Err BufferFull) end.
Definition arrayvec_write_byte (v : fixed_vec) (b : Z) : fixed_vec * result unit ser_error :=
  match fv_try_push v b with Some v' => (v', Ok tt) | None => (v, Err BufferFull) end.
Definition ArrayVecWriter : SerWrite fixed_vec ser_error :=
  {| sw_write := arrayvec_write; sw_write_byte := arrayvec_write_byte; sw_write_str := arrayvec_write |}.

(** [impl SerWrite for heapless::Vec / VecView] (src/foreign.rs:103-113, 117-127). *)
Definition heapless_write (v : fixed_vec) (buf : bytes) : fixed_vec * result unit ser_error :=
  match fv_try_extend v buf with Some v' => (v', Ok tt) | None => (v, Err BufferFull) end.
Definition heapless_write_byte (v : fixed_vec) (b : Z) : fixed_vec * result unit ser_error :=
  match fv_try_push v b with Some v' => (v', Ok tt) | None => (v, Err BufferFull) end.
Definition HeaplessWriter : SerWrite fixed_vec ser_error :=
  {| sw_write := heapless_write; sw_write_byte := heapless_write_byte; sw_write_str := heapless_write |}.

(** [smallvec::SmallVec]: the inline array is its first capacity, later the heap;
    otherwise it reserves, extends and aborts like [Vec]. *)
Definition small_vec := heap_vec.

(** [impl SerWrite for smallvec::SmallVec] (src/foreign.rs:139-155). *)
Definition smallvec_write (v : small_vec) (buf : bytes) : small_vec * result unit ser_error :=
  let '(v, ok) := hv_try_reserve v (length buf) in
  if ok then (hv_extend v buf, Ok tt) else (v, Err BufferFull).
Definition smallvec_write_byte (v : small_vec) (b : Z) : small_vec * result unit ser_error :=
  let '(v, ok) := hv_try_reserve v 1 in
  if ok then (hv_extend v [b], Ok tt) else (v, Err BufferFull).
Definition SmallVecWriter : SerWrite small_vec ser_error :=
  {| sw_write := smallvec_write; sw_write_byte := smallvec_write_byte; sw_write_str := smallvec_write |}.

(** [tinyvec::ArrayVec] / [tinyvec::SliceVec]: a backing array and a length.
    The backing array is what [grab_spare_slice_mut] exposes beyond [len]. *)
Record tiny_arr := { ta_back : bytes; ta_len : nat }.

(** [implement_tinyvec_write!] (src/foreign.rs:158-175). *)
Definition tinyvec_write (v : tiny_arr) (buf : bytes) : tiny_arr * result unit ser_error :=
  let add_len := length buf in
  if (add_len =? 0)%nat then (v, Ok tt)
  else if (add_len <=? length (skipn (ta_len v) (ta_back v)))%nat then
    ({| ta_back := splice (ta_back v) (ta_len v) buf; ta_len := (ta_len v + add_len)%nat |}, Ok tt)
  else (v, Err BufferFull).
(** [write_byte] for [tinyvec::ArrayVec] via [try_push] (src/foreign.rs:187-194). *)
Definition tinyvec_write_byte (v : tiny_arr) (b : Z) : tiny_arr * result unit ser_error :=
  if (ta_len v <? length (ta_back v))%nat then
    ({| ta_back := splice (ta_back v) (ta_len v) [b]; ta_len := S (ta_len v) |}, Ok tt)
  else (v, Err BufferFull).
(** [impl SerWrite for tinyvec::ArrayVec] (src/foreign.rs:179-195). *)
Definition TinyArrayVecWriter : SerWrite tiny_arr ser_error :=
  {| sw_write := tinyvec_write; sw_write_byte := tinyvec_write_byte; sw_write_str := tinyvec_write |}.
(** [impl SerWrite for tinyvec::SliceVec] (src/foreign.rs:199-203). *)
Definition TinySliceVecWriter : SerWrite tiny_arr ser_error := SerWrite_default tinyvec_write.

(** [tinyvec::TinyVec]: inline array or heap vector; [TPanic] is the state after
    a panic of the inline [extend_from_slice] (capacity exceeded). *)
Inductive tiny_vec := TInline (data : bytes) (cap : nat) (tick : nat) (al : allocator)
                    | THeap (h : heap_vec)
                    | TPanic.

(** [TinyVec::try_reserve]: moves to the heap when the inline array is too small. *)
Definition tv_try_reserve (v : tiny_vec) (n : nat) : tiny_vec * bool :=
  match v with
  | THeap h => let '(h', ok) := hv_try_reserve h n in (THeap h', ok)
  | TInline data cap tick al =>
    if (cap - length data <? n)%nat then
      match al tick (length data + n)%nat with
      | Some extra => (THeap {| hv_data := data; hv_cap := (length data + n + extra)%nat; hv_tick := S tick;
                                hv_alloc := al; hv_abort := false |}, true)
      | None => (TInline data cap (S tick) al, false)
      end
    else (v, true)
  | TPanic => (TPanic, false)
  end.

(** [impl SerWrite for tinyvec::TinyVec] (src/foreign.rs:207-220). *)
Definition tinyvec_heap_write (v : tiny_vec) (buf : bytes) : tiny_vec * result unit ser_error :=
  let '(v, ok) := tv_try_reserve v (length buf) in
  if ok then
    match v with
    | TInline data cap tick al =>
      if (length data + length buf <=? cap)%nat then (TInline (data ++ buf) cap tick al, Ok tt)
      else (TPanic, Ok tt)
    | THeap h => (THeap (hv_extend h buf), Ok tt)
    | TPanic => (TPanic, Ok tt)
    end
  else (v, Err BufferFull).
Definition TinyVecWriter : SerWrite tiny_vec ser_error := SerWrite_default tinyvec_heap_write.

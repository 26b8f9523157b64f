(** Observations of the writers used in theorem statements: driving a
    SliceWriter through a history, and for each writer its valid states and the
    bytes it holds. *)
From Verif Require Import Prelude Writer Foreign WriterSpec.

(** Run a history on the model; [None] is a panic. *)
Definition sl_step (w : slice_writer) (o : wop) : option (slice_writer * bool) :=
  match o with
  | OpWrite bs => let '(w, r) := sw_write SliceWriter w bs in
                  Some (w, match r with Ok _ => true | Err _ => false end)
  | OpByte b => let '(w, r) := sw_write_byte SliceWriter w b in
                  Some (w, match r with Ok _ => true | Err _ => false end)
  | OpStr bs => let '(w, r) := sw_write_str SliceWriter w bs in
                  Some (w, match r with Ok _ => true | Err _ => false end)
  | OpFmt bs => let '(w, r) := sl_fmt_write_str w bs in
                  Some (w, match r with Ok _ => true | Err _ => false end)
  | OpClear => Some (sl_clear w, true)
  | OpSplit => match sl_split w with Some (_, w') => Some (w', true) | None => None end
  end.

Fixpoint sl_run (w : slice_writer) (os : list wop) : option (slice_writer * list bool) :=
  match os with
  | [] => Some (w, [])
  | o :: os =>
    match sl_step w o with
    | None => None
    | Some (w1, b) =>
      match sl_run w1 os with
      | None => None
      | Some (w2, bs) => Some (w2, b :: bs)
      end
    end
  end.

(** A SliceWriter whose window lies in its memory and whose [len] is in range. *)
Definition sl_inv (w : slice_writer) : Prop :=
  (sl_base w + sl_cap w <= length (sl_mem w) /\ sl_len w <= sl_cap w)%nat.
Definition sl_content (w : slice_writer) : bytes := slice (sl_mem w) (sl_base w) (sl_len w).

(** arrayvec / heapless *)
Definition fv_inv (v : fixed_vec) : Prop := (length (fv_data v) <= fv_cap v)%nat.

(** tinyvec ArrayVec / SliceVec *)
Definition ta_inv (v : tiny_arr) : Prop := (ta_len v <= length (ta_back v))%nat.
Definition ta_content (v : tiny_arr) : bytes := slice (ta_back v) 0 (ta_len v).
Definition ta_cap (v : tiny_arr) : nat := length (ta_back v).

(** Vec, VecDeque, SmallVec: the content fits the capacity and no growth was refused
    to an operation that cannot report it. *)
Definition hv_inv (v : heap_vec) : Prop := (length (hv_data v) <= hv_cap v)%nat /\ hv_abort v = false.

(** tinyvec TinyVec: the valid states exclude the panic state. *)
Definition tv_inv (v : tiny_vec) : Prop :=
  match v with TInline d c _ _ => (length d <= c)%nat | THeap h => hv_inv h | TPanic => False end.
Definition tv_content (v : tiny_vec) : bytes :=
  match v with TInline d _ _ _ => d | THeap h => hv_data h | TPanic => [] end.

Definition tv_cap (v : tiny_vec) : nat :=
  match v with TInline _ c _ _ => c | THeap h => hv_cap h | TPanic => 0 end.
Definition tv_tick (v : tiny_vec) : nat :=
  match v with TInline _ _ t _ => t | THeap h => hv_tick h | TPanic => 0 end.
Definition tv_alloc (v : tiny_vec) : allocator :=
  match v with TInline _ _ _ al => al | THeap h => hv_alloc h | TPanic => fun _ _ => None end.

(** Cursor: positions inside the buffer; the content is what is before the position. *)
Definition cu_inv (c : cursor) : Prop := (cu_pos c <= length (cu_buf c))%nat.
Definition cu_content (c : cursor) : bytes := slice (cu_buf c) 0 (cu_pos c).

(** Property theorems about the writers (C01-C04). *)
From Verif Require Import Prelude Writer Foreign WriterSpec WriterContract WriterObs WriterProofs.

(** C01/C02: every history of write / write_byte / write_str / fmt::write_str /
    clear / split on a fresh SliceWriter runs without panic and is observed
    exactly as the bounded log of [WriterSpec]: same results, same content, same
    lengths; heads returned by [split] are never changed by later writes, and
    bytes beyond the highest written position keep their initial value. *)
Theorem C01_slice_writer_is_bounded_log : forall buf os,
  exists w, sl_run (sl_new buf) os = Some (w, snd (blog_run (blog_empty (length buf)) os)) /\
    let s := fst (blog_run (blog_empty (length buf)) os) in
    sl_as_ref w = Some (bl_log s) /\
    sl_len w = length (bl_log s) /\
    sl_is_empty w = (length (bl_log s) =? 0)%nat /\
    sl_capacity w = bl_cap s /\
    sl_rem_capacity w = Some (bl_cap s - length (bl_log s))%nat /\
    (sl_len w + (bl_cap s - length (bl_log s)))%nat = sl_capacity w /\
    sl_mem w = concat (bl_heads s) ++ bl_log s ++
               skipn (length (concat (bl_heads s)) + length (bl_log s)) (sl_mem w) /\
    skipn (length (concat (bl_heads s)) + bl_high s) (sl_mem w) =
      skipn (length (concat (bl_heads s)) + bl_high s) buf /\
    length (sl_mem w) = length buf.
Proof. exact slice_writer_history. Qed.
Print Assumptions C01_slice_writer_is_bounded_log.

Example C01_case :
  sl_run (sl_new [9;9;9;9;9]) [OpWrite [1;2]; OpByte 3; OpWrite [4;5;6]; OpSplit; OpStr [7]; OpClear; OpByte 8]
  = Some ({| sl_mem := [1;2;3;8;9]; sl_base := 3; sl_cap := 2; sl_len := 1 |},
          [true; true; false; true; true; true; true]).
Proof. reflexivity. Qed.

(** C01: a failed write changes nothing at all. *)
Theorem C01_failed_write_changes_nothing : forall w bs w' e,
  sw_write SliceWriter w bs = (w', Err e) -> w' = w.
Proof. exact slice_writer_failed_write. Qed.
Print Assumptions C01_failed_write_changes_nothing.

Example C01_failed_case :
  exists w, sw_write SliceWriter (sl_new [0;0]) [1;2;3] = (w, Err BufferFull).
Proof. eexists. reflexivity. Qed.

(** C02: [split] hands out exactly the populated window and an empty writer on
    exactly the rest; no sequence of operations through the new writer changes a
    byte of the head. *)
Theorem C02_split_head_is_stable : forall w h n w1 os w2 rs,
  sl_inv w -> sl_split w = Some ((h, n), w1) -> sl_run w1 os = Some (w2, rs) ->
  slice (sl_mem w1) h n = sl_content w /\
  sl_content w1 = [] /\ sl_capacity w1 = (sl_capacity w - length (sl_content w))%nat /\
  sl_base w1 = (h + n)%nat /\
  firstn (h + n) (sl_mem w2) = firstn (h + n) (sl_mem w1).
Proof. exact split_head_stable. Qed.
Print Assumptions C02_split_head_is_stable.

Example C02_case :
  let w := {| sl_mem := [1;2;3;4]; sl_base := 0; sl_cap := 4; sl_len := 2 |} in
  sl_inv w /\ exists w1, sl_split w = Some ((0,2)%nat, w1) /\
  exists w2, sl_run w1 [OpWrite [7;8]] = Some (w2, [true]) /\ sl_mem w2 = [1;2;7;8].
Proof.
  split; [unfold sl_inv; cbn; lia|]. eexists; split; [reflexivity|]. eexists; split; reflexivity.
Qed.

(** C03: contract of the provided writers. *)
Theorem C03_slice_writer_contract :
  lawful SliceWriter sl_inv sl_content /\ atomic SliceWriter sl_inv sl_content /\
  bounded SliceWriter sl_inv sl_content sl_capacity.
Proof. exact (conj SliceWriter_lawful (conj SliceWriter_atomic SliceWriter_bounded)). Qed.
Print Assumptions C03_slice_writer_contract.

(** [hv_inv] excludes an allocation failure in an operation that cannot report it, so
    this includes "never aborts, whatever the allocator does". *)
Theorem C03_vec_contract :
  lawful StdVec hv_inv hv_data /\ atomic StdVec hv_inv hv_data /\
  growable StdVec hv_inv hv_data hv_cap hv_tick hv_alloc.
Proof. exact Vec_contract. Qed.
Print Assumptions C03_vec_contract.

Theorem C03_vecdeque_contract :
  lawful StdVecDeque hv_inv hv_data /\ atomic StdVecDeque hv_inv hv_data /\
  growable StdVecDeque hv_inv hv_data hv_cap hv_tick hv_alloc.
Proof. exact VecDeque_contract. Qed.
Print Assumptions C03_vecdeque_contract.

Theorem C03_arrayvec_contract :
  lawful ArrayVecWriter fv_inv fv_data /\ atomic ArrayVecWriter fv_inv fv_data /\
  bounded ArrayVecWriter fv_inv fv_data fv_cap.
Proof. exact ArrayVec_contract. Qed.
Print Assumptions C03_arrayvec_contract.

Theorem C03_heapless_contract :
  lawful HeaplessWriter fv_inv fv_data /\ atomic HeaplessWriter fv_inv fv_data /\
  bounded HeaplessWriter fv_inv fv_data fv_cap.
Proof. exact Heapless_contract. Qed.
Print Assumptions C03_heapless_contract.

Theorem C03_smallvec_contract :
  lawful SmallVecWriter hv_inv hv_data /\ atomic SmallVecWriter hv_inv hv_data /\
  growable SmallVecWriter hv_inv hv_data hv_cap hv_tick hv_alloc.
Proof. exact SmallVec_contract. Qed.
Print Assumptions C03_smallvec_contract.

Theorem C03_tinyvec_arrayvec_contract :
  lawful TinyArrayVecWriter ta_inv ta_content /\ atomic TinyArrayVecWriter ta_inv ta_content /\
  bounded TinyArrayVecWriter ta_inv ta_content ta_cap.
Proof. exact TinyArrayVec_contract. Qed.
Print Assumptions C03_tinyvec_arrayvec_contract.

Theorem C03_tinyvec_slicevec_contract :
  lawful TinySliceVecWriter ta_inv ta_content /\ atomic TinySliceVecWriter ta_inv ta_content /\
  bounded TinySliceVecWriter ta_inv ta_content ta_cap.
Proof. exact TinySliceVec_contract. Qed.
Print Assumptions C03_tinyvec_slicevec_contract.

(** [tv_inv] excludes the panic state, so this includes "never panics"; likewise it never aborts. *)
Theorem C03_tinyvec_tinyvec_contract :
  lawful TinyVecWriter tv_inv tv_content /\ atomic TinyVecWriter tv_inv tv_content /\
  growable TinyVecWriter tv_inv tv_content tv_cap tv_tick tv_alloc.
Proof. exact TinyVec_contract. Qed.
Print Assumptions C03_tinyvec_tinyvec_contract.

Example C03_case :
  hv_inv {| hv_data := [1]; hv_cap := 2; hv_tick := 0; hv_alloc := fun _ n => if (n <=? 3)%nat then Some 5%nat else None; hv_abort := false |} /\
  sw_write StdVec {| hv_data := [1]; hv_cap := 2; hv_tick := 0; hv_alloc := fun _ n => if (n <=? 3)%nat then Some 5%nat else None; hv_abort := false |} [2;3]
    = ({| hv_data := [1;2;3]; hv_cap := 8; hv_tick := 1; hv_alloc := fun _ n => if (n <=? 3)%nat then Some 5%nat else None; hv_abort := false |}, Ok tt) /\
  sw_write StdVecDeque {| hv_data := [1]; hv_cap := 2; hv_tick := 0; hv_alloc := fun _ n => if (n <=? 3)%nat then Some 5%nat else None; hv_abort := false |} [2;3;4]
    = ({| hv_data := [1]; hv_cap := 2; hv_tick := 1; hv_alloc := fun _ n => if (n <=? 3)%nat then Some 5%nat else None; hv_abort := false |}, Err BufferFull) /\
  tv_inv (TInline [1;2] 2 0 (fun _ _ => Some 0%nat)) /\
  sw_write TinyVecWriter (TInline [1;2] 2 0 (fun _ _ => Some 0%nat)) [3]
    = (THeap {| hv_data := [1;2;3]; hv_cap := 3; hv_tick := 1; hv_alloc := fun _ _ => Some 0%nat; hv_abort := false |}, Ok tt) /\
  fv_inv {| fv_data := [1;2]; fv_cap := 3 |} /\
  sw_write_byte ArrayVecWriter {| fv_data := [1;2]; fv_cap := 3 |} 7 = ({| fv_data := [1;2;7]; fv_cap := 3 |}, Ok tt) /\
  ta_inv {| ta_back := [1;2;3]; ta_len := 2 |} /\
  sw_write TinyArrayVecWriter {| ta_back := [1;2;3]; ta_len := 2 |} [8;9]
    = ({| ta_back := [1;2;3]; ta_len := 2 |}, Err BufferFull).
Proof. unfold fv_inv, ta_inv, hv_inv. cbn. repeat split; lia || reflexivity. Qed.

(** C04: a Cursor over a fixed buffer stores exactly the bytes that fit, and
    succeeds exactly when they all do. *)
Theorem C04_cursor_write : forall c bs c' r, cu_inv c -> sw_write StdCursor c bs = (c', r) ->
  let n := Nat.min (length bs) (length (cu_buf c) - cu_pos c) in
  cu_inv c' /\ cu_pos c' = (cu_pos c + n)%nat /\
  cu_buf c' = splice (cu_buf c) (cu_pos c) (firstn n bs) /\
  cu_content c' = cu_content c ++ firstn n bs /\
  (r = Ok tt <-> (cu_pos c + length bs <= length (cu_buf c))%nat).
Proof. exact cursor_write_full. Qed.
Print Assumptions C04_cursor_write.

Theorem C04_cursor_lawful : lawful StdCursor cu_inv cu_content /\
  bounded StdCursor cu_inv cu_content (fun c => length (cu_buf c)) /\
  lawful StdCursorVec cu_inv cu_content.
Proof. exact (conj StdCursor_lawful (conj StdCursor_bounded StdCursorVec_lawful)). Qed.
Print Assumptions C04_cursor_lawful.

(** C04: the all-or-nothing property of the other writers fails for Cursor. *)
Theorem C04_cursor_atomic_refuted : ~ atomic StdCursor cu_inv cu_content.
Proof. exact StdCursor_not_atomic. Qed.
Print Assumptions C04_cursor_atomic_refuted.

Example C04_case : cu_inv {| cu_buf := [0;0;0]; cu_pos := 1 |} /\
  sw_write StdCursor {| cu_buf := [0;0;0]; cu_pos := 1 |} [5;6;7]
  = ({| cu_buf := [0;5;6]; cu_pos := 3 |}, Err BufferFull).
Proof. unfold cu_inv. cbn. split; [lia|reflexivity]. Qed.

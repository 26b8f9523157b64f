(** Specification of writers, independent of any implementation. *)
From Verif Require Import Prelude.

(** What a user may do with a slice writer. *)
Inductive wop :=
| OpWrite (bs : bytes)     (* SerWrite::write *)
| OpByte (b : Z)           (* SerWrite::write_byte *)
| OpStr (bs : bytes)       (* SerWrite::write_str *)
| OpFmt (bs : bytes)       (* fmt::Write::write_str *)
| OpClear                  (* clear *)
| OpSplit.                 (* split, continuing with the returned writer *)

(** A bounded log: the heads returned by [split] so far, the bytes written since
    the last clear/split, the capacity left for this log, and how far into its
    buffer the current writer has ever written. *)
Record blog := { bl_heads : list bytes; bl_log : bytes; bl_cap : nat; bl_high : nat }.

Definition blog_empty (cap : nat) : blog :=
  {| bl_heads := []; bl_log := []; bl_cap := cap; bl_high := 0 |}.

Definition blog_append (s : blog) (bs : bytes) : blog * bool :=
  if (length (bl_log s) + length bs <=? bl_cap s)%nat
  then ({| bl_heads := bl_heads s; bl_log := bl_log s ++ bs; bl_cap := bl_cap s;
           bl_high := Nat.max (bl_high s) (length (bl_log s) + length bs) |}, true)
  else (s, false).

(** One step of the log; the boolean tells success. *)
Definition blog_step (s : blog) (o : wop) : blog * bool :=
  match o with
  | OpWrite bs | OpStr bs | OpFmt bs => blog_append s bs
  | OpByte b => blog_append s [b]
  | OpClear => ({| bl_heads := bl_heads s; bl_log := []; bl_cap := bl_cap s; bl_high := bl_high s |}, true)
  | OpSplit => ({| bl_heads := bl_heads s ++ [bl_log s]; bl_log := [];
                   bl_cap := bl_cap s - length (bl_log s);
                   bl_high := bl_high s - length (bl_log s) |}, true)
  end.

Fixpoint blog_run (s : blog) (os : list wop) : blog * list bool :=
  match os with
  | [] => (s, [])
  | o :: os => let '(s1, b) := blog_step s o in
               let '(s2, bs) := blog_run s1 os in (s2, b :: bs)
  end.

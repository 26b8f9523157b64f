(** The contract of [trait SerWrite] (src/lib.rs:46-68: "Write **all** bytes from
    buf ... Otherwise return an error") as predicates over any implementation. *)
From Verif Require Import Prelude Writer.

Section Contract.
Context {W E : Type} (SW : SerWrite W E) (inv : W -> Prop) (content : W -> bytes).

(** One operation meant to append [bs]. *)
Definition appends (f : W -> W * result unit E) (bs : bytes) : Prop :=
  forall w w' r, inv w -> f w = (w', r) ->
    inv w' /\
    match r with
    | Ok _ => content w' = content w ++ bs
    | Err _ => exists p, prefix p bs /\ content w' = content w ++ p
    end.

(** [Ok] means everything was appended; [Err] means at most a prefix was. *)
Record lawful : Prop := {
  law_write : forall bs, appends (fun w => sw_write SW w bs) bs;
  law_byte : forall b, appends (fun w => sw_write_byte SW w b) [b];
  law_str : forall bs, appends (fun w => sw_write_str SW w bs) bs
}.

Definition fails_clean (f : W -> W * result unit E) : Prop :=
  forall w w' e, inv w -> f w = (w', Err e) -> content w' = content w.

(** All-or-nothing: a failed operation appends nothing. *)
Record atomic : Prop := {
  atomic_write : forall bs, fails_clean (fun w => sw_write SW w bs);
  atomic_byte : forall b, fails_clean (fun w => sw_write_byte SW w b);
  atomic_str : forall bs, fails_clean (fun w => sw_write_str SW w bs)
}.

Definition fits (cap : W -> nat) (f : W -> W * result unit E) (n : nat) : Prop :=
  forall w w' r, inv w -> f w = (w', r) ->
    cap w' = cap w /\ (r = Ok tt <-> (length (content w) + n <= cap w)%nat).

(** Bounded by [cap]: succeeds exactly when the bytes fit. *)
Record bounded (cap : W -> nat) : Prop := {
  bounded_write : forall bs, fits cap (fun w => sw_write SW w bs) (length bs);
  bounded_byte : forall b, fits cap (fun w => sw_write_byte SW w b) 1;
  bounded_str : forall bs, fits cap (fun w => sw_write_str SW w bs) (length bs)
}.

(** How an operation needing [n] more bytes uses memory: none is asked for while the
    capacity suffices; otherwise there is exactly one request, for the bytes needed,
    and the operation succeeds exactly when it is granted. *)
Definition asks (cap tick : W -> nat) (alloc : W -> nat -> nat -> option nat)
    (f : W -> W * result unit E) (n : nat) : Prop :=
  forall w w' r, inv w -> f w = (w', r) ->
    let need := (length (content w) + n)%nat in
    alloc w' = alloc w /\
    ((need <= cap w)%nat -> r = Ok tt /\ cap w' = cap w /\ tick w' = tick w) /\
    ((cap w < need)%nat -> tick w' = S (tick w) /\
       match alloc w (tick w) need with
       | Some extra => r = Ok tt /\ cap w' = (need + extra)%nat
       | None => (exists e, r = Err e) /\ cap w' = cap w
       end).

Record growable (cap tick : W -> nat) (alloc : W -> nat -> nat -> option nat) : Prop := {
  growable_write : forall bs, asks cap tick alloc (fun w => sw_write SW w bs) (length bs);
  growable_byte : forall b, asks cap tick alloc (fun w => sw_write_byte SW w b) 1;
  growable_str : forall bs, asks cap tick alloc (fun w => sw_write_str SW w bs) (length bs)
}.
End Contract.

(** State-and-result monad of the serializers: [&mut self] (the writer [W]) is
    threaded, [?] is [sbind].  [X] is the serializer's error type. *)
From Verif Require Import Prelude.

Definition SM (W X A : Type) := W -> W * result A X.
Definition sret {W X A} (a : A) : SM W X A := fun w => (w, Ok a).
Definition sfail {W X A} (e : X) : SM W X A := fun w => (w, Err e).
(** The [?] operator. *)
Definition sbind {W X A B} (m : SM W X A) (f : A -> SM W X B) : SM W X B := fun w =>
  let '(w', r) := m w in
  match r with Ok a => f a w' | Err e => (w', Err e) end.
(** A writer call whose error is converted by [From<E>]. *)
Definition slift {W E X} (inj : E -> X) (f : W -> W * result unit E) : SM W X unit := fun w =>
  let '(w', r) := f w in
  (w', match r with Ok _ => Ok tt | Err e => Err (inj e) end).

Declare Scope ser_scope.
Delimit Scope ser_scope with ser.
Notation "x <- m ;; f" := (sbind m (fun x => f))
  (at level 61, m at next level, right associativity) : ser_scope.
Notation "m ;; f" := (sbind m (fun _ => f)) (at level 61, right associativity) : ser_scope.

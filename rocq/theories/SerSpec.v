(** Vocabulary used to state properties of the serializers. *)
From Verif Require Import Prelude Writer.

(** Apply a function to the error of a result. *)
Definition res_map {A X Y} (f : X -> Y) (r : result A X) : result A Y :=
  match r with Ok a => Ok a | Err e => Err (f e) end.

(** A writer together with a log of the results of all calls made on it. *)
Definition Logged {W E} (SW : SerWrite W E) : SerWrite (W * list (result unit E)) E :=
  let log op := fun st : W * list (result unit E) => 
    let '(w, lg) := st in let '(w', r) := op w in ((w', lg ++ [r]), r) in
  {| sw_write := fun st bs => log (fun w => sw_write SW w bs) st;
     sw_write_byte := fun st b => log (fun w => sw_write_byte SW w b) st;
     sw_write_str := fun st bs => log (fun w => sw_write_str SW w bs) st |}.

Definition all_ok {E} (lg : list (result unit E)) : Prop := Forall (fun r => r = Ok tt) lg.


(** Loops a user writes around the crates to handle several messages: all to one writer,
    all from one slice. *)
From Verif Require Import Prelude Writer SerdeSer SerdeDe MpSer MpDe JsonSer JsonDe Types.

(** How a loop over the input ended. *)
Inductive stop (E : Type) := Finished (tail : bytes) | Failed (e : E) | Broken.
Arguments Finished {E}. Arguments Failed {E}. Arguments Broken {E}.

(** [to_writer] for each value (ser-write-msgpack/src/ser.rs:72-118), up to the first error. *)
Fixpoint mp_write_each {W E} (SW : SerWrite W E) (cfg : mp_cfg) (fl : flavour) (w : W) (l : list sval) : W * result unit (mp_ser_error E) :=
  match l with
  | [] => (w, Ok tt)
  | v :: l =>
    match mp_to_writer SW cfg fl w v with
    | (w, Ok _) => mp_write_each SW cfg fl w l
    | (w, Err e) => (w, Err e)
    end
  end.

(** [from_slice_split_tail] for each type on what the one before left, as in the test
    [test_de_streaming] (ser-write-msgpack/src/de.rs:1895-1922). *)
Fixpoint mp_read_each (ar : arch) (fo : float_ops) (fuel : nat) (ts : list ty) (input : bytes) : list val * stop mp_de_error :=
  match ts with
  | [] => ([], Finished input)
  | t :: ts =>
    match mp_from_slice_split_tail ar fo fuel (denote DeserializeError t) input with
    | Done _ (Ok (v, tail)) => let '(vs, e) := mp_read_each ar fo fuel ts tail in (v :: vs, e)
    | Done _ (Err e) => ([], Failed e)
    | _ => ([], Broken)
    end
  end.

(** [eat_message] while [remaining_len] is not 0, keeping how much each one took: the
    use of the public methods the documentation names (ser-write-msgpack/src/de.rs:177-182).
    [n] bounds the rounds, there are no more than bytes. *)
Fixpoint mp_split_each (ar : arch) (fuel n : nat) (s : mpde) : list Z * stop mp_de_error :=
  match n with
  | O => ([], Broken)
  | S n =>
    if remaining_len s =? 0 then ([], Finished [])
    else match eat_message ar fuel s with
    | Done s' (Ok _) => let '(ls, e) := mp_split_each ar fuel n s' in (remaining_len s - remaining_len s' :: ls, e)
    | Done _ (Err e) => ([], Failed e)
    | _ => ([], Broken)
    end
  end.

(** [to_writer] for each value, and a line feed after each one. *)
Fixpoint js_write_each {W E} (SW : SerWrite W E) (fp : float_printer) (enc : byte_encoder) (w : W) (l : list sval) : W * result unit (js_ser_error E) :=
  match l with
  | [] => (w, Ok tt)
  | v :: l =>
    match js_to_writer SW fp enc w v with
    | (w, Ok _) =>
      match sw_write_byte SW w 10 with
      | (w, Ok _) => js_write_each SW fp enc w l
      | (w, Err e) => (w, Err (JWriter e))
      end
    | (w, Err e) => (w, Err e)
    end
  end.

(** [T::deserialize(&mut de)] for each type on one [Deserializer], then [end]
    (ser-write-json/src/de.rs:37-47 with more than one type). *)
Fixpoint js_read_each (ar : arch) (fl : float_parser) (any_f32 : bool) (dec : byte_decoder) (fuel : nat) (ts : list ty) (s : jde)
  : list val * stop js_de_error :=
  match ts with
  | [] => match j_end s with Done s (Ok _) => ([], Finished []) | Done _ (Err e) => ([], Failed e) | _ => ([], Broken) end
  | t :: ts =>
    match jr_de (js_run ar fl any_f32 dec fuel) false (denote JDeserializeError t) s with
    | Done s (Ok v) => let '(vs, e) := js_read_each ar fl any_f32 dec fuel ts s in (v :: vs, e)
    | Done _ (Err e) => ([], Failed e)
    | _ => ([], Broken)
    end
  end.

(** Visitors that note every size hint (specification for C61). *)
From Verif Require Import Prelude SerdeDe Types.

Definition hint_val (h : option Z) : val := match h with Some n => USome (UInt n) | None => UNone end.

(** A sequence visitor that asks for the hint before each element and at the end. *)
CoFixpoint watch {E} (seed : deser val E) (acc : list val) : sprog val E :=
  SHint (fun h => SNext seed (fun r =>
    match r with
    | Ok (Some v) => watch seed (USeq [hint_val h; v] :: acc)
    | Ok None => SRet (Ok (USeq (rev (hint_val h :: acc))))
    | Err e => SRet (Err e)
    end)).
(** A map visitor that asks before each key, before each value and at the end. *)
CoFixpoint watch_map {E} (kseed vseed : deser val E) (acc : list val) : mprog val E :=
  MHint (fun h => MKey kseed (fun r =>
    match r with
    | Ok (Some k) => MHint (fun h' => MVal vseed (fun r =>
        match r with
        | Ok v => watch_map kseed vseed (USeq [hint_val h; k; hint_val h'; v] :: acc)
        | Err e => MRet (Err e)
        end))
    | Ok None => MRet (Ok (USeq (rev (hint_val h :: acc))))
    | Err e => MRet (Err e)
    end)).

(** The elements, each with the number of those left, itself included. *)
Fixpoint counted (l : list val) : list val :=
  match l with
  | [] => [hint_val (Some 0)]
  | v :: r => USeq [hint_val (Some (zlen (v :: r))); v] :: counted r
  end.
(** The entries: before the key the number of those left, before the value the number
    of those after it. *)
Fixpoint counted_map (l : list (val * val)) : list val :=
  match l with
  | [] => [hint_val (Some 0)]
  | (k, v) :: r => USeq [hint_val (Some (zlen ((k, v) :: r))); k; hint_val (Some (zlen r)); v] :: counted_map r
  end.
(** No hints. *)
Definition uncounted (l : list val) : list val := map (fun v => USeq [UNone; v]) l ++ [UNone].
Definition uncounted_map (l : list (val * val)) : list val := map (fun e => USeq [UNone; fst e; UNone; snd e]) l ++ [UNone].

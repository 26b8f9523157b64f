(** Specification of what a self-describing type finds in a JSON document: the value
    it stands for, with numbers told apart by their spelling. *)
From Verif Require Import Prelude Utf8Spec SerdeSer MpSpec Base64Spec JsonSpec Types MpTypeSpec JsonTypeSpec.

Section AnyAs.
(** Which float type a number with a fraction or an exponent becomes, and its value. *)
Context (any_f32 : bool) (float_of : bytes -> option Z).

Definition has_float_char (tok : bytes) : Prop := exists c, In c tok /\ (c = 46 \/ c = 101 \/ c = 69).
(** A token that begins with a digit or a minus sign. *)
Definition number_start (tok : bytes) : Prop := exists c r, tok = c :: r /\ (is_digit c \/ c = 45).

Inductive number_as : val -> bytes -> Prop :=
| N_float tok b : has_float_char tok -> number_start tok -> float_of tok = Some b ->
    number_as (if any_f32 then UF32 b else UF64 b) tok
| N_pos ds : digits ds -> dec_val ds < 2 ^ 64 -> number_as (UInt (dec_val ds)) ds
| N_neg ds : digits ds -> dec_val ds <= 2 ^ 63 -> number_as (UInt (- dec_val ds)) (45 :: ds).

Inductive any_as : val -> jv -> Prop :=
| A_null : any_as UUnit JNull
| A_bool b : any_as (UBool b) (JBool b)
| A_num v tok : number_as v tok -> any_as v (JNum tok)
| A_str s raw : literal raw s -> any_as (UStr s) (JStr raw)
| A_arr l ds : Forall2 any_as l ds -> any_as (USeq l) (JArr ds)
| A_obj l ms : Forall2 (fun e m => (exists s, fst e = UStr s /\ literal (fst m) s) /\ any_as (snd e) (snd m)) l ms ->
    any_as (UMap l) (JObj ms).
End AnyAs.

(** The same for a document whose strings are given by what they denote. *)
Section ValueAs.
Context (any_f32 : bool) (float_of : bytes -> option Z).
Inductive value_as : val -> jv -> Prop :=
| VA_null : value_as UUnit JNull
| VA_bool b : value_as (UBool b) (JBool b)
| VA_num v tok : number_as any_f32 float_of v tok -> value_as v (JNum tok)
| VA_str s : value_as (UStr s) (JStr s)
| VA_arr l ds : Forall2 value_as l ds -> value_as (USeq l) (JArr ds)
| VA_obj l ms : Forall2 (fun e m => fst e = UStr (fst m) /\ value_as (snd e) (snd m)) l ms -> value_as (UMap l) (JObj ms).
End ValueAs.

(** Every float in a call tree satisfies [p32] or [p64]. *)
Section AllFloats.
Variables p32 p64 : Z -> Prop.
Fixpoint all_floats (v : sval) : Prop :=
  match v with
  | SF32 b => p32 b
  | SF64 b => p64 b
  | SSome v | SNewtypeStruct v | SNewtypeVariant _ _ v => all_floats v
  | SSeq _ l | STuple _ l | STupleStruct _ l | STupleVariant _ _ _ l => all_list all_floats l
  | SMap _ l => all_list (fun o => all_floats (snd o)) l
  | SStruct _ fs | SStructVariant _ _ _ fs =>
      all_list (fun f => match snd f with Some x => all_floats x | None => True end) fs
  | _ => True
  end.
End AllFloats.

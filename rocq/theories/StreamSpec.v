(** Specification: JSON texts one after another, in one input (C64). *)
From Verif Require Import Prelude JsonSpec JsonTypeSpec Types.

(** [texts reads l input]: the input holds a text for each value of [l], with whitespace
    around them; nothing that could belong to a number follows one. *)
Inductive texts (reads : ty -> val -> jv -> Prop) : list (ty * val) -> bytes -> Prop :=
| Texts_end w : any_ws w -> texts reads [] w
| Texts_one w t v d text k l : any_ws w -> reads t v d -> loose_text d text -> cannot_extend d k -> texts reads l k ->
    texts reads ((t, v) :: l) (w ++ text ++ k).

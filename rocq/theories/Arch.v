(** The compilation target: [usize::MAX] and whether the build has overflow checks
    (debug builds panic on overflow, release builds wrap). *)
From Verif Require Import Prelude.
Record arch := { usize_max : Z; overflow_checks : bool }.

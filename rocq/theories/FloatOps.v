(** Float conversions of the Rust language ([as f32], [as f64]); a float is its
    bit pattern.  They are parameters: the theorems hold for any conversion. *)
From Verif Require Import Prelude.
Record float_ops := {
  int_to_f32 : Z -> Z;
  int_to_f64 : Z -> Z;
  f64_to_f32 : Z -> Z;
  f32_to_f64 : Z -> Z
}.

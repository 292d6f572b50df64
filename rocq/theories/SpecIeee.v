(** * The element type of Flocq's formalisation of IEEE 754 (rounding to nearest, ties to even) *)
From Coq Require Import ZArith Reals.
From Flocq Require Import Core BinarySingleNaN.
From Verif Require Import Numeric SpecReal.

Section Ieee.
Context (prec emax : Z) (Hp : Prec_gt_0 prec) (Hm : Prec_lt_emax prec emax).

Definition ieee_num (sz : bool) : num (binary_float prec emax) := {|
  n_zero := B754_zero false;
  n_one := Bone;
  o_add := fun a b => Some (Bplus mode_NE a b);
  o_sub := fun a b => Some (Bminus mode_NE a b);
  o_mul := fun a b => Some (Bmult mode_NE a b);
  o_neg := fun a => Some (Bopp a);
  o_recip := fun a => Some (Bdiv mode_NE Bone a);
  o_sqrt := fun a => Some (Bsqrt mode_NE a);
  n_le := Bleb;
  n_sum0 := B754_zero sz |}.
End Ieee.

(** * f32 and f64 as element types *)
From Coq Require Import Floats.SpecFloat.
From Verif Require Export Numeric.

(** matrix/data_type.rs:51-140: [MatrixDataType] for [f32] / [f64] with the features [std] or [libm]:
    the operations are the correctly rounded IEEE 754 ones (round to nearest even) as the standard library specifies
    them in SpecFloat.v, [recip] is the correctly rounded quotient 1/x and [square_root] the correctly rounded square
    root.  Simplifications: NaN has no payload, and the feature [micromath] (approximate reciprocal and square root for f32)
    is modelled in DataType.v.  [prec], [emax] are 24, 128 for f32 and 53, 1024 for f64; [sz] is the sign of the zero [Iterator::sum]
    starts from (+0.0 in older, -0.0 in newer Rust releases). *)
Definition sf_one (prec : Z) : spec_float := S754_finite false (Pos.pow 2 (Z.to_pos (prec - 1))) (1 - prec).

Definition sf_num (prec emax : Z) (sz : bool) : num spec_float := {|
  n_zero := S754_zero false;
  n_one := sf_one prec;
  o_add := fun a b => Some (SFadd prec emax a b);
  o_sub := fun a b => Some (SFsub prec emax a b);
  o_mul := fun a b => Some (SFmul prec emax a b);
  o_neg := fun a => Some (SFopp a);
  o_recip := fun a => Some (SFdiv prec emax (sf_one prec) a);
  o_sqrt := fun a => Some (SFsqrt prec emax a);
  n_le := SFleb;
  n_sum0 := S754_zero sz |}.

Definition f32_num : bool -> num spec_float := sf_num 24 128.
Definition f64_num : bool -> num spec_float := sf_num 53 1024.

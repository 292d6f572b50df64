(** * Which implementation of [recip] and [square_root] a set of Cargo features selects *)
From Coq Require Import ZArith List Bool Floats.SpecFloat.
From Verif Require Import Numeric FloatNum.
Import ListNotations.

(** Cargo.toml:[features]: the features that matter to the arithmetic of f32 / f64 *)
Record features : Set := { ft_std : bool; ft_libm : bool; ft_micromath : bool }.
(** the blocks in the bodies of [recip] and [square_root] *)
Inductive arm : Set := ArmStd | ArmLibm | ArmMicromath.

(** matrix/data_type.rs:55-68, 72-83 (f32), 90-102, 106-118 (f64): the [#[cfg]] attribute of each block *)
Definition arms (f : features) : list arm :=
  (if ft_std f then [ArmStd] else []) ++
  (if ft_libm f && negb (ft_std f || ft_micromath f) then [ArmLibm] else []) ++
  (if ft_micromath f && negb (ft_std f || ft_libm f) then [ArmMicromath] else []).
(** matrix/data_type.rs:52, 87: the [#[cfg]] attribute of the two [impl] blocks *)
Definition impl_present (f : features) : bool := ft_std f || ft_libm f || ft_micromath f.
(** A function body of such blocks is well typed if exactly one block is left: with none it has type (), and a block that is not the
    last one would have to have type ().  [None]: the [impl] is there but does not compile.  [Some None]: f32 / f64 are no element types. *)
Definition selected (f : features) : option (option arm) :=
  if impl_present f then match arms f with [a] => Some (Some a) | _ => None end else Some None.

(** the cast [self as f32] of an f64: round to nearest even, overflow to infinity *)
Definition as_f32 (x : spec_float) : spec_float :=
  match x with
  | S754_finite s m e => binary_normalize 24 128 (if s then Zneg m else Zpos m) e s
  | _ => x
  end.
(** the cast [as f64] of an f32, which is exact: the same number, with the exponent and the mantissa of the wider format *)
Definition as_f64 (x : spec_float) : spec_float :=
  match x with
  | S754_finite s m e => binary_normalize 53 1024 (if s then Zneg m else Zpos m) e s
  | _ => x
  end.

(** matrix/data_type.rs:99-118: f64 with the feature [micromath] only.  The reciprocal is the division 1.0 / x; the square root is computed in
    single precision by [q] = micromath::F32Ext::sqrt, a routine of another crate about which nothing is assumed. *)
Definition micro_sqrt (q : spec_float -> spec_float) (x : spec_float) : spec_float := as_f64 (q (as_f32 x)).
Definition micro64_num (q : spec_float -> spec_float) (sz : bool) : num spec_float := {|
  n_zero := n_zero (f64_num sz);
  n_one := n_one (f64_num sz);
  o_add := o_add (f64_num sz);
  o_sub := o_sub (f64_num sz);
  o_mul := o_mul (f64_num sz);
  o_neg := o_neg (f64_num sz);
  o_recip := o_recip (f64_num sz);
  o_sqrt := fun a => Some (micro_sqrt q a);
  n_le := n_le (f64_num sz);
  n_sum0 := n_sum0 (f64_num sz) |}.

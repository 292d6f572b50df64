(** * Fixed-point numbers as element types *)
From Coq Require Import ZArith.
From Verif Require Export Numeric.
Open Scope Z_scope.

(** matrix/data_type.rs:122-148: [MatrixDataType] for [fixed::types::I16F16] and [fixed::types::I32F32].
    A number is its two's complement bit pattern read as an integer, [z] standing for z / 2^frac.  The operations are those of
    the crate [fixed] (1.x), which is not part of /repo; assumed of it, from its documentation:
    - [+], [-], unary [-] are the integer ones: on overflow they panic when overflow checks are on ([oc]) and wrap otherwise;
    - [*] is the exact product rounded down, [recip] the exact quotient 1/x rounded towards zero; when the result does not
      fit they panic when debug assertions are on ([da]) and wrap otherwise; [recip] of zero always panics;
    - [sqrt] is the exact root rounded down, and panics for negative arguments;
    - [Iterator::sum] starts from zero.
    [data_type.rs]'s [self.recip()] and [self.sqrt()] are these inherent methods of the crate. *)
Definition fx_min (bits : Z) : Z := - 2 ^ (bits - 1).
Definition fx_max (bits : Z) : Z := 2 ^ (bits - 1) - 1.
Definition fx_fits (bits z : Z) : bool := (fx_min bits <=? z) && (z <=? fx_max bits).
Definition fx_wrap (bits z : Z) : Z := (z - fx_min bits) mod 2 ^ bits + fx_min bits.
(** deliver [z], or panic / wrap *)
Definition fx_res (bits : Z) (check : bool) (z : Z) : option Z :=
  if fx_fits bits z then Some z else if check then None else Some (fx_wrap bits z).

(** matrix/data_type.rs:122-148 *)
Definition fx_num (bits frac : Z) (oc da : bool) : num Z := {|
  n_zero := 0;
  n_one := 2 ^ frac;
  o_add := fun a b => fx_res bits oc (a + b);
  o_sub := fun a b => fx_res bits oc (a - b);
  o_mul := fun a b => fx_res bits da (a * b / 2 ^ frac);
  o_neg := fun a => fx_res bits oc (- a);
  o_recip := fun a => if a =? 0 then None else fx_res bits da (Z.quot (2 ^ frac * 2 ^ frac) a);
  o_sqrt := fun a => if a <? 0 then None else Some (Z.sqrt (a * 2 ^ frac));
  n_le := Z.leb;
  n_sum0 := 0 |}.

(** matrix/data_type.rs:122-134, 136-148 *)
Definition i16f16_num : bool -> bool -> num Z := fx_num 32 16.
Definition i32f32_num : bool -> bool -> num Z := fx_num 64 32.

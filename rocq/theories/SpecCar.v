(** * Vocabulary: readings near a table, and how the final estimate of examples/car_1d.rs depends on them *)
From Coq Require Import Reals.
From Verif Require Export SpecRange SpecFloats.
Local Open Scope R_scope.

(** how far reading k is from the k-th number of a table *)
Definition off (table l : list spec_float) (k : nat) : R := val (nth k l (S754_zero false)) - val (nth k table (S754_zero false)).
(** the readings with an even index are finite f32 numbers at most [w] away from the table's; the others can be anything, even NaN *)
Definition even_readings_near (table : list spec_float) (w : R) (l : list spec_float) : Prop :=
  length l = length table /\
  forall k, (k < length table)%nat -> Nat.even k = true ->
    in_format 24 128 (nth k l (S754_zero false)) /\ sf_finite (nth k l (S754_zero false)) = true /\ Rabs (off table l k) <= w.
(** a sum over the readings 0, 2, 4, 6, 8 of how far they are off *)
Definition weighted (d : nat -> R) (a0 a2 a4 a6 a8 : R) : R := a0 * d 0%nat + a2 * d 2%nat + a4 * d 4%nat + a6 * d 6%nat + a8 * d 8%nat.

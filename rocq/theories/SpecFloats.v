(** * Vocabulary for the floating-point properties *)
From Coq Require Export Floats.SpecFloat.
From Verif Require Export Spec FloatNum.

(** the number m * 2^e in f32 / f64 (correctly rounded) *)
Definition f32 (m e : Z) : spec_float := binary_normalize 24 128 m e false.
Definition f64 (m e : Z) : spec_float := binary_normalize 53 1024 m e false.

(** neither infinite nor NaN *)
Definition sf_finite (x : spec_float) : bool := match x with S754_zero _ | S754_finite _ _ _ => true | _ => false end.
Definition sf_nan (x : spec_float) : bool := match x with S754_nan => true | _ => false end.
(** 0 < x, x < 0 *)
Definition sf_pos (x : spec_float) : bool := SFltb (S754_zero false) x.
Definition sf_neg (x : spec_float) : bool := SFltb x (S754_zero false).

(** a bitwise symmetric n x n matrix *)
Definition sf_sym (n : nat) (l : list spec_float) : Prop := forall i j, i < n -> j < n -> cell n l i j = cell n l j i.
Definition all_finite (l : list spec_float) : Prop := forallb sf_finite l = true.

(** the innovation variance H*P*H' + R of a single-component measurement, in the element type's own arithmetic *)
Definition scalar_S {T} (N : num T) (n : nat) (H P R : list T) : option T :=
  obind (dot N n (fun k => dot N n (fun l => cell n H 0 l) (fun l => cell n P l k)) (fun k => cell n H 0 k))
    (fun t => obind (cell 1 R 0 0) (fun r => o_add N t r)).

(** * Vocabulary: how well conditioned a positive definite matrix must be for its fixed-point Cholesky factor to exist *)
From Coq Require Import Reals Qreals.
From Verif Require Export SpecFixedRange SpecFixedFactor SpecReal SpecSolve.
Open Scope R_scope.

(** the real number in a cell; the symmetric matrix given by the upper triangle of [A] (the decomposition reads nothing else) *)
Definition fcell (frac : Z) (C : nat) (l : list Z) (i j : nat) : R := Q2R (qcell frac C l i j).
Definition fx_upper_sym (frac : Z) (n : nat) (A : list Z) (i j : nat) : R := fcell frac n A (Nat.min i j) (Nat.max i j).
(** the distance of neighbouring numbers, and the smallest number too large for the type *)
Definition fx_w (frac : Z) : R := Q2R (ulp frac).
Definition fx_limit (bits frac : Z) : R := Q2R (fx_top bits frac).
(** a bound for the squared rows of the factor of a matrix with entries up to sig, and for the error of each entry of L L' *)
Definition fx_tau (frac : Z) (n : nat) (sig : R) : R := sig + INR n * fx_w frac.
Definition fx_eps (frac : Z) (n : nat) (sig : R) : R := (INR n + (1 + fx_tau frac n sig) ^ 2) * fx_w frac.
(** the smallest eigenvalue is well above the rounding errors, and neither comes near the end of the range *)
Definition fx_ch_ready (bits frac : Z) (n : nat) (sig lam : R) : Prop :=
  0 < lam /\ 2 * (INR n + 1) * fx_eps frac n sig <= lam /\ 2 * (1 + fx_tau frac n sig) * (1 + 2 / lam) < fx_limit bits frac.

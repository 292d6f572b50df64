(** * Vocabulary: how well conditioned a positive definite matrix must be for its floating-point Cholesky factor to exist *)
From Flocq Require Import Core BinarySingleNaN.
From Verif Require Export SpecRange.
Open Scope R_scope.

(** the symmetric matrix given by the upper triangle of [A] (the decomposition reads nothing else) *)
Definition upper_sym (n : nat) (A : list spec_float) (i j : nat) : R := rcell n A (Nat.min i j) (Nat.max i j).
(** v' a v, and: no eigenvalue of [a] is below [lam] *)
Definition quad (n : nat) (a : nat -> nat -> R) (v : nat -> R) : R := rsum n (fun i => rsum n (fun j => a i j * v i * v j)).
Definition eig_above (n : nat) (a : nat -> nat -> R) (lam : R) : Prop := forall v, lam * rsum n (fun i => v i * v i) <= quad n a v.

(** the accumulated relative error of one entry, its underflow part, a bound for the squared rows of the factor, and for the underflow in an equation *)
Definition ch_gam (prec : Z) (n : nat) : R := (1 + uro prec) ^ (n + 3) - 1.
Definition ch_h (prec emax : Z) (n : nat) : R := (1 + uro prec) ^ n * eta prec emax.
Definition ch_tau (prec emax : Z) (n : nat) (sig : R) : R := 2 * (sig + ch_h prec emax n * (INR n + 1)).
Definition ch_eps (prec emax : Z) (n : nat) (sig : R) : R := ch_h prec emax n * (INR n + 1 + ch_tau prec emax n sig).
(** diagonal at most [sig], eigenvalues at least [lam]: the ratio is well above the rounding error, and neither comes near the overflow threshold *)
Definition ch_ready (prec emax : Z) (n : nat) (sig lam : R) : Prop :=
  0 < lam /\ ch_gam prec n + ch_h prec emax n <= / 2 /\
  8 * INR n * ch_gam prec n * ch_tau prec emax n sig + 4 * (INR n + 1) * ch_eps prec emax n sig <= lam /\
  16 * (1 + ch_tau prec emax n sig) * (1 + 16 / lam) < too_big emax.

(** the same for the inverse: no overflow in the substitutions, and underflow errors negligible *)
Definition inv_ready (prec emax : Z) (n : nat) (sig lam : R) : Prop :=
  ch_ready prec emax n sig lam /\ 4 * INR n * ch_eps prec emax n sig * (1 + lam) <= 1 /\
  1024 * (1 + INR n * ch_tau prec emax n sig) * (1 + / lam) ^ 3 < too_big emax.
(** a bound for the squared error of the two substitutions *)
Definition sub_err2 (prec emax : Z) (n : nat) (sig lam : R) : R :=
  let g := ch_gam prec n in let d := ch_eps prec emax n sig in
  256 * (g * g) * INR n * ch_tau prec emax n sig / lam ^ 3 + 8 * INR n * (d * d) * (2 / lam + 1) / lam.
(** a bound for the error of an entry of the inverse of a matrix that differs by at most [d] (per entry) from the one the factor stands for *)
Definition inv_err (prec emax : Z) (n : nat) (sig lam d : R) : R := sqrt (sub_err2 prec emax n sig lam) + 2 * INR n * d / lam ^ 2.
(** [W] is the inverse of [a] *)
Definition inverse_of (n : nat) (a W : nat -> nat -> R) : Prop :=
  forall i j, (i < n)%nat -> (j < n)%nat -> rsum n (fun k => a i k * W k j) = if Nat.eqb i j then 1 else 0.

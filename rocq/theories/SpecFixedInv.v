(** * Vocabulary: how accurate the inverse of a well-conditioned fixed-point matrix is *)
From Coq Require Import Reals.
From Verif Require Export SpecFixedSolve.
Open Scope R_scope.

(** each equation of the two triangular systems is met up to [fx_rho] (1 + the magnitude of the unknown it determines) *)
Definition fx_rho (frac : Z) (n : nat) (sig : R) : R := (INR n + 1 + 3 * fx_tau frac n sig) * fx_w frac.
(** the factor exists ([fx_ch_ready]), these errors are small against 1 and against the smallest eigenvalue, and the sums stay within the range *)
Definition fx_inv_ready (bits frac : Z) (n : nat) (sig lam : R) : Prop :=
  fx_ch_ready bits frac n sig lam /\ 4 * INR n * fx_rho frac n sig <= 1 /\ 4 * INR n * fx_rho frac n sig <= lam /\
  2 * (1 + INR n * fx_tau frac n sig) + 9 / lam + 36 / lam ^ 2 < fx_limit bits frac.
(** the error of an entry of the inverse of a matrix that differs by at most [d] (per entry) from the product L L' the factor stands for *)
Definition fx_inv_err (frac : Z) (n : nat) (sig lam d : R) : R :=
  fx_rho frac n sig * sqrt (8 * (INR n + 1) / lam + 16 * INR n / lam ^ 2 + 720 / lam ^ 3) + 2 * INR n * d / lam ^ 2.

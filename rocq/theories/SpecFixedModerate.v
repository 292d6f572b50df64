(** * Vocabulary: simple conditions for a fixed-point correction *)
From Coq Require Import Reals.
From Verif Require Export SpecFixedCorrect.
Open Scope R_scope.

(** B bounds the sizes, the row sums of |H| and the entries of P, R and x, no eigenvalue of the innovation covariance is below 2 lam, lam is well above the rounding errors,
    and B^6 / lam^2 is well below the end of the range *)
Definition fc_moderate (bits frac : Z) (n m : nat) (B lam : R) (H P Rm : nat -> nat -> R) (x : nat -> R) : Prop :=
  INR n <= B /\ INR m <= B /\ (forall i, (i < m)%nat -> rsum n (fun l => Rabs (H i l)) <= B) /\
  (forall i j, (i < n)%nat -> (j < n)%nat -> Rabs (P i j) <= B) /\ (forall i j, (i < m)%nat -> (j < m)%nat -> Rabs (Rm i j) <= B) /\ (forall i, (i < n)%nat -> Rabs (x i) <= B) /\
  eig_above m (upper_of (inn_cov n H P Rm)) (2 * lam) /\ 128 * B ^ 7 * fx_w frac <= lam <= 1 /\ 64 * B ^ 6 / lam ^ 2 < fx_limit bits frac.

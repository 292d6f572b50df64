(** * Vocabulary: a correction with several measured components against the exact one *)
From Flocq Require Import Core BinarySingleNaN.
From Verif Require Export SpecSolve.
Open Scope R_scope.

(** the exact update: S = H P H' + R; the matrix whose upper triangle is that of S (S itself if P and R are symmetric), W its inverse;
    K = (P H') W, y = z - H x, x' = x + K y, P' = P - K (H P) *)
Definition inn_cov (n : nat) (H P Rm : nat -> nat -> R) (i j : nat) : R := Rm i j + rsum n (fun k => rsum n (fun l => H i l * P l k) * H j k).
Definition upper_of (a : nat -> nat -> R) (i j : nat) : R := a (Nat.min i j) (Nat.max i j).
Definition gain_of (n m : nat) (H P W : nat -> nat -> R) (i j : nat) : R := rsum m (fun p => rsum n (fun l => P i l * H p l) * W p j).
Definition innov_of (n : nat) (z : nat -> R) (H : nat -> nat -> R) (x : nat -> R) (i : nat) : R := z i - rsum n (fun l => H i l * x l).
Definition corr_x (m : nat) (K : nat -> nat -> R) (y x : nat -> R) (i : nat) : R := x i + rsum m (fun p => K i p * y p).
Definition corr_P (n m : nat) (K H P : nat -> nat -> R) (i j : nat) : R := P i j - rsum m (fun p => K i p * rsum n (fun l => H p l * P l j)).

(** bounds on the data: the row sums of |H|, the entries of P, R, x and z; and how small the eigenvalues of S may be *)
Record corr_data : Type := mk_corr { cd_rho : R; cd_p : R; cd_r : R; cd_x : R; cd_z : R; cd_lam : R }.

Section Bounds.
Variables (prec emax : Z) (n m : nat) (D : corr_data).
Notation u := (uro prec). Notation e := (eta prec emax).
(** the innovation covariance: error and size *)
Definition s_err : R := ((1 + u) ^ (n + n + 1) - 1) * (cd_r D + cd_rho D * cd_p D * cd_rho D) + (1 + u) ^ (n + n + 1) * e * (INR n * cd_rho D + INR n).
Definition s_top : R := (1 + u) ^ (n + n + 1) * (cd_r D + cd_rho D * cd_p D * cd_rho D + (INR n * cd_rho D + INR n) * e).
(** the error of its inverse *)
Definition w_err : R := inv_err prec emax m s_top (cd_lam D) (s_err + (ch_gam prec m * ch_tau prec emax m s_top + ch_eps prec emax m s_top)).
(** the innovation *)
Definition y_err : R := ((1 + u) ^ (n + 1) - 1) * (cd_z D + cd_rho D * cd_x D) + (1 + u) ^ (n + 1) * e * INR n.
Definition y_top : R := (1 + u) ^ (n + 1) * (cd_z D + cd_rho D * cd_x D + INR n * e).
(** the gain *)
Definition k_sum : R := INR m * (cd_p D * cd_rho D * (5 / cd_lam D)).
Definition k_inv : R := INR m * (5 / cd_lam D).
Definition k_top : R := (1 + u) ^ (n + m + 1) * (0 + k_sum + (INR n * k_inv + INR m) * e).
Definition k_err : R := ((1 + u) ^ (n + m + 1) - 1) * (0 + k_sum) + (1 + u) ^ (n + m + 1) * e * (INR n * k_inv + INR m) + INR m * (cd_p D * cd_rho D * w_err).
Definition k_exact : R := INR m * (cd_p D * cd_rho D * / cd_lam D).
(** the state and the covariance *)
Definition x_err : R := ((1 + u) ^ (m + 1) - 1) * (cd_x D + INR m * (k_top * y_top)) + (1 + u) ^ (m + 1) * e * INR m + INR m * (k_err * y_top + k_exact * y_err).
Definition P_err : R := ((1 + u) ^ (n + m + 1) - 1) * (cd_p D + INR m * (cd_rho D * cd_p D * k_top)) + (1 + u) ^ (n + m + 1) * e * (INR n * (INR m * k_top) + INR m)
  + INR m * (k_err * (cd_rho D * cd_p D)).
(** no intermediate result comes near the overflow threshold, and the eigenvalues are large enough for the Cholesky decomposition and the inverse *)
Definition corr_ready : Prop :=
  inv_ready prec emax m s_top (cd_lam D) /\
  s_top < too_big emax /\ (1 + u) ^ n * (cd_rho D * cd_p D + INR n * e) < too_big emax /\ y_top < too_big emax /\ k_top < too_big emax /\
  (1 + u) ^ (m + 1) * (cd_x D + INR m * (k_top * y_top) + INR m * e) < too_big emax /\
  (1 + u) ^ (n + m + 1) * (cd_p D + INR m * (cd_rho D * cd_p D * k_top) + (INR n * (INR m * k_top) + INR m) * e) < too_big emax.
End Bounds.

(** the data of a correction are within the bounds, finite, and the innovation covariance has no eigenvalue below lam plus its rounding error *)
Definition within (prec emax : Z) (n m : nat) (D : corr_data) (H P Rm : nat -> nat -> R) (x z : nat -> R) : Prop :=
  (forall i, (i < m)%nat -> rsum n (fun l => Rabs (H i l)) <= cd_rho D) /\ (forall i j, (i < n)%nat -> (j < n)%nat -> Rabs (P i j) <= cd_p D) /\
  (forall i j, (i < m)%nat -> (j < m)%nat -> Rabs (Rm i j) <= cd_r D) /\ (forall i, (i < n)%nat -> Rabs (x i) <= cd_x D) /\ (forall i, (i < m)%nat -> Rabs (z i) <= cd_z D) /\
  eig_above m (upper_of (inn_cov n H P Rm)) (cd_lam D + INR m * s_err prec emax n D).

(** the same in simple numbers: B bounds the sizes and all the data, no eigenvalue of S is below 2 lam, lam is well above the rounding errors, and B^6 / lam^3 well below the threshold *)
Definition moderate (prec emax : Z) (n m : nat) (B lam : R) (H P Rm : nat -> nat -> R) (x z : nat -> R) : Prop :=
  INR n <= B /\ INR m <= B /\ (forall i, (i < m)%nat -> rsum n (fun l => Rabs (H i l)) <= B) /\
  (forall i j, (i < n)%nat -> (j < n)%nat -> Rabs (P i j) <= B) /\ (forall i j, (i < m)%nat -> (j < m)%nat -> Rabs (Rm i j) <= B) /\
  (forall i, (i < n)%nat -> Rabs (x i) <= B) /\ (forall i, (i < m)%nat -> Rabs (z i) <= B) /\
  eig_above m (upper_of (inn_cov n H P Rm)) (2 * lam) /\ 2048 * B ^ 5 * uro prec <= lam <= 1 /\ 262144 * B ^ 6 / lam ^ 3 < too_big emax.

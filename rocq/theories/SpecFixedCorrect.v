(** * Vocabulary: a fixed-point correction with several measured components against the exact one *)
From Coq Require Import Reals.
From Verif Require Export SpecFixedInv SpecCorrect.
Open Scope R_scope.

(** [cd_rho], [cd_p], [cd_r], [cd_x], [cd_z] bound the row sums of |H| and the entries of P, R, x and z; [cd_lam] the eigenvalues of S from below (SpecCorrect.v) *)
Section Bounds.
Variables (bits frac : Z) (n m : nat) (D : corr_data).
Notation w := (fx_w frac).
(** the innovation covariance: error and size *)
Definition fc_s_err : R := INR n * w * (1 + cd_rho D).
Definition fc_s_top : R := cd_r D + cd_rho D * cd_p D * cd_rho D + fc_s_err.
(** its inverse *)
Definition fc_w_err : R := fx_inv_err frac m fc_s_top (cd_lam D) (fc_s_err + fx_eps frac m fc_s_top).
Definition fc_si_top : R := / cd_lam D + fc_w_err.
(** the innovation *)
Definition fc_y_err : R := INR n * w.
Definition fc_y_top : R := cd_z D + cd_rho D * cd_x D + fc_y_err.
(** the gain *)
Definition fc_k_err : R := INR m * (w + INR n * w * fc_si_top + cd_p D * cd_rho D * fc_w_err).
Definition fc_k_top : R := k_exact m D + fc_k_err.
(** the state and the covariance *)
Definition fc_x_err_y (y_top y_err : R) : R := INR m * (w + fc_k_err * y_top + k_exact m D * y_err).
Definition fc_x_err : R := fc_x_err_y fc_y_top fc_y_err.
Definition fc_P_err : R := INR m * (w + fc_k_err * (cd_rho D * cd_p D) + fc_k_top * (INR n * w)).
(** nothing reaches the end of the range, and the eigenvalues are large enough for the Cholesky decomposition and the inverse;
    y_top bounds the innovation *)
Definition fc_ready_y (y_top : R) : Prop :=
  fx_inv_ready bits frac m fc_s_top (cd_lam D) /\
  fc_s_top < fx_limit bits frac /\ cd_rho D * cd_p D + INR n * w < fx_limit bits frac /\ y_top < fx_limit bits frac /\
  INR m * ((cd_p D * cd_rho D + INR n * w) * fc_si_top + w) < fx_limit bits frac /\
  cd_x D + INR m * (fc_k_top * y_top + w) < fx_limit bits frac /\
  cd_p D + INR m * (fc_k_top * (cd_rho D * cd_p D + INR n * w) + w) < fx_limit bits frac.
Definition fc_ready : Prop := fc_ready_y fc_y_top.
End Bounds.

(** model, covariance and state are within the bounds, and the innovation covariance has no eigenvalue below lam plus its rounding error *)
Definition fc_model (frac : Z) (n m : nat) (D : corr_data) (H P Rm : nat -> nat -> R) (x : nat -> R) : Prop :=
  (forall i, (i < m)%nat -> rsum n (fun l => Rabs (H i l)) <= cd_rho D) /\ (forall i j, (i < n)%nat -> (j < n)%nat -> Rabs (P i j) <= cd_p D) /\
  (forall i j, (i < m)%nat -> (j < m)%nat -> Rabs (Rm i j) <= cd_r D) /\ (forall i, (i < n)%nat -> Rabs (x i) <= cd_x D) /\
  eig_above m (upper_of (inn_cov n H P Rm)) (cd_lam D + INR m * fc_s_err frac n D).
(** and so is the measurement *)
Definition fc_within (frac : Z) (n m : nat) (D : corr_data) (H P Rm : nat -> nat -> R) (x z : nat -> R) : Prop :=
  fc_model frac n m D H P Rm x /\ (forall i, (i < m)%nat -> Rabs (z i) <= cd_z D).

(** * static_macros.rs: buffers declared by the [impl_buffer_*!] macros

    A macro declares a buffer type wrapping [MatrixDataArray<ROWS, COLS, { ROWS * COLS }>], initialised by
    [MatrixDataArray::new_unchecked([init; { ROWS * COLS }])].  The product is evaluated at compile time, where overflow is an error
    in every build; that the program does not compile is modelled as [Panic UsizeOverflow].  The binding form ([let], [let mut],
    [static], [static mut]) does not matter. *)
From Verif Require Export Storage Filter.

Section Static.
Context {T : Type} (c : cfg).

(** [{ a * b }] in a const context *)
Definition const_mul (a b : nat) : res nat := if a * b <=? usize_max c then Ok (a * b) else Panic UsizeOverflow.
(** the expansion common to all macros, e.g. static_macros.rs:63-75 *)
Definition static_buffer (ROWS COLS : nat) (init : T) : res (list T) :=
  total <- const_mul ROWS COLS ;;
  array_new_unchecked ROWS COLS (repeat init total).

Definition impl_buffer_x (num_states : nat) := static_buffer num_states 1.                       (* static_macros.rs:44-76 *)
Definition impl_buffer_A (num_states : nat) := static_buffer num_states num_states.              (* static_macros.rs:128-160 *)
Definition impl_buffer_P (num_states : nat) := static_buffer num_states num_states.              (* static_macros.rs:192-224 *)
Definition impl_buffer_Q_direct (num_states : nat) := static_buffer num_states num_states.       (* static_macros.rs:256-288 *)
Definition impl_buffer_u (num_controls : nat) := static_buffer num_controls 1.                   (* static_macros.rs:320-352 *)
Definition impl_buffer_B (num_states num_controls : nat) := static_buffer num_states num_controls.          (* static_macros.rs:386-420 *)
Definition impl_buffer_Q_control (num_controls : nat) := static_buffer num_controls num_controls.           (* static_macros.rs:453-485 *)
Definition impl_buffer_z (num_measurements : nat) := static_buffer num_measurements 1.           (* static_macros.rs:511-543 *)
Definition impl_buffer_H (num_measurements num_states : nat) := static_buffer num_measurements num_states.  (* static_macros.rs:586-630 *)
Definition impl_buffer_R (num_measurements : nat) := static_buffer num_measurements num_measurements.       (* static_macros.rs:664-706 *)
Definition impl_buffer_y (num_measurements : nat) := static_buffer num_measurements 1.           (* static_macros.rs:742-774 *)
Definition impl_buffer_S (num_measurements : nat) := static_buffer num_measurements num_measurements.       (* static_macros.rs:807-849 *)
Definition impl_buffer_K (num_states num_measurements : nat) := static_buffer num_states num_measurements.  (* static_macros.rs:885-929 *)
Definition impl_buffer_temp_x (num_states : nat) := static_buffer num_states 1.                  (* static_macros.rs:955-987 *)
Definition impl_buffer_temp_P (num_states : nat) := static_buffer num_states num_states.         (* static_macros.rs:1014-1046 *)
Definition impl_buffer_temp_BQ (num_states num_controls : nat) := static_buffer num_states num_controls.    (* static_macros.rs:1082-1116 *)
Definition impl_buffer_temp_S_inv (num_measurements : nat) := static_buffer num_measurements num_measurements. (* static_macros.rs:1151-1193 *)
Definition impl_buffer_temp_HP (num_measurements num_states : nat) := static_buffer num_measurements num_states. (* static_macros.rs:1230-1274 *)
Definition impl_buffer_temp_PHt (num_states num_measurements : nat) := static_buffer num_states num_measurements. (* static_macros.rs:1311-1355 *)
Definition impl_buffer_temp_KHP (num_states : nat) := static_buffer num_states num_states.       (* static_macros.rs:1389-1421 *)

(** Assembling objects from such buffers: [RegularKalmanBuilder::new(A, x, P, Q, predicted_x, temp_P)], kalman/regular.rs:61-87
    (kalman/extended.rs:61-87 is the same) *)
Definition static_filter (num_states : nat) (init : T) : res (kalman T) :=
  x <- impl_buffer_x num_states init ;;
  A <- impl_buffer_A num_states init ;;
  P <- impl_buffer_P num_states init ;;
  Q <- impl_buffer_Q_direct num_states init ;;
  px <- impl_buffer_temp_x num_states init ;;
  tP <- impl_buffer_temp_P num_states init ;;
  Ok (mk_kalman A x P Q px tP).

(** [ControlBuilder::new(B, u, Q, temp_BQ)], controls.rs:27-47 *)
Definition static_control (num_states num_controls : nat) (init : T) : res (control T) :=
  u <- impl_buffer_u num_controls init ;;
  B <- impl_buffer_B num_states num_controls init ;;
  Q <- impl_buffer_Q_control num_controls init ;;
  BQ <- impl_buffer_temp_BQ num_states num_controls init ;;
  Ok (mk_ctl B u Q BQ).

(** [RegularObservationBuilder::new(H, z, R, y, S, K, temp_S_inv, temp_HP, temp_PHt, temp_KHP)], observations/regular.rs:82-134
    (observations/extended.rs:82-134 is the same) *)
Definition static_observation (num_states num_measurements : nat) (init : T) : res (observation T) :=
  z <- impl_buffer_z num_measurements init ;;
  H <- impl_buffer_H num_measurements num_states init ;;
  R <- impl_buffer_R num_measurements init ;;
  y <- impl_buffer_y num_measurements init ;;
  Sm <- impl_buffer_S num_measurements init ;;
  K <- impl_buffer_K num_states num_measurements init ;;
  Sinv <- impl_buffer_temp_S_inv num_measurements init ;;
  HP <- impl_buffer_temp_HP num_measurements num_states init ;;
  PHt <- impl_buffer_temp_PHt num_states num_measurements init ;;
  KHP <- impl_buffer_temp_KHP num_states init ;;
  Ok (mk_obs H z R y Sm K Sinv HP PHt KHP).
End Static.

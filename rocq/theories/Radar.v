(** * examples/radar_2d.rs: an object with constant velocity seen by a radar, tracked by the extended filter

    Modelled: [main] (16-160) with the random draws as an argument.  [print_state] (168-196), which only reads, is not modelled.
    The example's own closures use operations outside [MatrixDataType]; [maths] collects them.  None of them panics for f32. *)
From Coq Require Import ZArith.
From Verif Require Export Builder Extended.

(** the operations of examples/radar_2d.rs on f32: the element type, literals p / q and [step as f32] (p = step, q = 1), division,
    [powi], [sqrt] and [atan2] (y first).  Rust leaves the accuracy of [powi] and [atan2] open, so nothing is assumed about them here. *)
Record maths (T : Type) : Type := mk_maths {
  ma_num : num T;
  ma_lit : Z -> Z -> T;
  ma_div : T -> T -> T;
  ma_powi : T -> nat -> T;
  ma_root : T -> T;
  ma_atan2 : T -> T -> T }.
Arguments mk_maths {T}. Arguments ma_num {T}. Arguments ma_lit {T}. Arguments ma_div {T}. Arguments ma_powi {T}. Arguments ma_root {T}. Arguments ma_atan2 {T}.

Section Radar.
Context {T : Type} (c : cfg) (M : maths T).
Notation N := (ma_num M).
Notation L := (ma_lit M).

(** examples/radar_2d.rs:23 [DELTA_T], 29-30 [rx], [ry] *)
Definition delta_t : T := L 1 10.
Definition radar_x : T := L 2 1.
Definition radar_y : T := L 1 1.

(** examples/radar_2d.rs:33-38: the initial state *)
Definition radar_initial_state (x : list T) : res (list T) :=
  x <- set_row c x 0 (L 0 1) ;; x <- set_row c x 1 (L 0 1) ;; x <- set_row c x 2 (L 1 2) ;; set_row c x 3 (L 2 1).
(** examples/radar_2d.rs:47-51: the measurement noise covariance *)
Definition radar_noise_covariance (r : list T) : res (list T) :=
  r <- set_at c 3 r 0 0 (L 1 2) ;; r <- set_at c 3 r 1 1 (L 1 10) ;; set_at c 3 r 2 2 (L 1 5).
(** examples/radar_2d.rs:17-51: build and fill in *)
Definition radar_setup : res (kalman T * observation T) :=
  f <- build_filter c (n_zero N) 4 ;; o <- build_observation c (n_zero N) 4 3 ;;
  x <- radar_initial_state (kf_x f) ;;
  p <- make_identity c N 4 (kf_P f) ;;
  q <- make_scalar c N 4 (L 1 10) (kf_Q f) ;;
  r <- radar_noise_covariance (ob_R o) ;;
  Ok (mk_kalman (kf_A f) x p q (kf_px f) (kf_tP f), mk_obs (ob_H o) (ob_z o) r (ob_y o) (ob_S o) (ob_K o) (ob_Sinv o) (ob_HP o) (ob_PHt o) (ob_KHP o)).

(** examples/radar_2d.rs:58-62: the transition Jacobian *)
Definition radar_transition_jacobian (mat : list T) : res (list T) :=
  mat <- make_identity c N 4 mat ;; mat <- set_at c 4 mat 0 2 delta_t ;; set_at c 4 mat 1 3 delta_t.
(** examples/radar_2d.rs:65-71: the closure given to [predict_nonlinear] *)
Definition radar_transition (state next : list T) : res (list T) :=
  s0 <- index_get state 0 ;; s2 <- index_get state 2 ;; p <- n_mul N s2 delta_t ;; v <- n_add N s0 p ;; next <- index_set next 0 v ;;
  s1 <- index_get state 1 ;; s3 <- index_get state 3 ;; p <- n_mul N s3 delta_t ;; v <- n_add N s1 p ;; next <- index_set next 1 v ;;
  s2 <- index_get state 2 ;; next <- index_set next 2 s2 ;;
  s3 <- index_get state 3 ;; index_set next 3 s3.

(** examples/radar_2d.rs:79-103: a noisy measurement at the given time of an object at (time, time) with velocity (1, 1) *)
Definition radar_measure (time : T) (noise : T * T * T) (vec : list T) : res (list T) :=
  let '(noise_pos, noise_theta, noise_v) := noise in
  dx <- n_sub N time radar_x ;; dy <- n_sub N time radar_y ;;
  s <- n_add N (ma_powi M dx 2) (ma_powi M dy 2) ;;
  let dist_norm := ma_root M s in
  let theta := ma_atan2 M dy dx in
  w <- n_add N dx dy ;;
  let v := ma_div M w dist_norm in
  z <- n_add N dist_norm noise_pos ;; vec <- set_row c vec 0 z ;;
  z <- n_add N theta noise_theta ;; vec <- set_row c vec 1 z ;;
  z <- n_add N v noise_v ;; set_row c vec 2 z.

(** examples/radar_2d.rs:106-140: the observation Jacobian at the current state *)
Definition radar_observation_jacobian (state mat : list T) : res (list T) :=
  x <- get_row c state 0 ;; y <- get_row c state 1 ;; vx <- get_row c state 2 ;; vy <- get_row c state 3 ;;
  ex <- n_sub N x radar_x ;; ey <- n_sub N y radar_y ;;
  norm_sq <- n_add N (ma_powi M ex 2) (ma_powi M ey 2) ;;
  let norm := ma_root M norm_sq in
  let dx := ma_div M x norm in
  let dy := ma_div M y norm in
  mat <- set_at c 4 mat 0 0 dx ;; mat <- set_at c 4 mat 0 1 dy ;; mat <- set_at c 4 mat 0 2 (L 0 1) ;; mat <- set_at c 4 mat 0 3 (L 0 1) ;;
  ney <- n_neg N ey ;;
  mat <- set_at c 4 mat 1 0 (ma_div M ney norm_sq) ;; mat <- set_at c 4 mat 1 1 (ma_div M ex norm_sq) ;; mat <- set_at c 4 mat 1 2 (L 0 1) ;; mat <- set_at c 4 mat 1 3 (L 0 1) ;;
  let cube := ma_root M (ma_powi M norm_sq 3) in
  a <- n_mul N ey vy ;; mat <- set_at c 4 mat 2 0 (ma_div M a cube) ;;
  p <- n_mul N ex vy ;; q <- n_mul N ey vx ;; b <- n_add N p q ;; mat <- set_at c 4 mat 2 1 (ma_div M b cube) ;;
  mat <- set_at c 4 mat 2 2 dx ;; set_at c 4 mat 2 3 dy.

(** examples/radar_2d.rs:143-156: the closure given to [correct_nonlinear] *)
Definition radar_observe (state observation : list T) : res (list T) :=
  x <- get_row c state 0 ;; y <- get_row c state 1 ;; vx <- get_row c state 2 ;; vy <- get_row c state 3 ;;
  ex <- n_sub N x radar_x ;; ey <- n_sub N y radar_y ;;
  s <- n_add N (ma_powi M ex 2) (ma_powi M ey 2) ;;
  let z := ma_root M s in
  let theta := ma_atan2 M ey ex in
  p <- n_mul N ex vx ;; q <- n_mul N ey vy ;; w <- n_add N p q ;;
  let v := ma_div M w z in
  observation <- set_row c observation 0 z ;; observation <- set_row c observation 1 theta ;; set_row c observation 2 v.

(** examples/radar_2d.rs:54-159: the body of the loop; [noise] gives the three draws of a step *)
Definition radar_turn (noise : nat -> T * T * T) (step : nat) (s : kalman T * observation T) : res (kalman T * observation T) :=
  let '(f, o) := s in
  time <- n_mul N (L (Z.of_nat step) 1) delta_t ;;
  a <- radar_transition_jacobian (kf_A f) ;;
  let f := mk_kalman a (kf_x f) (kf_P f) (kf_Q f) (kf_px f) (kf_tP f) in
  f <- predict_nonlinear c N 4 radar_transition f ;;
  if Nat.eqb (Nat.modulo step 10) 0 then
    z <- radar_measure time (noise step) (ob_z o) ;;
    h <- radar_observation_jacobian (kf_x f) (ob_H o) ;;
    r <- correct_nonlinear c N 4 3 radar_observe (mk_obs h z (ob_R o) (ob_y o) (ob_S o) (ob_K o) (ob_Sinv o) (ob_HP o) (ob_PHt o) (ob_KHP o)) f ;;
    let '(o, f) := r in Ok (f, o)
  else Ok (f, o).
(** examples/radar_2d.rs:16-160 [main], running for [steps] steps (100 there) *)
Definition radar_main (steps : nat) (noise : nat -> T * T * T) : res (kalman T * observation T) :=
  s <- radar_setup ;; for_range 1 (S steps) s (radar_turn noise).
End Radar.

(** * examples/gravity_fixed.rs: a falling object tracked in I16F16

    Modelled: [main] (71-105) and the functions that fill the filter (108-196), with the two tables as arguments. The functions that
    print (198-242) are not modelled. [oc] and [da] say whether the build checks fixed-point overflow (FixedNum.v), [c] is the build. *)
From Coq Require Import ZArith.
From Verif Require Export Builder FixedNum.
Open Scope Z_scope.

(** I16F16::from_num(p / q) for a literal: to nearest (the literals used are no ties, so the f64 in between does not matter) *)
Definition from_num (p q : Z) : Z := (2 * p * 2 ^ 16 + q) / (2 * q).

(** examples/gravity_fixed.rs:27-43 [REAL_DISTANCE] *)
Definition real_distance : list Z :=
  [from_num 0 1; from_num 4905 1000; from_num 1962 100; from_num 44145 1000; from_num 7848 100; from_num 12263 100; from_num 17658 100; from_num 24035 100;
   from_num 31392 100; from_num 39731 100; from_num 4905 10; from_num 59351 100; from_num 70632 100; from_num 82894 100; from_num 96138 100].
(** examples/gravity_fixed.rs:51-67 [OBSERVATION_ERROR] *)
Definition observation_error : list Z :=
  [from_num 13442 100000; from_num 45847 100000; from_num (-56471) 100000; from_num 21554 100000; from_num 79691 1000000; from_num (-32692) 100000; from_num (-1084) 10000;
   from_num 85656 1000000; from_num 8946 10000; from_num 69236 100000; from_num (-33747) 100000; from_num 75873 100000; from_num 18135 100000; from_num (-15764) 1000000; from_num 17869 100000].

Section Main.
Variables (c : cfg) (oc da : bool).
Notation N := (i16f16_num oc da).
Notation one := (n_one N).

(** examples/gravity_fixed.rs:108-114 [initialize_state_vector] *)
Definition initialize_state_vector (x : list Z) : res (list Z) :=
  x <- index_set x 0 0 ;; x <- index_set x 1 0 ;; index_set x 2 (from_num 6 1).
(** examples/gravity_fixed.rs:124-146 [initialize_state_transition_matrix] *)
Definition initialize_state_transition_matrix (a : list Z) : res (list Z) :=
  let t := one in
  h <- n_mul N (from_num 1 2) t ;; h <- n_mul N h t ;;
  a <- set_at c 3 a 0 0 one ;; a <- set_at c 3 a 0 1 t ;; a <- set_at c 3 a 0 2 h ;;
  a <- set_at c 3 a 1 0 0 ;; a <- set_at c 3 a 1 1 one ;; a <- set_at c 3 a 1 2 t ;;
  a <- set_at c 3 a 2 0 0 ;; a <- set_at c 3 a 2 1 0 ;; set_at c 3 a 2 2 one.
(** examples/gravity_fixed.rs:153-166 [initialize_state_covariance_matrix] *)
Definition initialize_state_covariance_matrix (p : list Z) : res (list Z) :=
  p <- set_at c 3 p 0 0 (from_num 1 10) ;; p <- set_at c 3 p 0 1 0 ;; p <- set_at c 3 p 0 2 0 ;;
  p <- set_at c 3 p 1 1 one ;; p <- set_at c 3 p 1 2 0 ;; set_at c 3 p 2 2 one.
(** examples/gravity_fixed.rs:175-183 [initialize_position_measurement_transformation_matrix] *)
Definition initialize_position_measurement_transformation_matrix (h : list Z) : res (list Z) :=
  h <- set_at c 3 h 0 0 one ;; h <- set_at c 3 h 0 1 0 ;; set_at c 3 h 0 2 0.
(** examples/gravity_fixed.rs:190-196 (the function's name ends in process_noise_matrix; it sets R) *)
Definition initialize_position_measurement_process_noise_matrix (r : list Z) : res (list Z) := set_at c 1 r 0 0 (from_num 1 2).

(** examples/gravity_fixed.rs:72-83: build, then fill in *)
Definition gravity_setup : res (kalman Z * observation Z) :=
  f <- build_filter c 0 3 ;;
  o <- build_observation c 0 3 1 ;;
  x <- initialize_state_vector (kf_x f) ;;
  a <- initialize_state_transition_matrix (kf_A f) ;;
  p <- initialize_state_covariance_matrix (kf_P f) ;;
  h <- initialize_position_measurement_transformation_matrix (ob_H o) ;;
  r <- initialize_position_measurement_process_noise_matrix (ob_R o) ;;
  Ok (mk_kalman a x p (kf_Q f) (kf_px f) (kf_tP f), mk_obs h (ob_z o) r (ob_y o) (ob_S o) (ob_K o) (ob_Sinv o) (ob_HP o) (ob_PHt o) (ob_KHP o)).

(** examples/gravity_fixed.rs:86-99: the body of the loop at index t *)
Definition gravity_turn (distance error : list Z) (t : nat) (s : kalman Z * observation Z) : res (kalman Z * observation Z) :=
  let '(f, o) := s in
  f <- predict c N 3 f ;;
  d <- rd distance t ;; e <- rd error t ;; m <- n_add N d e ;;
  z <- index_set (ob_z o) 0 m ;;
  r <- correct c N 3 1 (mk_obs (ob_H o) z (ob_R o) (ob_y o) (ob_S o) (ob_K o) (ob_Sinv o) (ob_HP o) (ob_PHt o) (ob_KHP o)) f ;;
  let '(o, f) := r in Ok (f, o).

(** examples/gravity_fixed.rs:71-99: everything before the last three lines; returns the state vector *)
Definition gravity_run (distance error : list Z) : res (list Z) :=
  s <- gravity_setup ;;
  s <- for_range 0 (length distance) s (gravity_turn distance error) ;;
  Ok (kf_x (fst s)).
(** examples/gravity_fixed.rs:71-105 [main]: the estimate of g must lie between 9 and 10 *)
Definition gravity_main (distance error : list Z) : res unit :=
  x <- gravity_run distance error ;;
  g <- index_get x 2 ;;
  assert_ ((9 * 2 ^ 16 <? g) && (g <? 10 * 2 ^ 16)).
End Main.

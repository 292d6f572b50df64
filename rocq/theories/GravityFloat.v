(** * Programs of the repository that track a falling object in floating point

    tests/gravity.rs (f32), tests/gravity_q_tuned.rs (f64, [predict_tuned]) and examples/gravity.rs (f32, with a control), with the tables of
    readings and errors as arguments. The functions that print (examples/gravity.rs:221-265) are not modelled, and the random draws of [generate_error] are the
    argument [noise].  [sz]: the zero a float sum starts from (FloatNum.v); [c]: the build. *)
From Coq Require Import ZArith.
From Verif Require Export Builder Static Storage FloatNum.
Import SpecFloat.
Open Scope Z_scope.

(** an integer converted to a float, and the decimal literal p / q: the quotient, correctly rounded (both p and q are exact in every format used):
    the casts and literals of tests/gravity.rs:18-32,117-197 and examples/gravity.rs:78-81,112-217 *)
Definition from_int (prec emax : Z) (z : Z) : spec_float := binary_normalize prec emax z 0 false.
Definition literal (prec emax : Z) (p q : Z) : spec_float := SFdiv prec emax (from_int prec emax p) (from_int prec emax q).

Section Tests.
Variables (c : cfg) (prec emax : Z) (sz : bool).
Notation N := (sf_num prec emax sz).
Notation L := (literal prec emax).
Notation I z := (from_int prec emax z).

(** tests/gravity.rs:18-21 [REAL_DISTANCE] (tests/gravity_q_tuned.rs:19-22 in f64) *)
Definition test_distance : list spec_float :=
  [L 0 1; L 4905 1000; L 1962 100; L 44145 1000; L 7848 100; L 12263 100; L 17658 100; L 24035 100; L 31392 100; L 39731 100; L 4905 10; L 59351 100; L 70632 100; L 82894 100; L 96138 100].
(** tests/gravity.rs:29-32 [OBSERVATION_ERROR] (tests/gravity_q_tuned.rs:30-33 in f64) *)
Definition test_error : list spec_float :=
  [L 13442 100000; L 45847 100000; L (-56471) 100000; L 21554 100000; L 79691 1000000; L (-32692) 100000; L (-1084) 10000; L 85656 1000000; L 8946 10000; L 69236 100000;
   L (-33747) 100000; L 75873 100000; L 18135 100000; L (-15764) 1000000; L 17869 100000].

(** tests/gravity.rs:115-121, tests/gravity_q_tuned.rs:118-124, examples/gravity.rs:110-116 [initialize_state_vector] *)
Definition init_state_vector (x : list spec_float) : res (list spec_float) :=
  x <- index_set x 0 (I 0) ;; x <- index_set x 1 (I 0) ;; index_set x 2 (I 6).
(** tests/gravity.rs:131-151, tests/gravity_q_tuned.rs:134-154, examples/gravity.rs:126-146 [initialize_state_transition_matrix] *)
Definition init_state_transition (a : list spec_float) : res (list spec_float) :=
  let t := I 1 in
  h <- n_mul N (L 1 2) t ;; h <- n_mul N h t ;;
  a <- set_at c 3 a 0 0 (I 1) ;; a <- set_at c 3 a 0 1 t ;; a <- set_at c 3 a 0 2 h ;;
  a <- set_at c 3 a 1 0 (I 0) ;; a <- set_at c 3 a 1 1 (I 1) ;; a <- set_at c 3 a 1 2 t ;;
  a <- set_at c 3 a 2 0 (I 0) ;; a <- set_at c 3 a 2 1 (I 0) ;; set_at c 3 a 2 2 (I 1).
(** tests/gravity.rs:158-169, tests/gravity_q_tuned.rs:161-172, examples/gravity.rs:153-164 [initialize_state_covariance_matrix] *)
Definition init_state_covariance (p : list spec_float) : res (list spec_float) :=
  p <- set_at c 3 p 0 0 (L 1 10) ;; p <- set_at c 3 p 0 1 (I 0) ;; p <- set_at c 3 p 0 2 (I 0) ;;
  p <- set_at c 3 p 1 1 (I 1) ;; p <- set_at c 3 p 1 2 (I 0) ;; set_at c 3 p 2 2 (I 1).
(** tests/gravity.rs:178-186, tests/gravity_q_tuned.rs:181-189, examples/gravity.rs:198-206 [initialize_position_measurement_transformation_matrix] *)
Definition init_measurement_matrix (h : list spec_float) : res (list spec_float) :=
  h <- set_at c 3 h 0 0 (I 1) ;; h <- set_at c 3 h 0 1 (I 0) ;; set_at c 3 h 0 2 (I 0).
(** tests/gravity.rs:193-199, tests/gravity_q_tuned.rs:196-202, examples/gravity.rs:213-219 (named ..._process_noise_matrix; it sets R) *)
Definition init_measurement_noise (r : list spec_float) : res (list spec_float) := set_at c 1 r 0 0 (L 1 2).

(** tests/gravity.rs:102, tests/gravity_q_tuned.rs:105, examples/gravity.rs:61-63: what [measurement_vector_mut().apply] leaves behind, given the new contents *)
Definition put_z (o : observation spec_float) (z : list spec_float) : observation spec_float :=
  mk_obs (ob_H o) z (ob_R o) (ob_y o) (ob_S o) (ob_K o) (ob_Sinv o) (ob_HP o) (ob_PHt o) (ob_KHP o).
(** tests/gravity.rs:40-93, tests/gravity_q_tuned.rs:41-94: statically declared buffers, filled in *)
Definition test_setup : res (kalman spec_float * observation spec_float) :=
  f <- static_filter c 3 (L 0 1) ;; o <- static_observation c 3 1 (L 0 1) ;;
  x <- init_state_vector (kf_x f) ;; a <- init_state_transition (kf_A f) ;; p <- init_state_covariance (kf_P f) ;;
  h <- init_measurement_matrix (ob_H o) ;; r <- init_measurement_noise (ob_R o) ;;
  Ok (mk_kalman a x p (kf_Q f) (kf_px f) (kf_tP f), mk_obs h (ob_z o) r (ob_y o) (ob_S o) (ob_K o) (ob_Sinv o) (ob_HP o) (ob_PHt o) (ob_KHP o)).
(** tests/gravity.rs:96-106 ([pred] is [predict]), tests/gravity_q_tuned.rs:99-109 ([pred] is [predict_tuned(LAMBDA)]): the body of the loop *)
Definition test_turn (pred : kalman spec_float -> res (kalman spec_float)) (distance error : list spec_float) (t : nat) (s : kalman spec_float * observation spec_float) : res (kalman spec_float * observation spec_float) :=
  let '(f, o) := s in
  f <- pred f ;;
  d <- rd distance t ;; e <- rd error t ;; m <- n_add N d e ;;
  z <- index_set (ob_z o) 0 m ;;
  r <- correct c N 3 1 (put_z o z) f ;;
  let '(o, f) := r in Ok (f, o).
(** tests/gravity.rs:111, tests/gravity_q_tuned.rs:114, examples/gravity.rs:74: assert!(g_estimated > 9.0 && g_estimated < 10.0) *)
Definition assert_g (g : spec_float) : res unit := assert_ (SFltb (I 9) g && SFltb g (I 10)).
(** tests/gravity.rs:39-111, tests/gravity_q_tuned.rs:40-114 without the final assertion: the state vector *)
Definition test_run (pred : kalman spec_float -> res (kalman spec_float)) (distance error : list spec_float) : res (list spec_float) :=
  s <- test_setup ;;
  s <- for_range 0 (length distance) s (test_turn pred distance error) ;;
  Ok (kf_x (fst s)).
(** tests/gravity.rs:39-112 [test_gravity_estimation] with any table of errors *)
Definition gravity_test (error : list spec_float) : res unit :=
  x <- test_run (predict c N 3) test_distance error ;; g <- index_get x 2 ;; assert_g g.
(** tests/gravity_q_tuned.rs:40-115 [test_gravity_estimation_tuned] with any table of errors; LAMBDA is 0.5 *)
Definition gravity_tuned_test (error : list spec_float) : res unit :=
  x <- test_run (predict_tuned c N 3 (L 1 2)) test_distance error ;; g <- index_get x 2 ;; assert_g g.

(** examples/gravity.rs:77-92 [generate_values] *)
Definition generate_values (n : nat) : res (list spec_float) :=
  let g := L 981 100 in let dt := L 1 1 in
  r <- for_range 0 n (L 0 1, L 0 1, repeat (L 0 1) n) (fun i st => let '(s, v, values) := st in
    a <- n_mul N v dt ;; b <- n_add N s a ;; h <- n_mul N g (L 1 2) ;; h <- n_mul N h dt ;; h <- n_mul N h dt ;; s <- n_add N b h ;;
    k <- n_mul N g dt ;; v <- n_add N v k ;;
    values <- index_set values i s ;;
    Ok (s, v, values)) ;;
  Ok (snd r).
(** examples/gravity.rs:167-171 [initialize_control_vector], 174-180 [initialize_control_matrix], 183-189 [initialize_control_covariance_matrix] *)
Definition init_control_vector (u : list spec_float) : res (list spec_float) := index_set u 0 (L 0 1).
Definition init_control_matrix (b : list spec_float) : res (list spec_float) := b <- index_set b 0 (L 0 1) ;; b <- index_set b 1 (L 0 1) ;; index_set b 2 (L 1 1).
Definition init_control_covariance (q : list spec_float) : res (list spec_float) := index_set q 0 (L 1 1).
(** examples/gravity.rs:23-43: builders ([default()] is zero), then the same fill-ins *)
Definition example_setup : res (kalman spec_float * control spec_float * observation spec_float) :=
  f <- build_filter c (L 0 1) 3 ;; k <- build_control c (L 0 1) 3 1 ;; o <- build_observation c (L 0 1) 3 1 ;;
  x <- init_state_vector (kf_x f) ;; a <- init_state_transition (kf_A f) ;; p <- init_state_covariance (kf_P f) ;;
  u <- init_control_vector (ct_u k) ;; b <- init_control_matrix (ct_B k) ;; q <- init_control_covariance (ct_Q k) ;;
  h <- init_measurement_matrix (ob_H o) ;; r <- init_measurement_noise (ob_R o) ;;
  Ok (mk_kalman a x p (kf_Q f) (kf_px f) (kf_tP f), mk_ctl b u q (ct_BQ k), mk_obs h (ob_z o) r (ob_y o) (ob_S o) (ob_K o) (ob_Sinv o) (ob_HP o) (ob_PHt o) (ob_KHP o)).
(** examples/gravity.rs:49-69: the body of the loop *)
Definition example_turn (values noise : list spec_float) (t : nat) (s : kalman spec_float * control spec_float * observation spec_float) : res (kalman spec_float * control spec_float * observation spec_float) :=
  let '(f, k, o) := s in
  f <- predict c N 3 f ;;
  r <- control_ c N 3 1 k f ;; let '(k, f) := r in
  v <- rd values t ;; e <- rd noise t ;; m <- n_add N v e ;;
  z <- index_set (ob_z o) 0 m ;;
  r <- correct c N 3 1 (put_z o z) f ;; let '(o, f) := r in
  Ok (f, k, o).
(** examples/gravity.rs:22-69: everything before the last three lines; n is 100 there. Zipping stops at the shorter list *)
Definition example_run (n : nat) (noise : list spec_float) : res (list spec_float) :=
  s <- example_setup ;; values <- generate_values n ;;
  s <- for_range 0 (Nat.min (length values) (length noise)) s (example_turn values noise) ;;
  let '(f, _, _) := s in Ok (kf_x f).
(** examples/gravity.rs:22-75 [main]: the state vector is a 3x1 matrix, read at row 0, column 2 *)
Definition example_main (noise : list spec_float) : res unit :=
  x <- example_run 100 noise ;; g <- get_at c 1 x 0 2 ;; assert_g g.
End Tests.

(** * examples/car_1d.rs: a car that accelerates, then brakes while its position is measured now and then

    The whole of [main] in f32, with the table of readings as an argument.  What it prints (print_state, lines 150-176, and the println!s) is not modelled.
    [sz]: the zero a float sum starts from (FloatNum.v); [c]: the build. *)
From Coq Require Import ZArith.
From Verif Require Export Builder FloatNum GravityFloat.
Import SpecFloat.
Open Scope Z_scope.

(** the position of an f32 on the line of all f32s, and assert_f32_near! of the crate assert_float_eq, which examples/car_1d.rs:101-103 uses
    with its default of four units in the last place; that crate is not in the repository, this is what its documentation says *)
Definition f32_place (a : spec_float) : Z := match a with S754_finite s m e => let k := (e + 149) * 2 ^ 23 + Zpos m in if s then - k else k | _ => 0 end.
Definition is_number (a : spec_float) : bool := match a with S754_finite _ _ _ | S754_zero _ => true | _ => false end.
Definition f32_near (a b : spec_float) : bool := is_number a && is_number b && (Z.abs (f32_place a - f32_place b) <=? 4).
(** examples/car_1d.rs:178-180 [is_between] *)
Definition is_between (value low high : spec_float) : bool := SFleb low value && SFleb value high.

Section Car.
Variables (c : cfg) (sz : bool).
Notation N := (f32_num sz).
Notation L := (literal 24 128).
Notation I z := (from_int 24 128 z).

(** examples/car_1d.rs:25 [DELTA_T] *)
Definition delta_t : spec_float := I 1.
(** examples/car_1d.rs:109 [OBSERVATIONS] *)
Definition car_observations : list spec_float := [L 132 10; L 165 10; I 20; L 235 10; L 268 10; L 297 10; L 328 10; L 343 10; L 356 10; I 36].
(** examples/car_1d.rs:112 [ACCELERATION] *)
Definition car_acceleration : spec_float := L (-1333333) 10000000.

(** examples/car_1d.rs:28-32 *)
Definition car_state (x : list spec_float) : res (list spec_float) :=
  x <- index_set x 0 (I (-5)) ;; x <- index_set x 1 (I 0) ;; index_set x 2 (L 3 10).
(** examples/car_1d.rs:35-50 *)
Definition car_transition (a : list spec_float) : res (list spec_float) :=
  h <- n_mul N (L 1 2) delta_t ;; h <- n_mul N h delta_t ;;
  a <- set_at c 3 a 0 0 (I 1) ;; a <- set_at c 3 a 0 1 delta_t ;; a <- set_at c 3 a 0 2 h ;;
  a <- set_at c 3 a 1 0 (I 0) ;; a <- set_at c 3 a 1 1 (I 1) ;; a <- set_at c 3 a 1 2 delta_t ;;
  a <- set_at c 3 a 2 0 (I 0) ;; a <- set_at c 3 a 2 1 (I 0) ;; set_at c 3 a 2 2 (I 1).
(** examples/car_1d.rs:58-62 *)
Definition car_control_matrix (b : list spec_float) : res (list spec_float) :=
  b <- set_at c 1 b 0 0 (I 0) ;; b <- set_at c 1 b 1 0 (I 0) ;; set_at c 1 b 2 0 delta_t.
(** examples/car_1d.rs:76-83: first a scalar matrix 0.1, then 1.0 over it *)
Definition car_measurement_noise (r : list spec_float) : res (list spec_float) :=
  r <- make_scalar c N 1 (L 1 10) r ;; set_at c 1 r 0 0 (I 1).
(** examples/car_1d.rs:19-83: the filter, the control and the measurement from the builder, filled in; elements start as 0.0 (T::default()) *)
Definition car_setup : res (kalman spec_float * control spec_float * observation spec_float) :=
  f <- build_filter c (I 0) 3 ;; k <- build_control c (I 0) 3 1 ;; o <- build_observation c (I 0) 3 1 ;;
  x <- car_state (kf_x f) ;; a <- car_transition (kf_A f) ;; p <- make_identity c N 3 (kf_P f) ;;
  b <- car_control_matrix (ct_B k) ;; q <- make_identity c N 1 (ct_Q k) ;;
  h <- set_at c 3 (ob_H o) 0 0 (I 1) ;; r <- car_measurement_noise (ob_R o) ;;
  Ok (mk_kalman a x p (kf_Q f) (kf_px f) (kf_tP f), mk_ctl b (set_zero N (ct_u k)) q (ct_BQ k),
      mk_obs h (ob_z o) r (ob_y o) (ob_S o) (ob_K o) (ob_Sinv o) (ob_HP o) (ob_PHt o) (ob_KHP o)).
(** examples/car_1d.rs:88-96: ten predictions *)
Definition car_accelerate (f : kalman spec_float) : res (kalman spec_float) := for_range 0 10 f (fun _ f => predict c N 3 f).
(** examples/car_1d.rs:99-104 *)
Definition car_assert_before (x : list spec_float) : res unit :=
  p <- index_get x 0 ;; _ <- assert_ (f32_near p (I 10)) ;;
  v <- index_get x 1 ;; _ <- assert_ (f32_near v (I 3)) ;;
  a <- index_get x 2 ;; assert_ (f32_near a (L 3 10)).
(** examples/car_1d.rs:114-132: the body of the loop; a reading is used at every second turn *)
Definition car_turn (observations : list spec_float) (t : nat) (s : kalman spec_float * control spec_float * observation spec_float) : res (kalman spec_float * control spec_float * observation spec_float) :=
  let '(f, k, o) := s in
  u <- set_at c 1 (ct_u k) 0 0 car_acceleration ;;
  f <- predict c N 3 f ;;
  r <- control_ c N 3 1 (mk_ctl (ct_B k) u (ct_Q k) (ct_BQ k)) f ;;
  let '(k, f) := r in
  if Nat.eqb (Nat.modulo t 2) 0 then
    v <- rd observations (t - 10) ;; z <- index_set (ob_z o) 0 v ;;
    r <- correct c N 3 1 (put_z o z) f ;;
    let '(o, f) := r in Ok (f, k, o)
  else Ok (f, k, o).
(** examples/car_1d.rs:136-141 *)
Definition car_assert_after (x : list spec_float) : res unit :=
  p <- index_get x 0 ;; _ <- assert_ (is_between p (I 35) (L 363 10)) ;;
  v <- index_get x 1 ;; _ <- assert_ (is_between v (L (-6) 10) (I 0)) ;;
  a <- index_get x 2 ;; assert_ (is_between a (L (-13) 10) (L (-103) 100)).
(** examples/car_1d.rs:19-132: everything before the final assertions, with any readings; the state vector *)
Definition car_run (observations : list spec_float) : res (list spec_float) :=
  s <- car_setup ;; let '(f, k, o) := s in
  f <- car_accelerate f ;; _ <- car_assert_before (kf_x f) ;;
  s <- for_range 10 20 (f, k, o) (car_turn observations) ;;
  let '(f, k, o) := s in Ok (kf_x f).
(** examples/car_1d.rs:18-142 [main] with any readings *)
Definition car_main (observations : list spec_float) : res unit := x <- car_run observations ;; car_assert_after x.
End Car.

(** * C122: mirror symmetry of floating-point filters.  C123: the signs of zeros in the data do not matter.

    [sf_num prec emax sz] is f32 for (24, 128) and f64 for (53, 1024), [sz] the sign of the zero sums start from.  Vocabulary: SpecMirror.v;
    [world_cov c n w1 w2] (SpecGen.v): well-formed, and the same in A, P, Q, B, the control covariances, H and R, element by element. *)
From Coq Require Import ZArith Floats.SpecFloat.
From Verif Require Import Prelude Numeric FloatNum FixedNum Matrix Filter Extended History Spec SpecFilter SpecGen SpecFloats SpecRest SpecMirror Mirror MirrorExamples.
Local Open Scope nat_scope.

(** any element type and any relation between data that its arithmetic respects *)
Theorem C122_programs : forall (T : Type) (c : cfg) (N : num T) (R : T -> T -> Prop), data_laws N R ->
  forall (n : nat) (os1 os2 : list (op T)), 1 <= n -> forall (w1 w2 w1' w2' : world T) (dims : list nat), ob_dims w1 = dims -> Forall (fun m => 1 <= m) dims ->
  world_cov c n w1 w2 -> data_related R n w1 w2 -> Forall2 (op_related R n dims) os1 os2 -> Forall (op_safe c N n dims) os1 -> Forall (op_safe c N n dims) os2 ->
  run c N n w1 os1 = Ok w1' -> run c N n w2 os2 = Ok w2' -> world_cov c n w1' w2' /\ data_related R n w1' w2'.
Proof. exact @run_data. Qed.
Print Assumptions C122_programs.

(** ** C122: opposite data give opposite states and the same covariance, bit for bit (up to signs of zeros) *)
Theorem C122_float : forall (c : cfg) (prec emax : Z) (sz : bool) (n : nat) (w1 w2 : world spec_float) (os1 os2 : list (op spec_float)), 1 <= n ->
  Forall (fun m => 1 <= m) (ob_dims w1) -> world_cov c n w1 w2 -> data_related opposite n w1 w2 -> Forall2 (op_related opposite n (ob_dims w1)) os1 os2 ->
  Forall (op_safe c (sf_num prec emax sz) n (ob_dims w1)) os1 -> Forall (op_safe c (sf_num prec emax sz) n (ob_dims w1)) os2 ->
  exists w1' w2', run c (sf_num prec emax sz) n w1 os1 = Ok w1' /\ run c (sf_num prec emax sz) n w2 os2 = Ok w2' /\ world_cov c n w1' w2' /\ data_related opposite n w1' w2'.
Proof. exact float_mirror. Qed.
Print Assumptions C122_float.
Example C122_example : forall (c : cfg) (sz : bool), 255 <= usize_max c ->
  let w1 := w_m (f32 7 0) (f32 (-3) 0) (f32 11 (-2)) in let w2 := w_m (f32 (-7) 0) (f32 3 0) (f32 (-11) (-2)) in
  world_cov c 1 w1 w2 /\ data_related opposite 1 w1 w2 /\ Forall (fun m => 1 <= m) (ob_dims w1) /\ Forall2 (op_related opposite 1 (ob_dims w1)) (prog_m (f32 13 0)) (prog_m (f32 (-13) 0)) /\
  Forall (op_safe c (f32_num sz) 1 (ob_dims w1)) (prog_m (f32 13 0)) /\ Forall (op_safe c (f32_num sz) 1 (ob_dims w1)) (prog_m (f32 (-13) 0)).
Proof. exact mirror_example. Qed.
(** a nonlinear closure that qualifies: x^3 *)
Example C122_example_closure : closures_related opposite 1 1 h_cube h_cube.
Proof. exact cube_example. Qed.
(** false in fixed point, whose products are rounded downwards *)
Theorem C122_fixed_refuted : forall c : cfg, 255 <= usize_max c -> exists f g f' g' : kalman Z, kf_valid c 1 f /\ kf_valid c 1 g /\
  kf_A f = kf_A g /\ kf_P f = kf_P g /\ kf_Q f = kf_Q g /\ kf_x f = [1%Z] /\ kf_x g = [(-1)%Z] /\
  predict c (i16f16_num true true) 1 f = Ok f' /\ predict c (i16f16_num true true) 1 g = Ok g' /\ kf_x f' = [0%Z] /\ kf_x g' = [(-1)%Z].
Proof. exact fixed_no_mirror. Qed.
Print Assumptions C122_fixed_refuted.

(** ** C123: data that differ in the signs of zeros give the same covariance and states that differ at most in signs of zeros *)
Theorem C123_float : forall (c : cfg) (prec emax : Z) (sz : bool) (n : nat) (w1 w2 : world spec_float) (os1 os2 : list (op spec_float)), 1 <= n ->
  Forall (fun m => 1 <= m) (ob_dims w1) -> world_cov c n w1 w2 -> data_related float_same n w1 w2 -> Forall2 (op_related float_same n (ob_dims w1)) os1 os2 ->
  Forall (op_safe c (sf_num prec emax sz) n (ob_dims w1)) os1 -> Forall (op_safe c (sf_num prec emax sz) n (ob_dims w1)) os2 ->
  exists w1' w2', run c (sf_num prec emax sz) n w1 os1 = Ok w1' /\ run c (sf_num prec emax sz) n w2 os2 = Ok w2' /\ world_cov c n w1' w2' /\ data_related float_same n w1' w2'.
Proof. exact float_zeros. Qed.
Print Assumptions C123_float.
Example C123_example : forall (c : cfg) (sz : bool), 255 <= usize_max c ->
  let w1 := w_m (S754_zero false) (S754_zero true) (f32 11 (-2)) in let w2 := w_m (S754_zero true) (S754_zero false) (f32 11 (-2)) in
  world_cov c 1 w1 w2 /\ data_related float_same 1 w1 w2 /\ Forall (fun m => 1 <= m) (ob_dims w1) /\
  Forall2 (op_related float_same 1 (ob_dims w1)) (prog_m (S754_zero false)) (prog_m (S754_zero true)) /\
  Forall (op_safe c (f32_num sz) 1 (ob_dims w1)) (prog_m (S754_zero false)) /\ Forall (op_safe c (f32_num sz) 1 (ob_dims w1)) (prog_m (S754_zero true)).
Proof. exact zeros_example. Qed.

(** * C139: the covariances and gains of an extended filter are those of a regular one.

    [op_track o1 o2] (SpecTrack.v): the two calls are the same up to data and up to whether a prediction or a measurement is computed by the matrix or by a closure.
    [world_cov]: the same P, A, Q, H, R, B (the states, measurements and controls are free).  For every element type, build, size and program. *)
From Coq Require Import List.
From Verif Require Import Prelude Matrix Filter Extended History Spec SpecFilter SpecGen FloatNum SpecFloats SpecTrack HistGen Track FloatWit MirrorExamples TrackExamples.
Import ListNotations.
Local Open Scope nat_scope.

(** any two programs *)
Theorem C139_covariance_path : forall (T : Type) (c : cfg) (N : num T) (n : nat) (w1 w2 : world T) (os1 os2 : list (op T)),
  1 <= n -> Forall (fun m => 1 <= m) (ob_dims w1) -> world_cov c n w1 w2 -> Forall2 op_track os1 os2 ->
  Forall (op_safe c N n (ob_dims w1)) os1 -> Forall (op_safe c N n (ob_dims w1)) os2 ->
  rok (world_cov c n) (run c N n w1 os1) (run c N n w2 os2).
Proof. exact @run_track. Qed.
Print Assumptions C139_covariance_path.
(** arithmetic that does not panic (f32, f64): both programs return *)
Theorem C139_both_return : forall (T : Type) (c : cfg) (N : num T) (n : nat) (w1 w2 : world T) (os1 os2 : list (op T)),
  never_panics N -> world_ok c n w1 -> world_ok c n w2 -> world_cov c n w1 w2 -> Forall2 op_track os1 os2 ->
  Forall (op_safe c N n (ob_dims w1)) os1 -> Forall (op_safe c N n (ob_dims w1)) os2 ->
  exists w1' w2', run c N n w1 os1 = Ok w1' /\ run c N n w2 os2 = Ok w2' /\ world_cov c n w1' w2'.
Proof. exact @run_track_total. Qed.
Print Assumptions C139_both_return.
(** a program of the extended filter, and the same program with every nonlinear call replaced by the linear one *)
Theorem C139_linearised : forall (T : Type) (c : cfg) (N : num T) (n : nat) (w : world T) (os : list (op T)),
  world_ok c n w -> Forall (op_safe c N n (ob_dims w)) os -> rok (world_cov c n) (run c N n w os) (run c N n w (map linearised os)).
Proof. exact @run_linearised. Qed.
Print Assumptions C139_linearised.
(** one prediction *)
Theorem C139_predict : forall (T : Type) (c : cfg) (N : num T) (n : nat) (h : list T -> list T -> res (list T)) (f g : kalman T), 1 <= n -> closure_ok c N n n h -> kf_cov c n f g ->
  rok (kf_cov c n) (predict c N n f) (predict_nonlinear c N n h g).
Proof. exact @predict_both. Qed.
Print Assumptions C139_predict.
Theorem C139_predict_tuned : forall (T : Type) (c : cfg) (N : num T) (n : nat) (lam : T) (h : list T -> list T -> res (list T)) (f g : kalman T), 1 <= n -> closure_ok c N n n h -> kf_cov c n f g ->
  rok (kf_cov c n) (predict_tuned c N n lam f) (predict_tuned_nonlinear c N n lam h g).
Proof. exact @predict_tuned_both. Qed.
Print Assumptions C139_predict_tuned.
(** one correction: also the gain *)
Theorem C139_gain : forall (T : Type) (c : cfg) (N : num T) (n m : nat) (h : list T -> list T -> res (list T)) (o1 o2 : observation T) (f g : kalman T), 1 <= n -> 1 <= m -> closure_ok c N m n h ->
  ob_cov c n m o1 o2 -> kf_cov c n f g -> rok (cor_cov c n m) (correct c N n m o1 f) (correct_nonlinear c N n m h o2 g).
Proof. exact @correct_both_cov. Qed.
Print Assumptions C139_gain.

(** f32, different states, measurements and controls; a program of the extended filter (x -> x * (x * x)) against one that mixes both kinds of calls *)
Example C139_example : forall (c : cfg) (sz : bool), 255 <= usize_max c ->
  let w1 := w_m (f32 7 0) (f32 (-3) 0) (f32 11 (-2)) in let w2 := w_m (f32 2 0) z0 (f32 1 3) in
  never_panics (f32_num sz) /\ world_ok c 1 w1 /\ world_ok c 1 w2 /\ world_cov c 1 w1 w2 /\ Forall2 op_track prog_ekf prog_mix /\
  Forall (op_safe c (f32_num sz) 1 (ob_dims w1)) prog_ekf /\ Forall (op_safe c (f32_num sz) 1 (ob_dims w1)) prog_mix.
Proof. exact track_example. Qed.

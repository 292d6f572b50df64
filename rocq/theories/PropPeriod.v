(** * C124: in machine arithmetic the covariance and the gains of a filter that repeats a cycle of calls become periodic.

    Vocabulary: SpecPeriod.v.  [w t] is the program's state before turn t, [os t] the calls of turn t: any calls of the library (also tuned and nonlinear
    ones), and writes to the state, the control inputs and the readings.  [op_cov] (SpecGen.v): the same call, up to data and closures.
    [within (in_format prec emax)], [within (fx_in bits)]: all numbers are numbers of the format (always so in Rust). *)
From Coq Require Import ZArith Floats.SpecFloat.
From Verif Require Import Prelude Numeric FloatNum FixedNum Matrix Filter Extended History Spec SpecFilter SpecGen SpecParam SpecUnit SpecFloats SpecReal SpecPeriod Period PeriodExamples.
Local Open Scope nat_scope.

(** any element type with at most M values *)
Theorem C124_programs : forall (T : Type) (c : cfg) (N : num T) (n : nat) (D : T -> Prop) (M : Z) (os : nat -> list (op T)) (w : nat -> world T),
  at_most M D -> closed_under D N -> turns c N n os w -> world_ok c n (w 0) -> SpecParam.world_rel (within D) (w 0) (w 0) ->
  (forall k, Forall (op_safe c N n (ob_dims (w 0))) (os k)) -> (forall k, forallb data_or_call (os k) = true) ->
  (forall k, Forall (fun o => SpecParam.op_rel False (within D) o o) (os k)) -> (forall i k, Forall2 op_cov (os i) (os k)) ->
  exists i p, 1 <= p /\ (Z.of_nat (i + p) <= M ^ Z.of_nat (n * n))%Z /\
  forall t, i <= t -> same_matrix n n (kf_P (w_kf (w t))) (kf_P (w_kf (w (t + p)))) /\ gains_same n (flat_map corrected (os 0)) (w (S t)) (w (S t + p)).
Proof. exact @cycle. Qed.
Print Assumptions C124_programs.
Theorem C124_f32 : forall (c : cfg) (sz : bool) (n : nat) (os : nat -> list (op spec_float)) (w0 : world spec_float), world_ok c n w0 ->
  SpecParam.world_rel (within (in_format 24 128)) w0 w0 -> (forall k, Forall (op_safe c (f32_num sz) n (ob_dims w0)) (os k)) -> (forall k, forallb data_or_call (os k) = true) ->
  (forall k, Forall (fun o => SpecParam.op_rel False (within (in_format 24 128)) o o) (os k)) -> (forall i k, Forall2 op_cov (os i) (os k)) ->
  exists w, w 0 = w0 /\ turns c (f32_num sz) n os w /\ exists i p, 1 <= p /\ (Z.of_nat (i + p) <= (2 ^ 32) ^ Z.of_nat (n * n))%Z /\
  forall t, i <= t -> same_matrix n n (kf_P (w_kf (w t))) (kf_P (w_kf (w (t + p)))) /\ gains_same n (flat_map corrected (os 0)) (w (S t)) (w (S t + p)).
Proof. exact f32_cycle. Qed.
Print Assumptions C124_f32.
Theorem C124_f64 : forall (c : cfg) (sz : bool) (n : nat) (os : nat -> list (op spec_float)) (w0 : world spec_float), world_ok c n w0 ->
  SpecParam.world_rel (within (in_format 53 1024)) w0 w0 -> (forall k, Forall (op_safe c (f64_num sz) n (ob_dims w0)) (os k)) -> (forall k, forallb data_or_call (os k) = true) ->
  (forall k, Forall (fun o => SpecParam.op_rel False (within (in_format 53 1024)) o o) (os k)) -> (forall i k, Forall2 op_cov (os i) (os k)) ->
  exists w, w 0 = w0 /\ turns c (f64_num sz) n os w /\ exists i p, 1 <= p /\ (Z.of_nat (i + p) <= (2 ^ 64) ^ Z.of_nat (n * n))%Z /\
  forall t, i <= t -> same_matrix n n (kf_P (w_kf (w t))) (kf_P (w_kf (w (t + p)))) /\ gains_same n (flat_map corrected (os 0)) (w (S t)) (w (S t + p)).
Proof. exact f64_cycle. Qed.
Print Assumptions C124_f64.
(** fixed point (I16F16: bits = 32, frac = 16; I32F32: 64, 32), for programs that do not panic *)
Theorem C124_fixed : forall (c : cfg) (bits frac : Z) (oc da : bool) (n : nat) (os : nat -> list (op Z)) (w : nat -> world Z), (0 <= frac)%Z -> (frac < bits - 1)%Z ->
  turns c (fx_num bits frac oc da) n os w -> world_ok c n (w 0) -> SpecParam.world_rel (within (fx_in bits)) (w 0) (w 0) ->
  (forall k, Forall (op_safe c (fx_num bits frac oc da) n (ob_dims (w 0))) (os k)) -> (forall k, forallb data_or_call (os k) = true) ->
  (forall k, Forall (fun o => SpecParam.op_rel False (within (fx_in bits)) o o) (os k)) -> (forall i k, Forall2 op_cov (os i) (os k)) ->
  exists i p, 1 <= p /\ (Z.of_nat (i + p) <= (2 ^ bits) ^ Z.of_nat (n * n))%Z /\
  forall t, i <= t -> same_matrix n n (kf_P (w_kf (w t))) (kf_P (w_kf (w (t + p)))) /\ gains_same n (flat_map corrected (os 0)) (w (S t)) (w (S t + p)).
Proof. exact fixed_cycle. Qed.
Print Assumptions C124_fixed.

Example C124_example : forall (c : cfg) (sz : bool), 255 <= usize_max c -> world_ok c 1 w_cycle /\ SpecParam.world_rel (within (in_format 24 128)) w_cycle w_cycle /\
  (forall k, Forall (op_safe c (f32_num sz) 1 (ob_dims w_cycle)) (cycle_ex k)) /\ (forall k, forallb data_or_call (cycle_ex k) = true) /\
  (forall k, Forall (fun o => SpecParam.op_rel False (within (in_format 24 128)) o o) (cycle_ex k)) /\ (forall i k, Forall2 op_cov (cycle_ex i) (cycle_ex k)) /\
  flat_map corrected (cycle_ex 0) = [0].
Proof. exact cycle_example. Qed.
Example C124_example_fixed : forall c : cfg, 255 <= usize_max c -> turns c (i16f16_num true true) 1 cycle_sure (fun _ => w_sure) /\ world_ok c 1 w_sure /\
  SpecParam.world_rel (within (fx_in 32)) w_sure w_sure /\ (forall k, Forall (op_safe c (i16f16_num true true) 1 (ob_dims w_sure)) (cycle_sure k)) /\
  (forall k, forallb data_or_call (cycle_sure k) = true) /\ (forall k, Forall (fun o => SpecParam.op_rel False (within (fx_in 32)) o o) (cycle_sure k)) /\
  (forall i k, Forall2 op_cov (cycle_sure i) (cycle_sure k)).
Proof. exact cycle_example_fixed. Qed.

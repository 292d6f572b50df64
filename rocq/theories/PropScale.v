(** * C130: changing units by powers of two changes nothing but exponents (floats)

    For f32, f64 and every other IEEE format ([prec], [emax]), any dimensions, any history.  The state, control inputs and measurements are
    re-expressed in units that differ by powers of two, chosen separately for every component, and every matrix accordingly (A, B, H, P, Q,
    R, u, z, closures, tuning factor unchanged).  If neither program over- or underflows and every innovation covariance could be
    decomposed, then both return, and all results of the second are *exactly* those of the first in the new units: rounding does not see
    the units.  "Does not over- or underflow" is: runs on [sf_roomy], the same floats except that such an operation panics. *)
From Coq Require Import ZArith Reals List Floats.SpecFloat.
From Flocq Require Import Core.
From Verif Require Import Prelude Spec Matrix Filter Extended SpecFilter History SpecGen SpecBits SpecReal FloatNum SpecFloats SpecMute SpecScale ScaleHist ScaleExamples.
Import ListNotations.
Local Open Scope nat_scope.

Theorem C130_history : forall (prec emax : Z) (sz : bool) (c : cfg) (n : nat) (U : units) (w w' w1 w1' : world spec_float) (os os' : list (op spec_float)),
  (1 < prec)%Z -> (prec < emax)%Z -> world_ok c n w -> world_ok c n w' -> world_scaled prec emax n U w w' ->
  Forall (op_safe c (sf_roomy prec emax sz) n (ob_dims w)) os -> Forall (op_safe c (sf_roomy prec emax sz) n (ob_dims w')) os' ->
  Forall2 (op_scaled prec emax n U (ct_dims w) (ob_dims w)) os os' ->
  run c (sf_roomy prec emax sz) n w os = Ok w1 -> run c (sf_roomy prec emax sz) n w' os' = Ok w1' -> all_decomposed c (sf_roomy prec emax sz) n w os ->
  run c (sf_num prec emax sz) n w os = Ok w1 /\ run c (sf_num prec emax sz) n w' os' = Ok w1' /\ world_scaled prec emax n U w1 w1'.
Proof. exact run_scaled_plain. Qed.
Print Assumptions C130_history.

(** one correction, with its innovation y and gain K *)
Theorem C130_gain : forall (prec emax : Z) (sz : bool) (c : cfg) (n m : nat) (U : units) (eo : nat -> Z) (o o' o1 o1' : observation spec_float) (f f' f1 f1' : kalman spec_float),
  (1 < prec)%Z -> (prec < emax)%Z -> 1 <= n -> 1 <= m -> kf_valid c n f -> kf_valid c n f' -> ob_valid c n m o -> ob_valid c n m o' ->
  kf_scaled prec emax n U f f' -> ob_scaled prec emax n U m eo o o' ->
  correct c (sf_roomy prec emax sz) n m o f = Ok (o1, f1) -> correct c (sf_roomy prec emax sz) n m o' f' = Ok (o1', f1') -> decomposed (sf_roomy prec emax sz) n m o o1 f ->
  correct c (sf_num prec emax sz) n m o f = Ok (o1, f1) /\ correct c (sf_num prec emax sz) n m o' f' = Ok (o1', f1') /\
  kf_scaled prec emax n U f1 f1' /\ scaled prec emax m 1 (fun i _ => eo i) (ob_y o1) (ob_y o1') /\ scaled prec emax n m (fun i j => u_x U i - eo j)%Z (ob_K o1) (ob_K o1').
Proof. exact correct_scaled_plain. Qed.
Print Assumptions C130_gain.

(** position * 2^10, speed * 2^-3, push * 2^2, reading * 2^5: predict, control, correct, a new reading, predict; all hypotheses hold *)
Example C130_ex : forall c : cfg, 255 <= usize_max c ->
  world_ok c 2 sw /\ world_ok c 2 sw' /\ world_scaled 24 128 2 sc_units sw sw' /\
  Forall (op_safe c (sf_roomy 24 128 true) 2 (ob_dims sw)) so /\ Forall (op_safe c (sf_roomy 24 128 true) 2 (ob_dims sw')) so' /\
  Forall2 (op_scaled 24 128 2 sc_units (ct_dims sw) (ob_dims sw)) so so' /\
  run c (sf_roomy 24 128 true) 2 sw so = Ok sw1 /\ run c (sf_roomy 24 128 true) 2 sw' so' = Ok sw1' /\ all_decomposed c (sf_roomy 24 128 true) 2 sw so /\
  kf_x (w_kf sw1) <> kf_x (w_kf sw) /\ kf_x (w_kf sw1') <> kf_x (w_kf sw1).
Proof. exact scale_ex. Qed.
(** the proviso cannot be dropped: in units of 2^-63 the same correction overflows in S and silently leaves the state alone *)
Example C130_overflow : forall c : cfg, 255 <= usize_max c -> exists w1 w1',
  world_ok c 1 uw /\ world_ok c 1 uw' /\ world_scaled 24 128 1 u_units uw uw' /\
  run c (f32_num true) 1 uw [OCorrect 0] = Ok w1 /\ run c (f32_num true) 1 uw' [OCorrect 0] = Ok w1' /\
  kf_x (w_kf w1) <> kf_x (w_kf uw) /\ kf_x (w_kf w1') = kf_x (w_kf uw').
Proof. exact scale_overflow. Qed.

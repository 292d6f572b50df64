(** * C96, C97: a float filter of a contracting system, run for ever
    A turn is [predict], optionally followed by writing new inputs and [control].  The rows of A add up (in magnitude) to at most rho, those of B to
    at most beta, no input exceeds U, no entry of Q exceeds q, none of the control's Q exceeds qu; X and M satisfy two scalar inequalities [keeps]
    (roughly rho X + beta U <= X and rho^2 M + q + beta^2 qu <= M up to rounding, everything well below the overflow threshold). *)
From Coq Require Import ZArith Reals.
From Flocq Require Import Core BinarySingleNaN.
From Verif Require Import Prelude Spec Matrix Filter SpecFilter FloatNum SpecFloats SpecReal SpecRange SpecStable FloatStable StableExamples.
Open Scope R_scope.

(** ** C96: no number of turns, with any inputs up to U, overflows or produces a NaN: the state stays within X, the covariance within M *)
Theorem C96_finite_for_ever : forall (c : cfg) (prec emax : Z) (sz : bool), format_ok prec emax -> forall (n m : nat) (f : kalman spec_float) (k : control spec_float) (rho beta U q qu X M : R),
  (1 <= n)%nat -> (1 <= m)%nat -> stable_setup c prec emax n m f k rho beta U q qu X M -> keeps prec emax n m rho beta U q qu X M ->
  forall (cs : list (nat * control spec_float)) (obs : list (nat * observation spec_float)) (ts : list turn), Forall (turn_ok prec emax m U) ts ->
  exists w', run c (sf_num prec emax sz) n (mk_world f ((m, k) :: cs) obs) (turns_ops ts) = Ok w' /\
    fin_matrix n 1 (kf_x (w_kf w')) /\ at_most n 1 (kf_x (w_kf w')) X /\ fin_matrix n n (kf_P (w_kf w')) /\ at_most n n (kf_P (w_kf w')) M.
Proof. exact stable_forever. Qed.
Print Assumptions C96_finite_for_ever.

(** ** C97: and the accumulated rounding error has a bound that does not depend on the number of turns *)
Theorem C97_errors_do_not_accumulate : forall (c : cfg) (prec emax : Z) (sz : bool), format_ok prec emax -> forall (n m : nat) (f : kalman spec_float) (k : control spec_float) (rho beta U q qu X M : R),
  (1 <= n)%nat -> (1 <= m)%nat -> stable_setup c prec emax n m f k rho beta U q qu X M -> keeps prec emax n m rho beta U q qu X M -> rho < 1 ->
  forall (cs : list (nat * control spec_float)) (obs : list (nat * observation spec_float)) (ts : list turn), Forall (turn_ok prec emax m U) ts ->
  let exact := ideal n m (rcell n (kf_A f)) (rcell n (kf_Q f)) (rcell m (ct_B k)) (rcell m (ct_Q k)) ts (fun i => rcell 1 (kf_x f) i 0, rcell n (kf_P f)) in
  exists w', run c (sf_num prec emax sz) n (mk_world f ((m, k) :: cs) obs) (turns_ops ts) = Ok w' /\
    (forall i, (i < n)%nat -> Rabs (rcell 1 (kf_x (w_kf w')) i 0 - fst exact i) <= turn_err prec emax n m rho beta U X / (1 - rho)) /\
    (forall i j, (i < n)%nat -> (j < n)%nat -> Rabs (rcell n (kf_P (w_kf w')) i j - snd exact i j) <= turn_cov_err prec emax n m rho beta q qu M / (1 - rho * rho)).
Proof. exact stable_error. Qed.
Print Assumptions C97_errors_do_not_accumulate.

(** an f32 filter with two states and an input of magnitude up to 4: the state stays below 16, the covariance below 2, both within 1/10000 of the exact ones *)
Example C96_C97_example : forall (c : cfg), (255 <= usize_max c)%nat ->
  stable_setup c 24 128 2 1 kf_st ct_st (5/8) 1 4 (/ 8) (/ 8) 16 2 /\ keeps 24 128 2 1 (5/8) 1 4 (/ 8) (/ 8) 16 2 /\
  turn_ok 24 128 1 4 (Some [f32 (-3) 0]) /\ turn_ok 24 128 1 4 None /\
  turn_err 24 128 2 1 (5/8) 1 4 16 / (1 - 5/8) <= / 10000 /\ turn_cov_err 24 128 2 1 (5/8) 1 (/ 8) (/ 8) 2 / (1 - 5/8 * (5/8)) <= / 10000.
Proof. exact stable_example. Qed.

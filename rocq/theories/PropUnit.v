(** * C87: prediction with tuning factor 1 (or -1) is ordinary prediction, bit for bit.  C88: float results do not depend on the zero
      [Iterator::sum] starts from.

    [sf_num prec emax sz] is f32 for (24, 128) and f64 for (53, 1024), [sz] the sign of that zero; [fx_num bits frac] is I16F16 for (32, 16) and
    I32F32 for (64, 32).  Vocabulary: SpecUnit.v, SpecSum.v. *)
From Coq Require Import ZArith.
From Verif Require Import Spec Matrix Filter Extended History SpecParam SpecFilter SpecGen FloatNum FixedNum SpecFloats SpecReal SpecUnit SpecSum
  UnitProof SumProof BitsExamples FixedWit UnitExamples.
Import SpecFloat.
Open Scope nat_scope.

(** ** C87 *)
Theorem C87_float : forall (c : cfg) (prec emax : Z) (sz : bool), format_ok prec emax -> forall (n : nat) (lam : spec_float) (f : kalman spec_float),
  lam = sf_one prec \/ lam = SFopp (sf_one prec) -> kf_format prec emax f -> all_in_format prec emax (kf_px f) -> all_in_format prec emax (kf_tP f) ->
  predict_tuned c (sf_num prec emax sz) n lam f = predict c (sf_num prec emax sz) n f.
Proof. exact float_tuned_one. Qed.
Print Assumptions C87_float.
Theorem C87_fixed : forall (c : cfg) (bits frac : Z) (oc da : bool), (0 <= frac < bits - 1)%Z -> forall (n : nat) (lam : Z) (f : kalman Z),
  lam = (2 ^ frac)%Z \/ lam = (- 2 ^ frac)%Z -> kf_fits bits f ->
  predict_tuned c (fx_num bits frac oc da) n lam f = predict c (fx_num bits frac oc da) n f.
Proof. exact fixed_tuned_one. Qed.
Print Assumptions C87_fixed.

(** whole programs, regular and extended filter, any element type with this behaviour of one ... *)
Theorem C87_programs : forall (T : Type) (D : T -> Prop) (c : cfg) (N : num T), closed_under D N ->
  forall (n : nat) (os os' : list (op T)), Forall2 (alike D N) os os' ->
  forall w : world T, SpecParam.world_rel (within D) w w -> run c N n w os = run c N n w os'.
Proof. exact @alike_run. Qed.
Print Assumptions C87_programs.
(** ... such as the floats and the fixed-point numbers *)
Theorem C87_float_closed : forall (prec emax : Z) (sz : bool), format_ok prec emax -> closed_under (in_format prec emax) (sf_num prec emax sz).
Proof. exact float_closed. Qed.
Print Assumptions C87_float_closed.
Theorem C87_float_one : forall (prec emax : Z) (sz : bool), format_ok prec emax -> forall lam : spec_float,
  lam = sf_one prec \/ lam = SFopp (sf_one prec) -> size_one (in_format prec emax) (sf_num prec emax sz) lam.
Proof. exact float_size_one. Qed.
Print Assumptions C87_float_one.
Theorem C87_fixed_closed : forall (bits frac : Z) (oc da : bool), (0 <= frac)%Z -> (frac < bits - 1)%Z -> closed_under (fx_in bits) (fx_num bits frac oc da).
Proof. exact fixed_closed. Qed.
Print Assumptions C87_fixed_closed.
Theorem C87_fixed_one : forall (bits frac : Z) (oc da : bool), (0 <= frac)%Z -> (frac < bits - 1)%Z -> forall lam : Z,
  lam = (2 ^ frac)%Z \/ lam = (- 2 ^ frac)%Z -> size_one (fx_in bits) (fx_num bits frac oc da) lam.
Proof. exact fixed_size_one. Qed.
Print Assumptions C87_fixed_one.

Example C87_example : forall (c : cfg) (sz : bool), 255 <= usize_max c ->
  kf_valid c 2 kf_ex /\ kf_format 24 128 kf_ex /\ all_in_format 24 128 (kf_px kf_ex) /\ all_in_format 24 128 (kf_tP kf_ex) /\
  (exists f', predict c (f32_num sz) 2 kf_ex = Ok f' /\ all_finite (kf_P f')).
Proof. exact unit_example. Qed.
Example C87_example_fixed : kf_fits 32 kf_fx.
Proof. exact unit_example_fixed. Qed.
Example C87_example_program : forall sz : bool, Forall2 (alike (in_format 24 128) (f32_num sz)) prog_tuned prog_plain.
Proof. exact prog_alike. Qed.

(** ** C88: filter, controls, gain, innovation, ... are bit for bit the same, whatever zero the sums start from *)
Theorem C88_programs : forall (c : cfg) (prec emax : Z), format_ok prec emax -> forall (s1 s2 : bool) (n : nat) (w : world spec_float) (os : list (op spec_float)),
  world_ok c n w -> world_format prec emax w ->
  Forall (op_safe c (sf_num prec emax s1) n (ob_dims w)) os -> Forall (op_format prec emax) os ->
  exists w1 w2, run c (sf_num prec emax s1) n w os = Ok w1 /\ run c (sf_num prec emax s2) n w os = Ok w2 /\ world_but w1 w2.
Proof. exact run_sum. Qed.
Print Assumptions C88_programs.
(** the matrix function itself: the inverses agree up to the signs of zeros *)
Theorem C88_invert : forall (c : cfg) (prec emax : Z) (s1 s2 : bool) (n : nat) (L v1 v2 : list spec_float),
  1 <= n -> valid c n n L -> valid c n n v1 -> valid c n n v2 -> Forall2 but_sign v1 v2 ->
  exists X1 X2, invert_l_cholesky c (sf_num prec emax s1) n L v1 = Ok X1 /\ invert_l_cholesky c (sf_num prec emax s2) n L v2 = Ok X2 /\
    valid c n n X1 /\ valid c n n X2 /\ Forall2 but_sign X1 X2.
Proof. exact invert_bs. Qed.
Print Assumptions C88_invert.
Example C88_example : forall (c : cfg) (s1 s2 : bool), 255 <= usize_max c ->
  world_ok c 2 w_ex /\ world_format 24 128 w_ex /\ Forall (op_safe c (f32_num s1) 2 (ob_dims w_ex)) prog_plain /\ Forall (op_format 24 128) prog_plain /\
  exists w', run c (f32_num s1) 2 w_ex prog_plain = Ok w' /\ all_finite (kf_P (w_kf w')) /\ all_finite (kf_x (w_kf w')).
Proof. exact sum_example. Qed.

(** * C121: a filter that has nothing to do does nothing.

    [sf_num prec emax sz] is f32 for (24, 128) and f64 for (53, 1024), [sz] the sign of the zero sums start from; [fx_num bits frac oc da] is I16F16 for
    (32, 16) and I32F32 for (64, 32).  Vocabulary: SpecRest.v; [b_prodv N n H x i 0] is the i-th element of H x as the library computes it (SpecBits.v). *)
From Coq Require Import ZArith Floats.SpecFloat.
From Verif Require Import Prelude Numeric FloatNum FixedNum Matrix Filter Extended History Spec SpecFilter SpecGen SpecBits SpecFloats SpecRest Rest FixedWit RestExamples.
Local Open Scope nat_scope.

(** ** a reading that is exactly what the filter expects leaves the state numerically unchanged: float, as long as the gain is finite ... *)
Theorem C121_expected_float : forall (c : cfg) (prec emax : Z) (sz : bool) (n m : nat) (o o' : observation spec_float) (f f' : kalman spec_float),
  1 <= n -> 1 <= m -> ob_valid c n m o -> kf_valid c n f -> correct c (sf_num prec emax sz) n m o f = Ok (o', f') ->
  (forall i z p, i < m -> cell 1 (ob_z o) i 0 = Some z -> b_prodv (sf_num prec emax sz) n (cell n (ob_H o)) (cell 1 (kf_x f)) i 0 = Some p ->
    sf_finite z = true /\ SFeqb z p = true) ->
  all_cells n m float_finite (ob_K o') -> same_vector float_same n (kf_x f) (kf_x f').
Proof. exact float_expected. Qed.
Print Assumptions C121_expected_float.
(** ... and fixed point, whatever the gain *)
Theorem C121_expected_fixed : forall (c : cfg) (bits frac : Z) (oc da : bool) (n m : nat) (o o' : observation Z) (f f' : kalman Z),
  (0 < bits)%Z -> 1 <= n -> 1 <= m -> ob_valid c n m o -> kf_valid c n f -> correct c (fx_num bits frac oc da) n m o f = Ok (o', f') ->
  (forall i, i < m -> cell 1 (ob_z o) i 0 = b_prodv (fx_num bits frac oc da) n (cell n (ob_H o)) (cell 1 (kf_x f)) i 0) ->
  same_vector (fixed_same bits) n (kf_x f) (kf_x f').
Proof. exact fixed_expected. Qed.
Print Assumptions C121_expected_fixed.
Example C121_expected_example : forall (c : cfg) (sz : bool), 255 <= usize_max c -> kf_valid c 1 kf_two /\ ob_valid c 1 1 ob_two /\
  exists o' f' g, correct c (f32_num sz) 1 1 ob_two kf_two = Ok (o', f') /\
  (forall i z p, i < 1 -> cell 1 (ob_z ob_two) i 0 = Some z -> b_prodv (f32_num sz) 1 (cell 1 (ob_H ob_two)) (cell 1 (kf_x kf_two)) i 0 = Some p ->
    sf_finite z = true /\ SFeqb z p = true) /\
  ob_K o' = [g] /\ sf_pos g = true /\ sf_finite g = true /\ kf_x f' = [f32 2 0].
Proof. exact expected_example. Qed.
Example C121_expected_example_fixed : forall c : cfg, 255 <= usize_max c -> kf_valid c 1 (kfz 65536 131072 65536 0) /\ ob_valid c 1 1 (obz 65536 131072 65536) /\
  (forall i, i < 1 -> cell 1 (ob_z (obz 65536 131072 65536)) i 0 =
    b_prodv (i16f16_num true true) 1 (cell 1 (ob_H (obz 65536 131072 65536))) (cell 1 (kf_x (kfz 65536 131072 65536 0))) i 0) /\
  exists o' f' g, correct c (i16f16_num true true) 1 1 (obz 65536 131072 65536) (kfz 65536 131072 65536 0) = Ok (o', f') /\ ob_K o' = [g] /\ (0 < g)%Z /\ kf_x f' = [131072%Z].
Proof. exact expected_example_fixed. Qed.
(** without a finite gain it is false: state 0, variance 0, reading 0 with noise 0 gives a state that is not a number *)
Theorem C121_unqualified_refuted : forall (c : cfg) (sz : bool), 255 <= usize_max c -> kf_valid c 1 kf_sure /\ ob_valid c 1 1 ob_sure /\
  exists o' f', correct c (f32_num sz) 1 1 ob_sure kf_sure = Ok (o', f') /\ kf_x f' = [S754_nan].
Proof. exact sure_example. Qed.
Print Assumptions C121_unqualified_refuted.

(** ** a zero control input leaves the state unchanged *)
Theorem C121_control_float : forall (c : cfg) (prec emax : Z) (sz : bool) (n m : nat) (k k' : control spec_float) (f f' : kalman spec_float),
  1 <= n -> 1 <= m -> kf_valid c n f -> ct_valid c n m k -> control_ c (sf_num prec emax sz) n m k f = Ok (k', f') ->
  all_cells n m float_finite (ct_B k) -> all_cells m 1 float_zero (ct_u k) -> same_vector float_same n (kf_x f) (kf_x f').
Proof. exact control_float. Qed.
Print Assumptions C121_control_float.
Theorem C121_control_fixed : forall (c : cfg) (bits frac : Z) (oc da : bool) (n m : nat) (k k' : control Z) (f f' : kalman Z),
  (0 < bits)%Z -> 1 <= n -> 1 <= m -> kf_valid c n f -> ct_valid c n m k -> control_ c (fx_num bits frac oc da) n m k f = Ok (k', f') ->
  all_cells m 1 fixed_zero (ct_u k) -> same_vector (fixed_same bits) n (kf_x f) (kf_x f').
Proof. exact control_fixed. Qed.
Print Assumptions C121_control_fixed.

(** ** whole programs: a filter whose state, measurements and controls are zero stays at zero through any history *)
Theorem C121_programs : forall (T : Type) (c : cfg) (N : num T) (zero harmless : T -> Prop) (same : T -> T -> Prop), zero_laws N zero harmless same ->
  forall (n : nat) (os : list (op T)) (w w' : world T), world_ok c n w -> Forall (op_safe c N n (ob_dims w)) os -> Forall (restful zero n (ob_dims w)) os ->
  at_rest zero harmless n w -> gains_harmless c N harmless n w os -> run c N n w os = Ok w' -> at_rest zero harmless n w'.
Proof. exact @run_rest. Qed.
Print Assumptions C121_programs.
Theorem C121_float : forall (prec emax : Z) (sz : bool), zero_laws (sf_num prec emax sz) float_zero float_finite float_same.
Proof. exact float_laws. Qed.
Print Assumptions C121_float.
Theorem C121_fixed : forall (c : cfg) (bits frac : Z) (oc da : bool), (0 < bits)%Z ->
  forall (n : nat) (os : list (op Z)) (w w' : world Z), world_ok c n w -> Forall (op_safe c (fx_num bits frac oc da) n (ob_dims w)) os -> Forall (restful fixed_zero n (ob_dims w)) os ->
  at_rest fixed_zero fixed_any n w -> run c (fx_num bits frac oc da) n w os = Ok w' -> all_cells n 1 fixed_zero (kf_x (w_kf w')).
Proof. exact run_rest_fixed. Qed.
Print Assumptions C121_fixed.
Example C121_example : forall (c : cfg) (sz : bool), 255 <= usize_max c ->
  world_ok c 1 w_rest /\ Forall (op_safe c (f32_num sz) 1 (ob_dims w_rest)) prog_rest /\ Forall (restful float_zero 1 (ob_dims w_rest)) prog_rest /\ at_rest float_zero float_finite 1 w_rest.
Proof. exact prog_rest_hyps. Qed.
Example C121_example_gains : forall (c : cfg) (sz : bool), 255 <= usize_max c -> gains_harmless c (f32_num sz) float_finite 1 w_rest prog_rest.
Proof. exact prog_rest_gains. Qed.

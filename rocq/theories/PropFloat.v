(** * Floating-point properties: C34, C44, C45, C46, C59.

    Element type: [f32_num] / [f64_num] (FloatNum.v), IEEE 754 arithmetic as specified by Coq's SpecFloat.  Vocabulary: SpecFloats.v.
    [sz] is the sign of the zero [Iterator::sum] starts from; every statement holds for both.  [c] is any build with pointers of
    at least 8 bits. *)
From Verif Require Import Spec Matrix Filter SpecFilter FloatNum SpecFloats FloatWit FloatGen.

(** ** C34: a correction whose innovation variance is not positive is neither reported nor survived.
    A state known exactly (P = 0) and measured exactly (R = 0) becomes NaN, and the call returns normally *)
Theorem C34_singular_refuted : forall (c : cfg) (sz : bool), 255 <= usize_max c ->
  exists o f o' f', kf_valid c 1 f /\ ob_valid c 1 1 o /\
  kf_x f = [f32 2 0] /\ kf_P f = [S754_zero false] /\ ob_R o = [S754_zero false] /\
  correct c (f32_num sz) 1 1 o f = Ok (o', f') /\ kf_x f' = [S754_nan] /\ kf_P f' = [S754_nan].
Proof. exact singular32. Qed.
Print Assumptions C34_singular_refuted.

(** it is always so: for every format, number of states and contents, a single-component measurement whose computed
    innovation variance is not a positive number turns every component of x and P into an infinity or a NaN, and the call returns
    normally *)
Theorem C34_scalar_destroys : forall (c : cfg) (prec emax : Z) (sz : bool) (n : nat) (o : observation spec_float) (f : kalman spec_float) (s : spec_float),
  255 <= usize_max c -> 1 <= n -> ob_valid c n 1 o -> kf_valid c n f ->
  scalar_S (sf_num prec emax sz) n (ob_H o) (kf_P f) (ob_R o) = Some s -> sf_pos s = false ->
  exists o' f', correct c (sf_num prec emax sz) n 1 o f = Ok (o', f') /\
    (forall i, i < n -> exists v, cell 1 (kf_x f') i 0 = Some v /\ sf_finite v = false) /\
    (forall i j, i < n -> j < n -> exists v, cell n (kf_P f') i j = Some v /\ sf_finite v = false).
Proof. exact sf_scalar_destroys. Qed.
Print Assumptions C34_scalar_destroys.

Example C34_example : forall sz : bool, let f := kf1 (f32 1 0) (f32 2 0) (f32 1 0) in let o := ob1 (f32 1 0) (f32 (-2) 0) in
  exists s, scalar_S (f32_num sz) 1 (ob_H o) (kf_P f) (ob_R o) = Some s /\ sf_pos s = false.
Proof. exact scalar_negative. Qed.

(** ** C44: rounding breaks the symmetry of the covariance, in predict and in correct, for f32 and f64 *)
Theorem C44_predict_f32_refuted : forall (c : cfg) (sz : bool), 255 <= usize_max c ->
  exists f f', kf_valid c 2 f /\ sf_sym 2 (kf_P f) /\ predict c (f32_num sz) 2 f = Ok f' /\ ~ sf_sym 2 (kf_P f').
Proof. exact predict_asym32. Qed.
Print Assumptions C44_predict_f32_refuted.
Theorem C44_predict_f64_refuted : forall (c : cfg) (sz : bool), 255 <= usize_max c ->
  exists f f', kf_valid c 2 f /\ sf_sym 2 (kf_P f) /\ predict c (f64_num sz) 2 f = Ok f' /\ ~ sf_sym 2 (kf_P f').
Proof. exact predict_asym64. Qed.
Print Assumptions C44_predict_f64_refuted.
Theorem C44_correct_f32_refuted : forall (c : cfg) (sz : bool), 255 <= usize_max c ->
  exists o f o' f', kf_valid c 2 f /\ ob_valid c 2 1 o /\ sf_sym 2 (kf_P f) /\
    correct c (f32_num sz) 2 1 o f = Ok (o', f') /\ ~ sf_sym 2 (kf_P f').
Proof. exact correct_asym32. Qed.
Print Assumptions C44_correct_f32_refuted.
Theorem C44_correct_f64_refuted : forall (c : cfg) (sz : bool), 255 <= usize_max c ->
  exists o f o' f', kf_valid c 2 f /\ ob_valid c 2 1 o /\ sf_sym 2 (kf_P f) /\
    correct c (f64_num sz) 2 1 o f = Ok (o', f') /\ ~ sf_sym 2 (kf_P f').
Proof. exact correct_asym64. Qed.
Print Assumptions C44_correct_f64_refuted.

(** ** C45: a positive variance measured directly by a good sensor becomes negative *)
Theorem C45_negative_variance_f32_refuted : forall (c : cfg) (sz : bool), 255 <= usize_max c ->
  exists o f o' f' p p', kf_valid c 1 f /\ ob_valid c 1 1 o /\
  kf_P f = [p] /\ sf_pos p = true /\ sf_finite p = true /\ ob_R o = [f32 1 (-20)] /\ ob_H o = [f32 1 0] /\
  correct c (f32_num sz) 1 1 o f = Ok (o', f') /\ kf_P f' = [p'] /\ sf_neg p' = true.
Proof. exact negative_variance32. Qed.
Print Assumptions C45_negative_variance_f32_refuted.
Theorem C45_negative_variance_f64_refuted : forall (c : cfg) (sz : bool), 255 <= usize_max c ->
  exists o f o' f' p p', kf_valid c 1 f /\ ob_valid c 1 1 o /\
  kf_P f = [p] /\ sf_pos p = true /\ sf_finite p = true /\ ob_R o = [f64 1 (-49)] /\ ob_H o = [f64 1 0] /\
  correct c (f64_num sz) 1 1 o f = Ok (o', f') /\ kf_P f' = [p'] /\ sf_neg p' = true.
Proof. exact negative_variance64. Qed.
Print Assumptions C45_negative_variance_f64_refuted.

(** ** C59: so good data does not protect the state.  The same good sensor applied twice: *)
Theorem C59_same_sensor_twice_refuted : forall (c : cfg) (sz : bool), 255 <= usize_max c ->
  exists o f o1 f1 o2 f2 x, kf_valid c 1 f /\ ob_valid c 1 1 o /\
  kf_P f = [f32 17 0] /\ kf_x f = [f32 2 0] /\ ob_R o = [f32 1 (-20)] /\ ob_H o = [f32 1 0] /\ ob_z o = [f32 1 0] /\
  correct c (f32_num sz) 1 1 o f = Ok (o1, f1) /\ correct c (f32_num sz) 1 1 o1 f1 = Ok (o2, f2) /\
  kf_x f2 = [x] /\ sf_finite x = false.
Proof. exact destroyed32. Qed.
Print Assumptions C59_same_sensor_twice_refuted.
(** two equal sensors with noise 2^-30 each, in one call: P = 1, S = [[1+2^-30, 1], [1, 1+2^-30]] is positive definite *)
Theorem C59_twin_sensors_refuted : forall (c : cfg) (sz : bool), 255 <= usize_max c ->
  exists o f o' f', kf_valid c 1 f /\ ob_valid c 1 2 o /\
  kf_x f = [f32 2 0] /\ kf_P f = [f32 1 0] /\ ob_H o = [f32 1 0; f32 1 0] /\
  ob_R o = [f32 1 (-30); S754_zero false; S754_zero false; f32 1 (-30)] /\ ob_z o = [f32 1 0; f32 1 0] /\
  correct c (f32_num sz) 1 2 o f = Ok (o', f') /\ kf_x f' = [S754_nan] /\ kf_P f' = [S754_nan].
Proof. exact twin32. Qed.
Print Assumptions C59_twin_sensors_refuted.

(** ** C46: a NaN passes for positive definite *)
Theorem C46_nan_accepted_refuted : forall (c : cfg) (sz : bool), 255 <= usize_max c ->
  exists l, cholesky_decompose_lower c (f32_num sz) 1 1 [S754_nan] = Ok (true, l) /\ l = [S754_nan].
Proof. exact cholesky_nan32. Qed.
Print Assumptions C46_nan_accepted_refuted.

(** * C129: an infinite noise variance switches a measured component off (floats)

    For f32, f64 and every other IEEE format ([prec], [emax]), any state size, any number of measured components, any contents: if R_kk is
    +infinity and the corrected estimate is made of finite numbers, then component k had no influence: the estimate and covariance are
    numerically those of the same correction with component k left out (row of H, reading, row and column of R) - and, if it was the only
    component, those before the correction.  The proviso cannot be dropped: an infinite *reading* with infinite variance gives NaN. *)
From Coq Require Import ZArith Floats.SpecFloat.
From Verif Require Import Spec SpecBits Matrix Filter Extended SpecFilter FloatNum SpecFloats SpecRest SpecMute FloatWit MuteProof MuteExamples.
Local Open Scope nat_scope.

Theorem C129_only_component : forall (prec emax : Z) (sz : bool) (c : cfg) (n : nat) (o o' : observation spec_float) (f f' : kalman spec_float),
  1 <= n -> ob_valid c n 1 o -> kf_valid c n f -> cell 1 (ob_R o) 0 0 = Some (S754_infinity false) ->
  correct c (sf_num prec emax sz) n 1 o f = Ok (o', f') -> all_cells n 1 float_finite (kf_x f') -> all_cells n n float_finite (kf_P f') ->
  same_vector float_same n (kf_x f') (kf_x f) /\ same_cells n (kf_P f') (kf_P f) /\ switched_off n 1 0 o'.
Proof. exact mute_alone. Qed.
Print Assumptions C129_only_component.

Theorem C129_only_component_nonlinear : forall (prec emax : Z) (sz : bool) (c : cfg) (n : nat) h (o o' : observation spec_float) (f f' : kalman spec_float),
  1 <= n -> ob_valid c n 1 o -> kf_valid c n f -> closure_ok c (sf_num prec emax sz) 1 n h -> cell 1 (ob_R o) 0 0 = Some (S754_infinity false) ->
  correct_nonlinear c (sf_num prec emax sz) n 1 h o f = Ok (o', f') -> all_cells n 1 float_finite (kf_x f') -> all_cells n n float_finite (kf_P f') ->
  same_vector float_same n (kf_x f') (kf_x f) /\ same_cells n (kf_P f') (kf_P f) /\ switched_off n 1 0 o'.
Proof. exact mute_nl_alone. Qed.
Print Assumptions C129_only_component_nonlinear.

(** [f1'] is the filter corrected by [o1], which is [o] without component k *)
Theorem C129_one_of_many : forall (prec emax : Z) (sz : bool) (c : cfg) (n m k : nat) (o o' o1 o1' : observation spec_float) (f f' f1' : kalman spec_float),
  1 <= n -> 1 <= m -> k <= m -> ob_valid c n (S m) o -> ob_valid c n m o1 -> kf_valid c n f ->
  leaves_out n m k o o1 -> cell (S m) (ob_R o) k k = Some (S754_infinity false) ->
  correct c (sf_num prec emax sz) n (S m) o f = Ok (o', f') -> correct c (sf_num prec emax sz) n m o1 f = Ok (o1', f1') ->
  decomposed (sf_num prec emax sz) n m o1 o1' f ->
  all_cells n 1 float_finite (kf_x f') -> all_cells n n float_finite (kf_P f') ->
  same_vector float_same n (kf_x f') (kf_x f1') /\ same_cells n (kf_P f') (kf_P f1') /\ switched_off n (S m) k o'.
Proof. exact mute_correct. Qed.
Print Assumptions C129_one_of_many.

Theorem C129_one_of_many_nonlinear : forall (prec emax : Z) (sz : bool) (c : cfg) (n m k : nat) h h1 (o o' o1 o1' : observation spec_float) (f f' f1' : kalman spec_float),
  1 <= n -> 1 <= m -> k <= m -> ob_valid c n (S m) o -> ob_valid c n m o1 -> kf_valid c n f ->
  closure_ok c (sf_num prec emax sz) (S m) n h -> closure_ok c (sf_num prec emax sz) m n h1 ->
  leaves_out n m k o o1 ->
  (forall out out1, h (kf_x f) (ob_y o) = Ok out -> h1 (kf_x f) (ob_y o1) = Ok out1 -> forall i, i < m -> cell 1 out1 i 0 = cell 1 out (skip k i) 0) ->
  cell (S m) (ob_R o) k k = Some (S754_infinity false) ->
  correct_nonlinear c (sf_num prec emax sz) n (S m) h o f = Ok (o', f') -> correct_nonlinear c (sf_num prec emax sz) n m h1 o1 f = Ok (o1', f1') ->
  decomposed (sf_num prec emax sz) n m o1 o1' f ->
  all_cells n 1 float_finite (kf_x f') -> all_cells n n float_finite (kf_P f') ->
  same_vector float_same n (kf_x f') (kf_x f1') /\ same_cells n (kf_P f') (kf_P f1') /\ switched_off n (S m) k o'.
Proof. exact mute_nl. Qed.
Print Assumptions C129_one_of_many_nonlinear.

(** a 2-component observation, the first switched off: all hypotheses hold, and the second still moves the estimate *)
Example C129_ex : forall c, 255 <= usize_max c -> exists o' f' o1' f1', ob_valid c 2 2 (mu_ob mu1 oo) /\ ob_valid c 2 1 mu_ob1 /\ kf_valid c 2 mu_kf /\
  leaves_out 2 1 0 (mu_ob mu1 oo) mu_ob1 /\ cell 2 (ob_R (mu_ob mu1 oo)) 0 0 = Some oo /\
  correct c (f32_num true) 2 2 (mu_ob mu1 oo) mu_kf = Ok (o', f') /\ correct c (f32_num true) 2 1 mu_ob1 mu_kf = Ok (o1', f1') /\
  decomposed (f32_num true) 2 1 mu_ob1 o1' mu_kf /\ all_cells 2 1 float_finite (kf_x f') /\ all_cells 2 2 float_finite (kf_P f') /\
  kf_x f' = kf_x f1' /\ kf_x f' <> kf_x mu_kf.
Proof. exact mute_ex. Qed.
Example C129_only_ex : forall c, 255 <= usize_max c -> exists o' f', ob_valid c 1 1 (ob1 mu1 oo) /\ kf_valid c 1 (kf1 mu1 (f32 2 0) mu1) /\
  cell 1 (ob_R (ob1 mu1 oo)) 0 0 = Some oo /\
  correct c (f32_num true) 1 1 (ob1 mu1 oo) (kf1 mu1 (f32 2 0) mu1) = Ok (o', f') /\ all_cells 1 1 float_finite (kf_x f') /\ all_cells 1 1 float_finite (kf_P f').
Proof. exact mute_alone_ex. Qed.
(** why finite results are asked for: the gain of the infinite reading is zero, and still the estimate is lost (0 * infinity) *)
Example C129_infinite_reading : forall c, 255 <= usize_max c -> exists o' f', ob_valid c 2 2 (mu_ob oo oo) /\ kf_valid c 2 mu_kf /\
  correct c (f32_num true) 2 2 (mu_ob oo oo) mu_kf = Ok (o', f') /\ switched_off 2 2 0 o' /\ kf_x f' = (cons S754_nan (cons S754_nan nil)).
Proof. exact mute_inf_reading. Qed.

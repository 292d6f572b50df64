(** * C34, continued: a correction that has no solution, for any number of measured components.

    Element type: [sf_num prec emax], i.e. f32, f64 (any IEEE format).  Vocabulary: SpecBits.v ([b_prodt], [b_prod], [b_add]: products and
    sums of matrices in the element type's own arithmetic), SpecPoison.v ([all_bad]: every cell is an infinity or a NaN). *)
From Verif Require Import Spec SpecBits Matrix Filter Extended SpecFilter SpecGen FloatNum SpecFloats SpecPoison Garbage.

(** if the first diagonal element of the computed innovation covariance H P H' + R is not a positive number, every component of x and P is
    lost, and the call returns normally *)
Theorem C34_first_destroys : forall (c : cfg) (prec emax : Z) (sz : bool) (n m : nat) (o : observation spec_float) (f : kalman spec_float) (s : spec_float),
  1 <= n -> 1 <= m -> ob_valid c n m o -> kf_valid c n f ->
  b_add (sf_num prec emax sz) (b_prodt (sf_num prec emax sz) n (b_prod (sf_num prec emax sz) n (cell n (ob_H o)) (cell n (kf_P f))) (cell n (ob_H o)) 0 0)
    (cell m (ob_R o) 0 0) = Some s -> sf_pos s = false ->
  exists o' f', correct c (sf_num prec emax sz) n m o f = Ok (o', f') /\ all_bad n 1 (kf_x f') /\ all_bad n n (kf_P f').
Proof. exact correct_first. Qed.
Print Assumptions C34_first_destroys.
Theorem C34_first_destroys_nonlinear : forall (c : cfg) (prec emax : Z) (sz : bool) (n m : nat) (h : list spec_float -> list spec_float -> res (list spec_float))
    (o : observation spec_float) (f : kalman spec_float) (s : spec_float),
  1 <= n -> 1 <= m -> closure_ok c (sf_num prec emax sz) m n h -> ob_valid c n m o -> kf_valid c n f ->
  b_add (sf_num prec emax sz) (b_prodt (sf_num prec emax sz) n (b_prod (sf_num prec emax sz) n (cell n (ob_H o)) (cell n (kf_P f))) (cell n (ob_H o)) 0 0)
    (cell m (ob_R o) 0 0) = Some s -> sf_pos s = false ->
  exists o' f', correct_nonlinear c (sf_num prec emax sz) n m h o f = Ok (o', f') /\ all_bad n 1 (kf_x f') /\ all_bad n n (kf_P f').
Proof. exact correct_nl_first. Qed.
Print Assumptions C34_first_destroys_nonlinear.
Example C34_first_example : forall (c : cfg) (sz : bool), 255 <= usize_max c -> let f := kf_g (f32 1 0) (f32 1 0) in let z0 := S754_zero false in
  let o := mk_obs [f32 1 0; f32 1 0] [f32 1 0; f32 1 0] [f32 (-2) 0; z0; z0; f32 1 0] [z0; z0] [z0; z0; z0; z0] [z0; z0] [z0; z0; z0; z0] [z0; z0] [z0; z0] [z0] in
  kf_valid c 1 f /\ ob_valid c 1 2 o /\
  exists s, b_add (f32_num sz) (b_prodt (f32_num sz) 1 (b_prod (f32_num sz) 1 (cell 1 (ob_H o)) (cell 1 (kf_P f))) (cell 1 (ob_H o)) 0 0) (cell 2 (ob_R o) 0 0) = Some s /\ sf_pos s = false.
Proof. exact first_example. Qed.

(** likewise for any component: if a diagonal element that the decomposition leaves in the S buffer is zero, or anything else whose
    reciprocal is not finite, every component of x and P is lost *)
Theorem C34_pivot_destroys : forall (c : cfg) (prec emax : Z) (sz : bool) (n m : nat) (o o' : observation spec_float) (f f' : kalman spec_float) (i : nat) (r : spec_float),
  1 <= n -> 1 <= m -> ob_valid c n m o -> kf_valid c n f -> correct c (sf_num prec emax sz) n m o f = Ok (o', f') ->
  i < m -> obind (cell m (ob_S o') i i) (o_recip (sf_num prec emax sz)) = Some r -> sf_finite r = false ->
  all_bad n 1 (kf_x f') /\ all_bad n n (kf_P f').
Proof. exact correct_lost. Qed.
Print Assumptions C34_pivot_destroys.
Theorem C34_pivot_destroys_nonlinear : forall (c : cfg) (prec emax : Z) (sz : bool) (n m : nat) (h : list spec_float -> list spec_float -> res (list spec_float))
    (o o' : observation spec_float) (f f' : kalman spec_float) (i : nat) (r : spec_float),
  1 <= n -> 1 <= m -> closure_ok c (sf_num prec emax sz) m n h -> ob_valid c n m o -> kf_valid c n f ->
  correct_nonlinear c (sf_num prec emax sz) n m h o f = Ok (o', f') ->
  i < m -> obind (cell m (ob_S o') i i) (o_recip (sf_num prec emax sz)) = Some r -> sf_finite r = false ->
  all_bad n 1 (kf_x f') /\ all_bad n n (kf_P f').
Proof. exact correct_nl_lost. Qed.
Print Assumptions C34_pivot_destroys_nonlinear.
Example C34_pivot_example : forall (c : cfg) (sz : bool), 255 <= usize_max c -> let f := kf_g (f32 1 0) (f32 4 0) in let o := ob_g (f32 1 0) (S754_zero false) in
  kf_valid c 1 f /\ ob_valid c 1 2 o /\ exists o' f' r, correct c (f32_num sz) 1 2 o f = Ok (o', f') /\
    obind (cell 2 (ob_S o') 1 1) (o_recip (f32_num sz)) = Some r /\ sf_finite r = false.
Proof. exact pivot_example. Qed.

(** otherwise a refused decomposition goes unnoticed altogether: two sensors of equal small noise both read 1 of a state estimated as 0.
    The true update is between 0 and 1 with a variance below the noise; the call returns normally, everything is finite, and the estimate is
    -2^24 with a variance above 3 * 2^30 *)
Theorem C34_garbage_f32_refuted : forall (c : cfg) (sz : bool), 255 <= usize_max c ->
  exists o f o' f', kf_valid c 1 f /\ ob_valid c 1 2 o /\
  kf_x f = [S754_zero false] /\ kf_P f = [f32 193 0] /\ ob_H o = [f32 1 0; f32 1 0] /\ ob_R o = [f32 1 (-17); S754_zero false; S754_zero false; f32 1 (-17)] /\
  ob_z o = [f32 1 0; f32 1 0] /\
  correct c (f32_num sz) 1 2 o f = Ok (o', f') /\ kf_x f' = [f32 (-1) 24] /\ exists p, kf_P f' = [p] /\ sf_finite p = true /\ SFltb (f32 3 30) p = true.
Proof. exact garbage32. Qed.
Print Assumptions C34_garbage_f32_refuted.
Theorem C34_garbage_f64_refuted : forall (c : cfg) (sz : bool), 255 <= usize_max c ->
  exists o f o' f', kf_valid c 1 f /\ ob_valid c 1 2 o /\
  kf_x f = [S754_zero false] /\ kf_P f = [f64 186 0] /\ ob_H o = [f64 1 0; f64 1 0] /\ ob_R o = [f64 1 (-46); S754_zero false; S754_zero false; f64 1 (-46)] /\
  ob_z o = [f64 1 0; f64 1 0] /\
  correct c (f64_num sz) 1 2 o f = Ok (o', f') /\ kf_x f' = [f64 (-1) 54] /\ exists p, kf_P f' = [p] /\ sf_finite p = true /\ SFltb (f64 1 61) p = true.
Proof. exact garbage64. Qed.
Print Assumptions C34_garbage_f64_refuted.

(** * Rounding: C79 (control), C80 (correction), C81 (Cholesky factor), C82 (gain of a single component), C83 (IEEE 754), C84 (element types).

    [sf_num prec emax] is f32 for (24, 128) and f64 for (53, 1024); [val] is the real number a float stands for, [rcell C l i j] the value of
    the cell (i, j) of a matrix of C columns, u = 2^-prec the unit roundoff.  Vocabulary: SpecReal.v, SpecIeee.v, SpecParam.v. *)
From Coq Require Import ZArith Reals.
From Flocq Require Import Core BinarySingleNaN.
From Verif Require Import Spec Matrix Filter Extended History SpecFilter FloatNum SpecFloats SpecReal SpecParam SpecIeee Param FloatFmt FloatUpdate FloatFactor FloatGain
  BitsExamples RealExamples RoundExamples.
Open Scope R_scope.

(** ** C79: x' against x + B u, and P' against P + (B Q) B' *)
Theorem C79_control : forall (c : cfg) (prec emax : Z) (sz : bool), format_ok prec emax -> forall (n m : nat) (k : control spec_float) (f : kalman spec_float),
  (1 <= n)%nat -> (1 <= m)%nat -> kf_valid c n f -> ct_valid c n m k -> kf_format prec emax f -> ct_format prec emax k ->
  exists k' f', control_ c (sf_num prec emax sz) n m k f = Ok (k', f') /\
  (forall i, (i < n)%nat -> exists r, cell 1 (kf_x f') i 0 = Some r /\
     vec_bound prec emax m (rcell 1 (kf_x f) i 0) (fun l => rcell m (ct_B k) i l) (fun l => rcell 1 (ct_u k) l 0) r) /\
  (forall i j, (i < n)%nat -> (j < n)%nat -> exists r, cell n (kf_P f') i j = Some r /\
     mat_bound prec emax m m (rcell n (kf_P f) i j) (fun p l => rcell m (ct_B k) i l) (fun p l => rcell m (ct_Q k) l p) (fun p => rcell m (ct_B k) j p) r).
Proof. exact control_err. Qed.
Print Assumptions C79_control.
Example C79_example : forall (c : cfg) (sz : bool), (255 <= usize_max c)%nat ->
  kf_valid c 2 kf_ex /\ ct_valid c 2 1 ct_ex /\ kf_format 24 128 kf_ex /\ ct_format 24 128 ct_ex /\
  exists k' f', control_ c (f32_num sz) 2 1 ct_ex kf_ex = Ok (k', f') /\ all_finite (kf_P f').
Proof. exact round_control_example. Qed.

(** ** C80: y against z - H x, K against (P H') Sinv, x' against x + K y, P' against P - K (H P) *)
Theorem C80_correct : forall (c : cfg) (prec emax : Z) (sz : bool), format_ok prec emax -> forall (n m : nat) (o : observation spec_float) (f : kalman spec_float),
  (1 <= n)%nat -> (1 <= m)%nat -> ob_valid c n m o -> kf_valid c n f ->
  kf_format prec emax f -> all_in_format prec emax (kf_px f) -> all_in_format prec emax (kf_tP f) -> ob_format prec emax o ->
  exists o' f', correct c (sf_num prec emax sz) n m o f = Ok (o', f') /\
  (forall i, (i < m)%nat -> exists r, cell 1 (ob_y o') i 0 = Some r /\
     vec_bound prec emax n (rcell 1 (ob_z o) i 0) (fun l => - rcell n (ob_H o) i l) (fun l => rcell 1 (kf_x f) l 0) r) /\
  (forall i j, (i < n)%nat -> (j < m)%nat -> exists r, cell m (ob_K o') i j = Some r /\
     mat_bound prec emax n m 0 (fun p l => rcell n (kf_P f) i l) (fun p l => rcell n (ob_H o) p l) (fun p => rcell m (ob_Sinv o') p j) r) /\
  (forall i, (i < n)%nat -> exists r, cell 1 (kf_x f') i 0 = Some r /\
     vec_bound prec emax m (rcell 1 (kf_x f) i 0) (fun l => rcell m (ob_K o') i l) (fun l => rcell 1 (ob_y o') l 0) r) /\
  (forall i j, (i < n)%nat -> (j < n)%nat -> exists r, cell n (kf_P f') i j = Some r /\
     mat_bound prec emax n m (rcell n (kf_P f) i j) (fun p l => rcell n (ob_H o) p l) (fun p l => rcell n (kf_P f) l j) (fun p => - rcell m (ob_K o') i p) r).
Proof. exact correct_err. Qed.
Print Assumptions C80_correct.
Example C80_example : forall (c : cfg) (sz : bool), (255 <= usize_max c)%nat ->
  kf_valid c 2 kf_ex /\ ob_valid c 2 2 ob_ex /\ kf_format 24 128 kf_ex /\ all_in_format 24 128 (kf_px kf_ex) /\
  all_in_format 24 128 (kf_tP kf_ex) /\ ob_format 24 128 ob_ex /\ exists o' f', correct c (f32_num sz) 2 2 ob_ex kf_ex = Ok (o', f') /\ all_finite (kf_P f').
Proof. exact round_correct_example. Qed.

(** ** C81: a finite factor L reproduces the matrix: A against L L' *)
Theorem C81_cholesky : forall (c : cfg) (prec emax : Z) (sz : bool), format_ok prec emax -> forall (n : nat) (A L : list spec_float),
  (1 <= n)%nat -> (4 <= emax)%Z -> valid c n n A -> all_in_format prec emax A ->
  cholesky_decompose_lower c (sf_num prec emax sz) n n A = Ok (true, L) ->
  (forall i j x, (j <= i < n)%nat -> cell n L i j = Some x -> sf_finite x = true) ->
  forall i j, (i <= j < n)%nat -> let u := uro prec in
    Rabs (rcell n A i j - rsum (S i) (fun k => rcell n L i k * rcell n L j k)) <=
      ((1 + u) ^ (i + 3) - 1) * rsum (S i) (fun k => Rabs (rcell n L i k) * Rabs (rcell n L j k))
      + (1 + u) ^ i * eta prec emax * (INR i + 2 * rcell n L i i).
Proof. exact cholesky_backward. Qed.
Print Assumptions C81_cholesky.
Example C81_example : forall (c : cfg) (sz : bool), (255 <= usize_max c)%nat -> valid c 2 2 (kf_P kf_ex) /\ all_in_format 24 128 (kf_P kf_ex) /\
  exists L, cholesky_decompose_lower c (f32_num sz) 2 2 (kf_P kf_ex) = Ok (true, L) /\ all_finite L.
Proof. exact chol_finite_example. Qed.

(** ** C82: a single measured component: the reported gain K solves K S = P H' with S = H P H' + R, up to rounding,
    unless the correction produced a non-finite state or innovation deviation (sqrt S) *)
Theorem C82_scalar_gain : forall (c : cfg) (prec emax : Z) (sz : bool), format_ok prec emax -> forall (n : nat) (o : observation spec_float) (f : kalman spec_float),
  (255 <= usize_max c)%nat -> (4 <= emax)%Z -> (1 <= n)%nat -> ob_valid c n 1 o -> kf_valid c n f ->
  kf_format prec emax f -> all_in_format prec emax (kf_px f) -> all_in_format prec emax (kf_tP f) -> ob_format prec emax o ->
  exists o' f', correct c (sf_num prec emax sz) n 1 o f = Ok (o', f') /\
  forall i v w, (i < n)%nat -> cell 1 (kf_x f') i 0 = Some v -> sf_finite v = true -> cell 1 (ob_S o') 0 0 = Some w -> sf_finite w = true ->
    let u := uro prec in let e := eta prec emax in
    let H := rcell n (ob_H o) 0 in let P := rcell n (kf_P f) in let r := rcell 1 (ob_R o) 0 0 in let K := rcell 1 (ob_K o') i 0 in
    let S := r + rsum n (fun k => rsum n (fun l => H l * P l k) * H k) in
    let C := rsum n (fun l => P i l * H l) in
    let aS := Rabs r + rsum n (fun k => rsum n (fun l => Rabs (H l) * Rabs (P l k)) * Rabs (H k)) in
    let aC := rsum n (fun l => Rabs (P i l) * Rabs (H l)) in
    let eS := ((1 + u) ^ (n + n + 1) - 1) * aS + (1 + u) ^ (n + n + 1) * e * (INR n * rsum n (fun k => Rabs (H k)) + INR n) in
    let C1 := (1 + u) ^ n * (aC + INR n * e) in
    Rabs (K * S - C) <= Rabs K * eS + ((1 + u) ^ 6 * C1 - aC) + e * (Rabs S + eS) * (2 * C1 + 1).
Proof. exact scalar_gain. Qed.
Print Assumptions C82_scalar_gain.
Example C82_example : forall (c : cfg) (sz : bool), (255 <= usize_max c)%nat ->
  kf_valid c 2 kf_ex /\ ob_valid c 2 1 ob_one /\ kf_format 24 128 kf_ex /\ all_in_format 24 128 (kf_px kf_ex) /\
  all_in_format 24 128 (kf_tP kf_ex) /\ ob_format 24 128 ob_one /\
  exists o' f', correct c (f32_num sz) 2 1 ob_one kf_ex = Ok (o', f') /\ all_finite (kf_x f') /\ all_finite (ob_S o') /\ all_finite (kf_P f').
Proof. exact scalar_gain_example. Qed.

(** ** C83: whole programs over f32 / f64 are programs over Flocq's formalisation of IEEE 754 *)
Theorem C83_ieee : forall (c : cfg) (prec emax : Z) (sz : bool) (Hp : Prec_gt_0 prec) (Hm : Prec_lt_emax prec emax), (1 < prec)%Z ->
  forall (n : nat) (w : world (binary_float prec emax)) (v : world spec_float) (os : list (op (binary_float prec emax))) (qs : list (op spec_float)),
  world_rel (fun b x => B2SF b = x) w v -> Forall2 (op_rel False (fun b x => B2SF b = x)) os qs ->
  res_rel False (world_rel (fun b x => B2SF b = x)) (run c (ieee_num prec emax Hp Hm sz) n w os) (run c (sf_num prec emax sz) n v qs).
Proof. exact run_ieee. Qed.
Print Assumptions C83_ieee.
(** every filter with its controls and observations is such an image *)
Theorem C83_image : forall (prec emax : Z) (f : kalman spec_float) (cts : list (nat * control spec_float)) (obs : list (nat * observation spec_float)),
  kf_format prec emax f -> all_in_format prec emax (kf_px f) -> all_in_format prec emax (kf_tP f) ->
  Forall (fun p => ct_format prec emax (snd p) /\ all_in_format prec emax (ct_BQ (snd p))) cts -> Forall (fun p => ob_format prec emax (snd p)) obs ->
  exists w : world (binary_float prec emax), world_rel (fun b x => B2SF b = x) w (mk_world f cts obs).
Proof. exact image_world. Qed.
Print Assumptions C83_image.
Example C83_example : kf_format 24 128 kf_ex /\ all_in_format 24 128 (kf_px kf_ex) /\ all_in_format 24 128 (kf_tP kf_ex).
Proof. exact kf_fmt_ex. Qed.

(** ** C84: a correspondence between two element types that their arithmetic respects is respected by every program *)
Theorem C84_programs : forall (T1 T2 : Type) (esc : Prop) (R : T1 -> T2 -> Prop) (c : cfg) (N1 : num T1) (N2 : num T2), num_rel esc R N1 N2 ->
  forall (n : nat) (os : list (op T1)) (qs : list (op T2)), Forall2 (op_rel esc R) os qs ->
  forall (w : world T1) (v : world T2), world_rel R w v -> res_rel esc (world_rel R) (run c N1 n w os) (run c N2 n v qs).
Proof. exact @run_param. Qed.
Print Assumptions C84_programs.
Example C84_example : forall (prec emax : Z) (sz : bool) (Hp : Prec_gt_0 prec) (Hm : Prec_lt_emax prec emax), (1 < prec)%Z ->
  num_rel False (fun b x => B2SF b = x) (ieee_num prec emax Hp Hm sz) (sf_num prec emax sz).
Proof. exact ieee_sf. Qed.

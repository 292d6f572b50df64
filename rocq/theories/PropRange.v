(** * Range: C85 (moderate data cannot overflow), C86 (the rounded single-component correction against the exact one), and the
    parts of C44, C45, C59 that hold: symmetry up to rounding, variances with a margin stay positive, sound data keep the state finite.

    [sf_num prec emax] is f32 for (24, 128) and f64 for (53, 1024).  Vocabulary: SpecReal.v, SpecRange.v ([fin_matrix]: all cells finite;
    [at_most]: all entries at most M in magnitude; [too_big] = 2^emax; [cell_room], [vec_room], [mat_room]: the sum of the magnitudes of the
    terms of the expression, times a rounding factor (1+u)^k, stays below 2^emax). *)
From Coq Require Import ZArith Reals.
From Flocq Require Import Core BinarySingleNaN.
From Verif Require Import Spec Matrix Filter SpecFilter FloatNum SpecFloats SpecReal SpecRange FloatRange FloatScalar FloatForward BitsExamples RoundExamples RangeExamples ForwardExamples.
Open Scope R_scope.

(** ** C85: products *)
Theorem C85_mult : forall (c : cfg) (prec emax : Z) (sz : bool), format_ok prec emax -> forall (M K U : nat) (a b out : list spec_float),
  valid c M K a -> valid c K U b -> valid c M U out -> all_in_format prec emax a -> all_in_format prec emax b -> fin_matrix M K a -> fin_matrix K U b ->
  exists out', mult c (sf_num prec emax sz) M K U a b out = Ok out' /\ forall i j, (i < M)%nat -> (j < U)%nat ->
    cell_room prec emax K (fun k => rcell K a i k) (fun k => rcell U b k j) -> exists r, cell U out' i j = Some r /\ sf_finite r = true.
Proof. exact mult_fin. Qed.
Print Assumptions C85_mult.
Theorem C85_mult_transb : forall (c : cfg) (prec emax : Z) (sz : bool), format_ok prec emax -> forall (M K U : nat) (a b out : list spec_float),
  valid c M K a -> valid c U K b -> valid c M U out -> all_in_format prec emax a -> all_in_format prec emax b -> fin_matrix M K a -> fin_matrix U K b ->
  exists out', mult_transb c (sf_num prec emax sz) M K U a b out = Ok out' /\ forall i j, (i < M)%nat -> (j < U)%nat ->
    cell_room prec emax K (fun k => rcell K a i k) (fun k => rcell K b j k) -> exists r, cell U out' i j = Some r /\ sf_finite r = true.
Proof. exact mult_transb_fin. Qed.
Print Assumptions C85_mult_transb.

(** ** C85: prediction *)
Theorem C85_predict : forall (c : cfg) (prec emax : Z) (sz : bool), format_ok prec emax -> forall (n : nat) (f : kalman spec_float),
  (1 <= n)%nat -> kf_valid c n f -> kf_format prec emax f ->
  fin_matrix n n (kf_A f) -> fin_matrix n 1 (kf_x f) -> fin_matrix n n (kf_P f) -> fin_matrix n n (kf_Q f) ->
  exists f', predict c (sf_num prec emax sz) n f = Ok f' /\
  (forall i, (i < n)%nat -> cell_room prec emax n (fun k => rcell n (kf_A f) i k) (fun k => rcell 1 (kf_x f) k 0) ->
     exists r, cell 1 (kf_x f') i 0 = Some r /\ sf_finite r = true) /\
  (forall i j, (i < n)%nat -> (j < n)%nat ->
     mat_room prec emax n n (rcell n (kf_Q f) i j) (fun k l => rcell n (kf_A f) i l) (fun k l => rcell n (kf_P f) l k) (fun k => rcell n (kf_A f) j k) ->
     exists r, cell n (kf_P f') i j = Some r /\ sf_finite r = true).
Proof. exact predict_fin. Qed.
Print Assumptions C85_predict.
(** all entries at most M, and 8 n^2 M^3 below the threshold *)
Theorem C85_predict_small : forall (c : cfg) (prec emax : Z) (sz : bool), format_ok prec emax -> forall (n : nat) (f : kalman spec_float) (M : R),
  (1 <= n)%nat -> kf_valid c n f -> kf_format prec emax f ->
  fin_matrix n n (kf_A f) -> fin_matrix n 1 (kf_x f) -> fin_matrix n n (kf_P f) -> fin_matrix n n (kf_Q f) -> 1 <= M ->
  at_most n n (kf_A f) M -> at_most n 1 (kf_x f) M -> at_most n n (kf_P f) M -> at_most n n (kf_Q f) M ->
  INR (4 * n + 2) * uro prec <= 1 -> 8 * INR n ^ 2 * M ^ 3 < too_big emax ->
  exists f', predict c (sf_num prec emax sz) n f = Ok f' /\ fin_matrix n 1 (kf_x f') /\ fin_matrix n n (kf_P f').
Proof. exact predict_small. Qed.
Print Assumptions C85_predict_small.
Example C85_predict_example : forall (c : cfg), (255 <= usize_max c)%nat ->
  kf_valid c 2 kf_ex /\ kf_format 24 128 kf_ex /\ fin_matrix 2 2 (kf_A kf_ex) /\ fin_matrix 2 1 (kf_x kf_ex) /\ fin_matrix 2 2 (kf_P kf_ex) /\ fin_matrix 2 2 (kf_Q kf_ex) /\
  at_most 2 2 (kf_A kf_ex) 8 /\ at_most 2 1 (kf_x kf_ex) 8 /\ at_most 2 2 (kf_P kf_ex) 8 /\ at_most 2 2 (kf_Q kf_ex) 8 /\
  INR (4 * 2 + 2) * uro 24 <= 1 /\ 8 * INR 2 ^ 2 * 8 ^ 3 < too_big 128.
Proof. exact range_predict_example. Qed.

(** ** C85: control input *)
Theorem C85_control : forall (c : cfg) (prec emax : Z) (sz : bool), format_ok prec emax -> forall (n m : nat) (k : control spec_float) (f : kalman spec_float),
  (1 <= n)%nat -> (1 <= m)%nat -> kf_valid c n f -> ct_valid c n m k -> kf_format prec emax f -> ct_format prec emax k ->
  fin_matrix n 1 (kf_x f) -> fin_matrix n n (kf_P f) -> fin_matrix n m (ct_B k) -> fin_matrix m 1 (ct_u k) -> fin_matrix m m (ct_Q k) ->
  exists k' f', control_ c (sf_num prec emax sz) n m k f = Ok (k', f') /\
  (forall i, (i < n)%nat -> vec_room prec emax m (rcell 1 (kf_x f) i 0) (fun l => rcell m (ct_B k) i l) (fun l => rcell 1 (ct_u k) l 0) ->
     exists r, cell 1 (kf_x f') i 0 = Some r /\ sf_finite r = true) /\
  (forall i j, (i < n)%nat -> (j < n)%nat ->
     mat_room prec emax m m (rcell n (kf_P f) i j) (fun p l => rcell m (ct_B k) i l) (fun p l => rcell m (ct_Q k) l p) (fun p => rcell m (ct_B k) j p) ->
     exists r, cell n (kf_P f') i j = Some r /\ sf_finite r = true).
Proof. exact control_fin. Qed.
Print Assumptions C85_control.

(** ** C85: correction; the innovation from the data, the state and the covariance from the computed gain *)
Theorem C85_correct : forall (c : cfg) (prec emax : Z) (sz : bool), format_ok prec emax -> forall (n m : nat) (o : observation spec_float) (f : kalman spec_float),
  (1 <= n)%nat -> (1 <= m)%nat -> ob_valid c n m o -> kf_valid c n f ->
  kf_format prec emax f -> all_in_format prec emax (kf_px f) -> all_in_format prec emax (kf_tP f) -> ob_format prec emax o ->
  fin_matrix n 1 (kf_x f) -> fin_matrix n n (kf_P f) -> fin_matrix m n (ob_H o) -> fin_matrix m 1 (ob_z o) ->
  exists o' f', correct c (sf_num prec emax sz) n m o f = Ok (o', f') /\
  (forall i, (i < m)%nat -> vec_room prec emax n (rcell 1 (ob_z o) i 0) (fun l => rcell n (ob_H o) i l) (fun l => rcell 1 (kf_x f) l 0) ->
     exists r, cell 1 (ob_y o') i 0 = Some r /\ sf_finite r = true) /\
  (fin_matrix m m (ob_Sinv o') -> forall i j, (i < n)%nat -> (j < m)%nat ->
     mat_room prec emax n m 0 (fun p l => rcell n (kf_P f) i l) (fun p l => rcell n (ob_H o) p l) (fun p => rcell m (ob_Sinv o') p j) ->
     exists r, cell m (ob_K o') i j = Some r /\ sf_finite r = true) /\
  (fin_matrix m 1 (ob_y o') -> fin_matrix n m (ob_K o') -> forall i, (i < n)%nat ->
     vec_room prec emax m (rcell 1 (kf_x f) i 0) (fun l => rcell m (ob_K o') i l) (fun l => rcell 1 (ob_y o') l 0) ->
     exists r, cell 1 (kf_x f') i 0 = Some r /\ sf_finite r = true) /\
  (fin_matrix n m (ob_K o') -> forall i j, (i < n)%nat -> (j < n)%nat ->
     mat_room prec emax n m (rcell n (kf_P f) i j) (fun p l => rcell n (ob_H o) p l) (fun p l => rcell n (kf_P f) l j) (fun p => rcell m (ob_K o') i p) ->
     exists r, cell n (kf_P f') i j = Some r /\ sf_finite r = true).
Proof. exact correct_fin. Qed.
Print Assumptions C85_correct.
Example C85_example : forall (c : cfg), (255 <= usize_max c)%nat ->
  (kf_valid c 2 kf_ex /\ ct_valid c 2 1 ct_ex /\ ob_valid c 2 2 ob_ex) /\
  (kf_format 24 128 kf_ex /\ ct_format 24 128 ct_ex /\ ob_format 24 128 ob_ex) /\
  (fin_matrix 2 1 (kf_x kf_ex) /\ fin_matrix 2 2 (kf_P kf_ex) /\ fin_matrix 2 1 (ct_B ct_ex) /\ fin_matrix 1 1 (ct_u ct_ex) /\ fin_matrix 1 1 (ct_Q ct_ex) /\
   fin_matrix 2 2 (ob_H ob_ex) /\ fin_matrix 2 1 (ob_z ob_ex)) /\
  vec_room 24 128 1 (rcell 1 (kf_x kf_ex) 0 0) (fun l => rcell 1 (ct_B ct_ex) 0 l) (fun l => rcell 1 (ct_u ct_ex) l 0).
Proof. exact range_other_example. Qed.

(** ** C59, the part that holds: one measured component, the innovation variance above its rounding error and no number near the threshold *)
Theorem C59_single_component_partial : forall (c : cfg) (prec emax : Z) (sz : bool), format_ok prec emax -> forall (n : nat) (o : observation spec_float) (f : kalman spec_float),
  (4 <= emax)%Z -> (1 <= n)%nat -> ob_valid c n 1 o -> kf_valid c n f ->
  kf_format prec emax f -> all_in_format prec emax (kf_px f) -> all_in_format prec emax (kf_tP f) -> ob_format prec emax o ->
  fin_matrix n 1 (kf_x f) -> fin_matrix n n (kf_P f) -> fin_matrix 1 n (ob_H o) -> fin_matrix 1 1 (ob_z o) -> fin_matrix 1 1 (ob_R o) ->
  let H := rcell n (ob_H o) 0 in let P := rcell n (kf_P f) in let r := rcell 1 (ob_R o) 0 0 in
  scalar_room prec emax n r (rcell 1 (ob_z o) 0 0) H (fun i => rcell 1 (kf_x f) i 0) P ->
  exists o' f', correct c (sf_num prec emax sz) n 1 o f = Ok (o', f') /\ fin_matrix 1 1 (ob_S o') /\ fin_matrix n 1 (ob_K o') /\ fin_matrix n 1 (kf_x f') /\ fin_matrix n n (kf_P f') /\
    forall i, (i < n)%nat -> Rabs (rcell 1 (ob_K o') i 0) <= gain_max prec emax n r H P i.
Proof. exact scalar_fin. Qed.
Print Assumptions C59_single_component_partial.
(** all entries at most M, the innovation variance H P H' + R at least s0 where 32 n^3 M^3 u <= s0 <= 1, and 256 n^2 M^4 / s0 below the threshold *)
Theorem C59_moderate_partial : forall (c : cfg) (prec emax : Z) (sz : bool), format_ok prec emax -> forall (n : nat) (o : observation spec_float) (f : kalman spec_float) (M s0 : R),
  (4 <= emax)%Z -> (1 <= n)%nat -> ob_valid c n 1 o -> kf_valid c n f ->
  kf_format prec emax f -> all_in_format prec emax (kf_px f) -> all_in_format prec emax (kf_tP f) -> ob_format prec emax o ->
  fin_matrix n 1 (kf_x f) -> fin_matrix n n (kf_P f) -> fin_matrix 1 n (ob_H o) -> fin_matrix 1 1 (ob_z o) -> fin_matrix 1 1 (ob_R o) -> 1 <= M ->
  at_most n 1 (kf_x f) M -> at_most n n (kf_P f) M -> at_most 1 n (ob_H o) M -> at_most 1 1 (ob_z o) M -> at_most 1 1 (ob_R o) M ->
  INR (8 * n + 4) * uro prec <= 1 -> s0 <= in_var n (rcell 1 (ob_R o) 0 0) (rcell n (ob_H o) 0) (rcell n (kf_P f)) ->
  32 * INR n ^ 3 * M ^ 3 * uro prec <= s0 <= 1 -> 256 * INR n ^ 2 * M ^ 4 / s0 < too_big emax ->
  exists o' f', correct c (sf_num prec emax sz) n 1 o f = Ok (o', f') /\ fin_matrix n 1 (ob_K o') /\ fin_matrix n 1 (kf_x f') /\ fin_matrix n n (kf_P f').
Proof. exact scalar_small. Qed.
Print Assumptions C59_moderate_partial.
Example C59_moderate_example : forall (c : cfg), (255 <= usize_max c)%nat ->
  kf_valid c 2 kf_ex /\ ob_valid c 2 1 ob_one /\ kf_format 24 128 kf_ex /\ ob_format 24 128 ob_one /\
  fin_matrix 2 1 (kf_x kf_ex) /\ fin_matrix 2 2 (kf_P kf_ex) /\ fin_matrix 1 2 (ob_H ob_one) /\ fin_matrix 1 1 (ob_z ob_one) /\ fin_matrix 1 1 (ob_R ob_one) /\
  at_most 2 1 (kf_x kf_ex) 8 /\ at_most 2 2 (kf_P kf_ex) 8 /\ at_most 1 2 (ob_H ob_one) 8 /\ at_most 1 1 (ob_z ob_one) 8 /\ at_most 1 1 (ob_R ob_one) 8 /\
  INR (8 * 2 + 4) * uro 24 <= 1 /\ 1 <= in_var 2 (rcell 1 (ob_R ob_one) 0 0) (rcell 2 (ob_H ob_one) 0) (rcell 2 (kf_P kf_ex)) /\
  32 * INR 2 ^ 3 * 8 ^ 3 * uro 24 <= 1 <= 1 /\ 256 * INR 2 ^ 2 * 8 ^ 4 / 1 < too_big 128.
Proof. exact range_scalar_example. Qed.

(** ** C86: one measured component: the computed x' and P' against x + (P H') (z - H x) / S and P - (P H') (H P) / S, S = H P H' + R;
    [state_err] and [cov_err] (SpecRange.v) depend on the data only *)
Theorem C86_single_component : forall (c : cfg) (prec emax : Z) (sz : bool), format_ok prec emax -> forall (n : nat) (o : observation spec_float) (f : kalman spec_float),
  (255 <= usize_max c)%nat -> (4 <= emax)%Z -> (1 <= n)%nat -> ob_valid c n 1 o -> kf_valid c n f ->
  kf_format prec emax f -> all_in_format prec emax (kf_px f) -> all_in_format prec emax (kf_tP f) -> ob_format prec emax o ->
  fin_matrix n 1 (kf_x f) -> fin_matrix n n (kf_P f) -> fin_matrix 1 n (ob_H o) -> fin_matrix 1 1 (ob_z o) -> fin_matrix 1 1 (ob_R o) ->
  let H := rcell n (ob_H o) 0 in let P := rcell n (kf_P f) in let r := rcell 1 (ob_R o) 0 0 in let z := rcell 1 (ob_z o) 0 0 in let x := fun i => rcell 1 (kf_x f) i 0 in
  scalar_room prec emax n r z H x P ->
  exists o' f', correct c (sf_num prec emax sz) n 1 o f = Ok (o', f') /\ fin_matrix n 1 (kf_x f') /\ fin_matrix n n (kf_P f') /\
    (forall i, (i < n)%nat -> Rabs (rcell 1 (kf_x f') i 0 - post_x n r z H x P i) <= state_err prec emax n r z H x P i) /\
    (forall i j, (i < n)%nat -> (j < n)%nat -> Rabs (rcell n (kf_P f') i j - post_P n r H P i j) <= cov_err prec emax n r H P i j).
Proof. exact scalar_forward. Qed.
Print Assumptions C86_single_component.

(** ** C45, the part that holds: a posterior variance above the error bound is computed as a positive number *)
Theorem C45_margin_partial : forall (c : cfg) (prec emax : Z) (sz : bool), format_ok prec emax -> forall (n : nat) (o : observation spec_float) (f : kalman spec_float),
  (255 <= usize_max c)%nat -> (4 <= emax)%Z -> (1 <= n)%nat -> ob_valid c n 1 o -> kf_valid c n f ->
  kf_format prec emax f -> all_in_format prec emax (kf_px f) -> all_in_format prec emax (kf_tP f) -> ob_format prec emax o ->
  fin_matrix n 1 (kf_x f) -> fin_matrix n n (kf_P f) -> fin_matrix 1 n (ob_H o) -> fin_matrix 1 1 (ob_z o) -> fin_matrix 1 1 (ob_R o) ->
  let H := rcell n (ob_H o) 0 in let P := rcell n (kf_P f) in let r := rcell 1 (ob_R o) 0 0 in let z := rcell 1 (ob_z o) 0 0 in let x := fun i => rcell 1 (kf_x f) i 0 in
  scalar_room prec emax n r z H x P ->
  exists o' f', correct c (sf_num prec emax sz) n 1 o f = Ok (o', f') /\
    forall i, (i < n)%nat -> cov_err prec emax n r H P i i < post_P n r H P i i -> exists v, cell n (kf_P f') i i = Some v /\ sf_finite v = true /\ 0 < val v.
Proof. exact scalar_positive. Qed.
Print Assumptions C45_margin_partial.

(** ** C44, the part that holds: a symmetric covariance stays symmetric up to rounding *)
Theorem C44_near_correct_partial : forall (c : cfg) (prec emax : Z) (sz : bool), format_ok prec emax -> forall (n : nat) (o : observation spec_float) (f : kalman spec_float),
  (255 <= usize_max c)%nat -> (4 <= emax)%Z -> (1 <= n)%nat -> ob_valid c n 1 o -> kf_valid c n f ->
  kf_format prec emax f -> all_in_format prec emax (kf_px f) -> all_in_format prec emax (kf_tP f) -> ob_format prec emax o ->
  fin_matrix n 1 (kf_x f) -> fin_matrix n n (kf_P f) -> fin_matrix 1 n (ob_H o) -> fin_matrix 1 1 (ob_z o) -> fin_matrix 1 1 (ob_R o) ->
  let H := rcell n (ob_H o) 0 in let P := rcell n (kf_P f) in let r := rcell 1 (ob_R o) 0 0 in let z := rcell 1 (ob_z o) 0 0 in let x := fun i => rcell 1 (kf_x f) i 0 in
  scalar_room prec emax n r z H x P -> sym_on n P ->
  exists o' f', correct c (sf_num prec emax sz) n 1 o f = Ok (o', f') /\ forall i j, (i < n)%nat -> (j < n)%nat ->
    Rabs (rcell n (kf_P f') i j - rcell n (kf_P f') j i) <= cov_err prec emax n r H P i j + cov_err prec emax n r H P j i.
Proof. exact scalar_near_sym. Qed.
Print Assumptions C44_near_correct_partial.
Theorem C44_near_predict_partial : forall (c : cfg) (prec emax : Z) (sz : bool), format_ok prec emax -> forall (n : nat) (f : kalman spec_float), (1 <= n)%nat -> kf_valid c n f -> kf_format prec emax f ->
  let A := rcell n (kf_A f) in let P := rcell n (kf_P f) in let Q := rcell n (kf_Q f) in sym_on n P -> sym_on n Q ->
  exists f', predict c (sf_num prec emax sz) n f = Ok f' /\ forall i j v w, (i < n)%nat -> (j < n)%nat ->
    cell n (kf_P f') i j = Some v -> cell n (kf_P f') j i = Some w -> sf_finite v = true -> sf_finite w = true ->
    Rabs (val v - val w) <= pred_err prec emax n A P Q i j + pred_err prec emax n A P Q j i.
Proof. exact predict_near_sym. Qed.
Print Assumptions C44_near_predict_partial.
Example C86_example : forall (c : cfg), (255 <= usize_max c)%nat ->
  (kf_valid c 2 kf_ex /\ ob_valid c 2 1 ob_one /\ kf_format 24 128 kf_ex /\ all_in_format 24 128 (kf_px kf_ex) /\ all_in_format 24 128 (kf_tP kf_ex) /\ ob_format 24 128 ob_one) /\
  (fin_matrix 2 1 (kf_x kf_ex) /\ fin_matrix 2 2 (kf_P kf_ex) /\ fin_matrix 1 2 (ob_H ob_one) /\ fin_matrix 1 1 (ob_z ob_one) /\ fin_matrix 1 1 (ob_R ob_one)) /\
  scalar_room 24 128 2 (rcell 1 (ob_R ob_one) 0 0) (rcell 1 (ob_z ob_one) 0 0) (rcell 2 (ob_H ob_one) 0) (fun i => rcell 1 (kf_x kf_ex) i 0) (rcell 2 (kf_P kf_ex)) /\
  sym_on 2 (rcell 2 (kf_P kf_ex)) /\
  cov_err 24 128 2 (rcell 1 (ob_R ob_one) 0 0) (rcell 2 (ob_H ob_one) 0) (rcell 2 (kf_P kf_ex)) 0 0 < post_P 2 (rcell 1 (ob_R ob_one) 0 0) (rcell 2 (ob_H ob_one) 0) (rcell 2 (kf_P kf_ex)) 0 0.
Proof. exact forward_example. Qed.

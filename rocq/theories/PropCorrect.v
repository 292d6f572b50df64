(** * C100, C138: corrections with several measured components stay finite and close to the exact ones; further parts of C44, C45, C59, C99.

    [sf_num prec emax] is f32 for (24, 128) and f64 for (53, 1024).  The exact update is spelled out in SpecCorrect.v: S = H P H' + R ([inn_cov]), W its inverse, K = (P H') W
    ([gain_of]), y = z - H x ([innov_of]), x + K y ([corr_x]), P - K (H P) ([corr_P]).  The code reads the upper triangle of S only, hence [upper_of]: the symmetric matrix with
    that upper triangle, which is S itself when P and R are symmetric (C100_symmetric).  [within]: the data are within the bounds D and S has no eigenvalue below lam plus its own
    rounding error; [corr_ready]: lam is well above the rounding errors and nothing comes near the overflow threshold; [moderate]: the same in two numbers B and lam. *)
From Coq Require Import ZArith Reals.
From Flocq Require Import Core BinarySingleNaN.
From Verif Require Import Prelude Spec Matrix Filter SpecFilter FloatNum SpecFloats SpecReal SpecRange SpecSolve SpecCorrect FloatCorrect RealInverse FloatModerate CorrectExamples Extended FloatCorrectNl CorrectNlExamples.
Open Scope R_scope.

Theorem C100_correct : forall (c : cfg) (prec emax : Z) (sz : bool), format_ok prec emax -> (4 <= emax)%Z ->
  forall (n m : nat) (o : observation spec_float) (f : kalman spec_float) (D : corr_data), (1 <= n)%nat -> (1 <= m)%nat -> ob_valid c n m o -> kf_valid c n f ->
  kf_format prec emax f -> all_in_format prec emax (kf_px f) -> all_in_format prec emax (kf_tP f) -> ob_format prec emax o ->
  fin_matrix n 1 (kf_x f) -> fin_matrix n n (kf_P f) -> fin_matrix m n (ob_H o) -> fin_matrix m 1 (ob_z o) -> fin_matrix m m (ob_R o) ->
  let H := rcell n (ob_H o) in let P := rcell n (kf_P f) in let Rm := rcell m (ob_R o) in let z := fun i => rcell 1 (ob_z o) i 0 in let x := fun i => rcell 1 (kf_x f) i 0 in
  within prec emax n m D H P Rm x z -> corr_ready prec emax n m D ->
  exists o' f' W, correct c (sf_num prec emax sz) n m o f = Ok (o', f') /\ fin_matrix m 1 (ob_y o') /\ fin_matrix m m (ob_Sinv o') /\ fin_matrix n m (ob_K o') /\
    fin_matrix n 1 (kf_x f') /\ fin_matrix n n (kf_P f') /\ inverse_of m (upper_of (inn_cov n H P Rm)) W /\
    let K := gain_of n m H P W in let y := innov_of n z H x in
      (forall i j, (i < n)%nat -> (j < m)%nat -> Rabs (rcell m (ob_K o') i j - K i j) <= k_err prec emax n m D) /\
      (forall i, (i < n)%nat -> Rabs (rcell 1 (kf_x f') i 0 - corr_x m K y x i) <= x_err prec emax n m D) /\
      (forall i j, (i < n)%nat -> (j < n)%nat -> Rabs (rcell n (kf_P f') i j - corr_P n m K H P i j) <= P_err prec emax n m D).
Proof. exact correct_exact. Qed.
Print Assumptions C100_correct.
(** in simple numbers: the errors are at most 8192 B^11 u / lam^2 *)
Theorem C100_moderate : forall (c : cfg) (prec emax : Z) (sz : bool), format_ok prec emax -> (4 <= emax)%Z ->
  forall (n m : nat) (o : observation spec_float) (f : kalman spec_float) (B lam : R), (1 <= n)%nat -> (1 <= m)%nat -> ob_valid c n m o -> kf_valid c n f ->
  kf_format prec emax f -> all_in_format prec emax (kf_px f) -> all_in_format prec emax (kf_tP f) -> ob_format prec emax o ->
  fin_matrix n 1 (kf_x f) -> fin_matrix n n (kf_P f) -> fin_matrix m n (ob_H o) -> fin_matrix m 1 (ob_z o) -> fin_matrix m m (ob_R o) ->
  let H := rcell n (ob_H o) in let P := rcell n (kf_P f) in let Rm := rcell m (ob_R o) in let z := fun i => rcell 1 (ob_z o) i 0 in let x := fun i => rcell 1 (kf_x f) i 0 in
  moderate prec emax n m B lam H P Rm x z ->
  exists o' f' W, correct c (sf_num prec emax sz) n m o f = Ok (o', f') /\ fin_matrix n 1 (kf_x f') /\ fin_matrix n n (kf_P f') /\
    inverse_of m (upper_of (inn_cov n H P Rm)) W /\ let K := gain_of n m H P W in let y := innov_of n z H x in let err := 8192 * B ^ 11 * uro prec / lam ^ 2 in
      (forall i j, (i < n)%nat -> (j < m)%nat -> Rabs (rcell m (ob_K o') i j - K i j) <= err) /\
      (forall i, (i < n)%nat -> Rabs (rcell 1 (kf_x f') i 0 - corr_x m K y x i) <= err) /\
      (forall i j, (i < n)%nat -> (j < n)%nat -> Rabs (rcell n (kf_P f') i j - corr_P n m K H P i j) <= err).
Proof. exact several_accurate. Qed.
Print Assumptions C100_moderate.
(** with symmetric P and R the matrix inverted is S itself *)
Theorem C100_symmetric : forall (n m : nat) (H P Rm : nat -> nat -> R), sym_on n P -> sym_on m Rm ->
  forall i j, (i < m)%nat -> (j < m)%nat -> upper_of (inn_cov n H P Rm) i j = inn_cov n H P Rm i j.
Proof. exact upper_inn_cov. Qed.
Print Assumptions C100_symmetric.
(** a matrix without small eigenvalues has an inverse, so C99 applies to every matrix it admits *)
Theorem C99_inverse_exists : forall (n : nat) (a : nat -> nat -> R) (lam : R), 0 < lam -> eig_above n a lam -> exists W, inverse_of n a W.
Proof. exact inverse_exists. Qed.
Print Assumptions C99_inverse_exists.

(** a filter with two states and two measured components, f64; here the error is below 1/60000 *)
Example C100_example : forall (c : cfg), (255 <= usize_max c)%nat ->
  (ob_valid c 2 2 ob_two /\ kf_valid c 2 kf_two /\ kf_format 53 1024 kf_two /\ all_in_format 53 1024 (kf_px kf_two) /\ all_in_format 53 1024 (kf_tP kf_two) /\ ob_format 53 1024 ob_two) /\
  (fin_matrix 2 1 (kf_x kf_two) /\ fin_matrix 2 2 (kf_P kf_two) /\ fin_matrix 2 2 (ob_H ob_two) /\ fin_matrix 2 1 (ob_z ob_two) /\ fin_matrix 2 2 (ob_R ob_two)) /\
  moderate 53 1024 2 2 4 (/ 2) (rcell 2 (ob_H ob_two)) (rcell 2 (kf_P kf_two)) (rcell 2 (ob_R ob_two)) (fun i => rcell 1 (kf_x kf_two) i 0) (fun i => rcell 1 (ob_z ob_two) i 0) /\
  sym_on 2 (rcell 2 (kf_P kf_two)) /\ 8192 * 4 ^ 11 * uro 53 / (/ 2) ^ 2 <= / 60000.
Proof. exact two_example. Qed.
Example C100_example_detailed :
  within 53 1024 2 2 (mk_corr 4 4 4 4 4 (/ 2)) (rcell 2 (ob_H ob_two)) (rcell 2 (kf_P kf_two)) (rcell 2 (ob_R ob_two)) (fun i => rcell 1 (kf_x kf_two) i 0) (fun i => rcell 1 (ob_z ob_two) i 0) /\
  corr_ready 53 1024 2 2 (mk_corr 4 4 4 4 4 (/ 2)).
Proof. exact two_ready. Qed.

(** ** C59, the part that holds, several components: nothing turns non-finite *)
Theorem C59_several_partial : forall (c : cfg) (prec emax : Z) (sz : bool), format_ok prec emax -> (4 <= emax)%Z ->
  forall (n m : nat) (o : observation spec_float) (f : kalman spec_float) (B lam : R), (1 <= n)%nat -> (1 <= m)%nat -> ob_valid c n m o -> kf_valid c n f ->
  kf_format prec emax f -> all_in_format prec emax (kf_px f) -> all_in_format prec emax (kf_tP f) -> ob_format prec emax o ->
  fin_matrix n 1 (kf_x f) -> fin_matrix n n (kf_P f) -> fin_matrix m n (ob_H o) -> fin_matrix m 1 (ob_z o) -> fin_matrix m m (ob_R o) ->
  moderate prec emax n m B lam (rcell n (ob_H o)) (rcell n (kf_P f)) (rcell m (ob_R o)) (fun i => rcell 1 (kf_x f) i 0) (fun i => rcell 1 (ob_z o) i 0) ->
  exists o' f', correct c (sf_num prec emax sz) n m o f = Ok (o', f') /\ fin_matrix n m (ob_K o') /\ fin_matrix n 1 (kf_x f') /\ fin_matrix n n (kf_P f').
Proof. exact several_finite. Qed.
Print Assumptions C59_several_partial.
(** ** C44, the part that holds, several components: symmetric up to rounding *)
Theorem C44_near_several_partial : forall (c : cfg) (prec emax : Z) (sz : bool), format_ok prec emax -> (4 <= emax)%Z ->
  forall (n m : nat) (o : observation spec_float) (f : kalman spec_float) (B lam : R), (1 <= n)%nat -> (1 <= m)%nat -> ob_valid c n m o -> kf_valid c n f ->
  kf_format prec emax f -> all_in_format prec emax (kf_px f) -> all_in_format prec emax (kf_tP f) -> ob_format prec emax o ->
  fin_matrix n 1 (kf_x f) -> fin_matrix n n (kf_P f) -> fin_matrix m n (ob_H o) -> fin_matrix m 1 (ob_z o) -> fin_matrix m m (ob_R o) ->
  moderate prec emax n m B lam (rcell n (ob_H o)) (rcell n (kf_P f)) (rcell m (ob_R o)) (fun i => rcell 1 (kf_x f) i 0) (fun i => rcell 1 (ob_z o) i 0) -> sym_on n (rcell n (kf_P f)) ->
  exists o' f', correct c (sf_num prec emax sz) n m o f = Ok (o', f') /\ forall i j, (i < n)%nat -> (j < n)%nat ->
    Rabs (rcell n (kf_P f') i j - rcell n (kf_P f') j i) <= 2 * (8192 * B ^ 11 * uro prec / lam ^ 2).
Proof. exact several_near_sym. Qed.
Print Assumptions C44_near_several_partial.
(** ** C45, the part that holds, several components: an exact posterior variance above the error is computed as a positive number *)
Theorem C45_margin_several_partial : forall (c : cfg) (prec emax : Z) (sz : bool), format_ok prec emax -> (4 <= emax)%Z ->
  forall (n m : nat) (o : observation spec_float) (f : kalman spec_float) (B lam : R), (1 <= n)%nat -> (1 <= m)%nat -> ob_valid c n m o -> kf_valid c n f ->
  kf_format prec emax f -> all_in_format prec emax (kf_px f) -> all_in_format prec emax (kf_tP f) -> ob_format prec emax o ->
  fin_matrix n 1 (kf_x f) -> fin_matrix n n (kf_P f) -> fin_matrix m n (ob_H o) -> fin_matrix m 1 (ob_z o) -> fin_matrix m m (ob_R o) ->
  let H := rcell n (ob_H o) in let P := rcell n (kf_P f) in let Rm := rcell m (ob_R o) in
  moderate prec emax n m B lam H P Rm (fun i => rcell 1 (kf_x f) i 0) (fun i => rcell 1 (ob_z o) i 0) ->
  exists o' f' W, correct c (sf_num prec emax sz) n m o f = Ok (o', f') /\ inverse_of m (upper_of (inn_cov n H P Rm)) W /\
    forall i, (i < n)%nat -> 8192 * B ^ 11 * uro prec / lam ^ 2 < corr_P n m (gain_of n m H P W) H P i i -> exists v, cell n (kf_P f') i i = Some v /\ sf_finite v = true /\ 0 < val v.
Proof. exact several_positive. Qed.
Print Assumptions C45_margin_several_partial.

(** ** C138: corrections through a closure: [out] is what the closure returned, the innovation is z - out, H is the matrix the filter linearises with (any relation to the closure) *)
Theorem C138_correct_nonlinear : forall (c : cfg) (prec emax : Z) (sz : bool), format_ok prec emax -> (4 <= emax)%Z ->
  forall (n m : nat) (h : list spec_float -> list spec_float -> res (list spec_float)) (out : list spec_float) (o : observation spec_float) (f : kalman spec_float) (B lam : R),
  (1 <= n)%nat -> (1 <= m)%nat -> ob_valid c n m o -> kf_valid c n f ->
  kf_format prec emax f -> all_in_format prec emax (kf_px f) -> all_in_format prec emax (kf_tP f) -> ob_format prec emax o ->
  fin_matrix n 1 (kf_x f) -> fin_matrix n n (kf_P f) -> fin_matrix m n (ob_H o) -> fin_matrix m 1 (ob_z o) -> fin_matrix m m (ob_R o) ->
  let H := rcell n (ob_H o) in let P := rcell n (kf_P f) in let Rm := rcell m (ob_R o) in let z := fun i => rcell 1 (ob_z o) i 0 in let x := fun i => rcell 1 (kf_x f) i 0 in
  moderate prec emax n m B lam H P Rm x z ->
  closure_ok c (sf_num prec emax sz) m n h -> h (kf_x f) (ob_y o) = Ok out -> all_in_format prec emax out -> fin_matrix m 1 out ->
  (forall i, (i < m)%nat -> Rabs (z i - rcell 1 out i 0) <= B) ->
  exists o' f' W, correct_nonlinear c (sf_num prec emax sz) n m h o f = Ok (o', f') /\ fin_matrix n m (ob_K o') /\ fin_matrix n 1 (kf_x f') /\ fin_matrix n n (kf_P f') /\
    inverse_of m (upper_of (inn_cov n H P Rm)) W /\ let K := gain_of n m H P W in let err := 8192 * B ^ 11 * uro prec / lam ^ 2 in
      (forall i j, (i < n)%nat -> (j < m)%nat -> Rabs (rcell m (ob_K o') i j - K i j) <= err) /\
      (forall i, (i < n)%nat -> Rabs (rcell 1 (kf_x f') i 0 - corr_x m K (fun q => z q - rcell 1 out q 0) x i) <= err) /\
      (forall i j, (i < n)%nat -> (j < n)%nat -> Rabs (rcell n (kf_P f') i j - corr_P n m K H P i j) <= err).
Proof. exact correct_nl_moderate. Qed.
Print Assumptions C138_correct_nonlinear.
(** the filter of C100_example with a sensor measuring the first state and the product of the two *)
Example C138_example : forall (c : cfg) (sz : bool), (255 <= usize_max c)%nat ->
  closure_ok c (sf_num 53 1024 sz) 2 2 h_prod /\ h_prod (kf_x kf_two) (ob_y ob_two) = Ok out_prod /\ all_in_format 53 1024 out_prod /\ fin_matrix 2 1 out_prod /\
  (forall i, (i < 2)%nat -> Rabs (rcell 1 (ob_z ob_two) i 0 - rcell 1 out_prod i 0) <= 4).
Proof. exact prod_example. Qed.

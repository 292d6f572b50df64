(** * C136, C137: a fixed-point correction with several measured components - no overflow, and close to the exact update.
    [fx_num bits frac oc da] is the [bits]-bit type with [frac] fractional bits, with or without checks; I16F16 is (32, 16), I32F32 is (64, 32).  [fcell] is the real number in a
    cell.  [inn_cov] is H P H' + R, [upper_of] the symmetric matrix with its upper triangle (S itself if P and R are symmetric), [inverse_of m a W] says a W = 1,
    [gain_of] is (P H') W, [innov_of] z - H x, [corr_x] x + K y and [corr_P] P - K (H P) (SpecCorrect.v).  [fc_within] says that the data are within given bounds and that no
    eigenvalue of S is below lam plus the rounding error of S, [fc_ready] that lam is well above the rounding errors and that nothing comes near the end of the range
    (SpecFixedCorrect.v; explicit, and checked for the example). *)
From Coq Require Import ZArith Reals.
From Verif Require Import Prelude Spec Matrix Filter Extended SpecFilter FixedNum SpecFixed SpecFixedRange SpecReal SpecSolve SpecFixedSolve SpecFixedInv SpecRange SpecCorrect SpecFixedCorrect FixedCorrect FixedCorrectExamples SpecFixedModerate FixedModerate FixedModerateExamples.
Open Scope R_scope.

(** every build performs the correction without overflow, with the same bits, and gain, state and covariance are close to those of the exact update *)
Theorem C136_correct : forall (bits frac : Z), (0 <= frac)%Z -> forall (c : cfg) (n m : nat) (o : observation Z) (f : kalman Z) (D : corr_data), (1 <= n)%nat -> (1 <= m)%nat -> ob_valid c n m o -> kf_valid c n f ->
  let H := fcell frac n (ob_H o) in let P := fcell frac n (kf_P f) in let Rm := fcell frac m (ob_R o) in let z := fun i => fcell frac 1 (ob_z o) i 0 in let x := fun i => fcell frac 1 (kf_x f) i 0 in
  fc_within frac n m D H P Rm x z -> fc_ready bits frac n m D ->
  exists o' f', (forall oc da, correct c (fx_num bits frac oc da) n m o f = Ok (o', f')) /\
    forall W, inverse_of m (upper_of (inn_cov n H P Rm)) W ->
      let K := gain_of n m H P W in let y := innov_of n z H x in
      (forall i j, (i < n)%nat -> (j < m)%nat -> Rabs (fcell frac m (ob_K o') i j - K i j) <= fc_k_err frac n m D) /\
      (forall i, (i < n)%nat -> Rabs (fcell frac 1 (kf_x f') i 0 - corr_x m K y x i) <= fc_x_err frac n m D) /\
      (forall i j, (i < n)%nat -> (j < n)%nat -> Rabs (fcell frac n (kf_P f') i j - corr_P n m K H P i j) <= fc_P_err frac n m D).
Proof. exact fx_correct_near. Qed.
Print Assumptions C136_correct.
(** an I32F32 filter with P = [2 1; 1 2], x = [3; 1], H = [1 0; 1 1], z = [2; 3], R = 1 meets the hypotheses *)
Example C136_example : forall c : cfg, (255 <= usize_max c)%nat -> ob_valid c 2 2 ob_fc /\ kf_valid c 2 kf_fc /\
  fc_within 32 2 2 fc_data (fcell 32 2 (ob_H ob_fc)) (fcell 32 2 (kf_P kf_fc)) (fcell 32 2 (ob_R ob_fc)) (fun i => fcell 32 1 (kf_x kf_fc) i 0) (fun i => fcell 32 1 (ob_z ob_fc) i 0) /\
  fc_ready 64 32 2 2 fc_data /\ inverse_of 2 (upper_of (inn_cov 2 (fcell 32 2 (ob_H ob_fc)) (fcell 32 2 (kf_P kf_fc)) (fcell 32 2 (ob_R ob_fc)))) fc_inv.
Proof. exact fc_example. Qed.
(** for it state and covariance are guaranteed to 1/10000 *)
Example C136_example_bound : fc_k_err 32 2 2 fc_data <= / 200000 /\ fc_x_err 32 2 2 fc_data <= / 10000 /\ fc_P_err 32 2 2 fc_data <= / 10000.
Proof. exact fc_small. Qed.
(** the computed state and covariance, in units of 2^-32: x' = [7/3; 2/3] and P' = [5/12 -1/6; -1/6 2/3] exactly *)
Example C136_example_run : forall c : cfg, (255 <= usize_max c)%nat -> exists o' f', correct c (fx_num 64 32 true true) 2 2 ob_fc kf_fc = Ok (o', f') /\
  kf_x f' = [10021590363; 2863311535]%Z /\ kf_P f' = [1789569721; -715827871; -715827871; 2863311541]%Z.
Proof. exact fc_run. Qed.

(** C137: the same for a nonlinear correction.  The closure has written its prediction [out] of the measurement; the innovation z - out enters the update as it is, so only its
    size matters ([cd_z] bounds it), and the data are compared with the exact update made with that innovation. *)
Theorem C137_correct_nonlinear : forall (bits frac : Z), (0 <= frac)%Z -> forall (c : cfg) (n m : nat) (h : list Z -> list Z -> res (list Z)) (o : observation Z) (f : kalman Z) (out : list Z) (D : corr_data),
  (1 <= n)%nat -> (1 <= m)%nat -> ob_valid c n m o -> kf_valid c n f -> h (kf_x f) (ob_y o) = Ok out -> valid c m 1 out ->
  let H := fcell frac n (ob_H o) in let P := fcell frac n (kf_P f) in let Rm := fcell frac m (ob_R o) in let x := fun i => fcell frac 1 (kf_x f) i 0 in
  let y := fun i => fcell frac 1 (ob_z o) i 0 - fcell frac 1 out i 0 in
  fc_model frac n m D H P Rm x -> (forall i, (i < m)%nat -> Rabs (y i) <= cd_z D) -> fc_ready_y bits frac n m D (cd_z D) ->
  exists o' f', (forall oc da, correct_nonlinear c (fx_num bits frac oc da) n m h o f = Ok (o', f')) /\
    forall W, inverse_of m (upper_of (inn_cov n H P Rm)) W ->
      let K := gain_of n m H P W in
      (forall i j, (i < n)%nat -> (j < m)%nat -> Rabs (fcell frac m (ob_K o') i j - K i j) <= fc_k_err frac n m D) /\
      (forall i, (i < n)%nat -> Rabs (fcell frac 1 (kf_x f') i 0 - corr_x m K y x i) <= fc_x_err_y frac n m D (cd_z D) 0) /\
      (forall i j, (i < n)%nat -> (j < n)%nat -> Rabs (fcell frac n (kf_P f') i j - corr_P n m K H P i j) <= fc_P_err frac n m D).
Proof. exact fx_correct_nl_near. Qed.
Print Assumptions C137_correct_nonlinear.
(** the filter of C136_example with the measurement function h(x) = [x_0^2 / 6; x_0 + x_1]: the innovation is [1/2; -1], and the state is guaranteed to 1/10000 *)
Example C137_example : forall c : cfg, (255 <= usize_max c)%nat -> ob_valid c 2 2 ob_fc /\ kf_valid c 2 kf_fc /\ h_fc (kf_x kf_fc) (ob_y ob_fc) = Ok out_fc /\ valid c 2 1 out_fc /\
  fc_model 32 2 2 fc_data (fcell 32 2 (ob_H ob_fc)) (fcell 32 2 (kf_P kf_fc)) (fcell 32 2 (ob_R ob_fc)) (fun i => fcell 32 1 (kf_x kf_fc) i 0) /\
  (forall i, (i < 2)%nat -> Rabs (fcell 32 1 (ob_z ob_fc) i 0 - fcell 32 1 out_fc i 0) <= cd_z fc_data) /\
  fc_ready_y 64 32 2 2 fc_data (cd_z fc_data) /\ fc_x_err_y 32 2 2 fc_data (cd_z fc_data) 0 <= / 10000.
Proof. exact fc_nl_example. Qed.
(** its new state, in units of 2^-32: [71/24; 5/12] exactly *)
Example C137_example_run : forall c : cfg, (255 <= usize_max c)%nat -> exists o' f', correct_nonlinear c (fx_num 64 32 true true) 2 2 h_fc ob_fc kf_fc = Ok (o', f') /\ kf_x f' = [12705944919; 1789569709]%Z.
Proof. exact fc_nl_run. Qed.

(** the same two theorems under simple conditions ([fc_moderate], SpecFixedModerate.v): one bound B for all sizes and data, one number lam <= 1 with 2 lam below the eigenvalues of
    S, 128 B^7 units in the last place within lam, and 64 B^6 / lam^2 below the end of the range.  The errors then are at most 512 B^10, 2048 B^13 and 512 B^13 units, over lam^2. *)
Theorem C136_moderate : forall (bits frac : Z), (0 <= frac)%Z -> forall (c : cfg) (n m : nat) (o : observation Z) (f : kalman Z) (B lam : R), (1 <= n)%nat -> (1 <= m)%nat -> ob_valid c n m o -> kf_valid c n f -> 0 < lam ->
  let H := fcell frac n (ob_H o) in let P := fcell frac n (kf_P f) in let Rm := fcell frac m (ob_R o) in let z := fun i => fcell frac 1 (ob_z o) i 0 in let x := fun i => fcell frac 1 (kf_x f) i 0 in
  fc_moderate bits frac n m B lam H P Rm x -> (forall i, (i < m)%nat -> Rabs (z i) <= B) ->
  exists o' f', (forall oc da, correct c (fx_num bits frac oc da) n m o f = Ok (o', f')) /\
    forall W, inverse_of m (upper_of (inn_cov n H P Rm)) W ->
      let K := gain_of n m H P W in let y := innov_of n z H x in
      (forall i j, (i < n)%nat -> (j < m)%nat -> Rabs (fcell frac m (ob_K o') i j - K i j) <= 512 * B ^ 10 * fx_w frac / lam ^ 2) /\
      (forall i, (i < n)%nat -> Rabs (fcell frac 1 (kf_x f') i 0 - corr_x m K y x i) <= 2048 * B ^ 13 * fx_w frac / lam ^ 2) /\
      (forall i j, (i < n)%nat -> (j < n)%nat -> Rabs (fcell frac n (kf_P f') i j - corr_P n m K H P i j) <= 512 * B ^ 13 * fx_w frac / lam ^ 2).
Proof. exact fx_correct_moderate. Qed.
Print Assumptions C136_moderate.
(** an I16F16 filter with P = [1 1/2; 1/2 1], x = [1; 2], H = [1 0; 1 1], z = [2; 2], R = 1 meets them with B = 2 and lam = 1/2 *)
Example C136_moderate_example : forall c : cfg, (255 <= usize_max c)%nat -> ob_valid c 2 2 ob_fm /\ kf_valid c 2 kf_fm /\ 0 < / 2 /\
  fc_moderate 32 16 2 2 2 (/ 2) (fcell 16 2 (ob_H ob_fm)) (fcell 16 2 (kf_P kf_fm)) (fcell 16 2 (ob_R ob_fm)) (fun i => fcell 16 1 (kf_x kf_fm) i 0) /\
  (forall i, (i < 2)%nat -> Rabs (fcell 16 1 (ob_z ob_fm) i 0) <= 2).
Proof. exact fm_example. Qed.
(** its new state, in units of 2^-16: [24/23; 36/23] exactly *)
Example C136_moderate_run : forall c : cfg, (255 <= usize_max c)%nat -> exists o' f', correct c (fx_num 32 16 true true) 2 2 ob_fm kf_fm = Ok (o', f') /\ kf_x f' = [68385; 102578]%Z.
Proof. exact fm_run. Qed.
Theorem C137_moderate : forall (bits frac : Z), (0 <= frac)%Z -> forall (c : cfg) (n m : nat) (h : list Z -> list Z -> res (list Z)) (o : observation Z) (f : kalman Z) (out : list Z) (B lam : R),
  (1 <= n)%nat -> (1 <= m)%nat -> ob_valid c n m o -> kf_valid c n f -> h (kf_x f) (ob_y o) = Ok out -> valid c m 1 out -> 0 < lam ->
  let H := fcell frac n (ob_H o) in let P := fcell frac n (kf_P f) in let Rm := fcell frac m (ob_R o) in let x := fun i => fcell frac 1 (kf_x f) i 0 in
  let y := fun i => fcell frac 1 (ob_z o) i 0 - fcell frac 1 out i 0 in
  fc_moderate bits frac n m B lam H P Rm x -> (forall i, (i < m)%nat -> Rabs (y i) <= B) ->
  exists o' f', (forall oc da, correct_nonlinear c (fx_num bits frac oc da) n m h o f = Ok (o', f')) /\
    forall W, inverse_of m (upper_of (inn_cov n H P Rm)) W ->
      let K := gain_of n m H P W in
      (forall i j, (i < n)%nat -> (j < m)%nat -> Rabs (fcell frac m (ob_K o') i j - K i j) <= 512 * B ^ 10 * fx_w frac / lam ^ 2) /\
      (forall i, (i < n)%nat -> Rabs (fcell frac 1 (kf_x f') i 0 - corr_x m K y x i) <= 2048 * B ^ 13 * fx_w frac / lam ^ 2) /\
      (forall i j, (i < n)%nat -> (j < n)%nat -> Rabs (fcell frac n (kf_P f') i j - corr_P n m K H P i j) <= 512 * B ^ 13 * fx_w frac / lam ^ 2).
Proof. exact fx_correct_nl_moderate. Qed.
Print Assumptions C137_moderate.
(** the filter of C136_moderate_example with h(x) = [x_0^2 / 2; x_0 + x_1]: the innovation is [3/2; -1]; its new state, in units of 2^-16, [55/46; 71/46] exactly *)
Example C137_moderate_example : forall c : cfg, (255 <= usize_max c)%nat -> h_fm (kf_x kf_fm) (ob_y ob_fm) = Ok [32768; 196608]%Z /\ valid c 2 1 [32768; 196608]%Z /\
  (forall i, (i < 2)%nat -> Rabs (fcell 16 1 (ob_z ob_fm) i 0 - fcell 16 1 [32768; 196608]%Z i 0) <= 2) /\
  exists o' f', correct_nonlinear c (fx_num 32 16 true true) 2 2 h_fm ob_fm kf_fm = Ok (o', f') /\ kf_x f' = [78357; 101152]%Z.
Proof. exact fm_nl_example. Qed.

(** ** C44, C45, the parts that hold, fixed point, several components *)
(** a symmetric covariance stays symmetric up to the error of C136 *)
Theorem C44_near_fixed_partial : forall (bits frac : Z), (0 <= frac)%Z -> forall (c : cfg) (n m : nat) (o : observation Z) (f : kalman Z) (B lam : R), (1 <= n)%nat -> (1 <= m)%nat -> ob_valid c n m o -> kf_valid c n f -> 0 < lam ->
  fc_moderate bits frac n m B lam (fcell frac n (ob_H o)) (fcell frac n (kf_P f)) (fcell frac m (ob_R o)) (fun i => fcell frac 1 (kf_x f) i 0) ->
  (forall i, (i < m)%nat -> Rabs (fcell frac 1 (ob_z o) i 0) <= B) -> sym_on n (fcell frac n (kf_P f)) ->
  exists o' f', (forall oc da, correct c (fx_num bits frac oc da) n m o f = Ok (o', f')) /\ forall i j, (i < n)%nat -> (j < n)%nat ->
    Rabs (fcell frac n (kf_P f') i j - fcell frac n (kf_P f') j i) <= 2 * (512 * B ^ 13 * fx_w frac / lam ^ 2).
Proof. exact fx_correct_near_sym. Qed.
Print Assumptions C44_near_fixed_partial.
(** the covariance of C136_moderate_example is symmetric before the correction; after it, cells (0,1) and (1,0) differ *)
Example C44_near_fixed_example : forall c : cfg, (255 <= usize_max c)%nat -> sym_on 2 (fcell 16 2 (kf_P kf_fm)) /\
  exists o' f', correct c (fx_num 32 16 true true) 2 2 ob_fm kf_fm = Ok (o', f') /\ kf_P f' = [19950; -2846; -2845; 28498]%Z.
Proof. exact fm_sym. Qed.
(** an exact posterior variance above that error is computed as a positive number *)
Theorem C45_margin_fixed_partial : forall (bits frac : Z), (0 <= frac)%Z -> forall (c : cfg) (n m : nat) (o : observation Z) (f : kalman Z) (B lam : R), (1 <= n)%nat -> (1 <= m)%nat -> ob_valid c n m o -> kf_valid c n f -> 0 < lam ->
  let H := fcell frac n (ob_H o) in let P := fcell frac n (kf_P f) in let Rm := fcell frac m (ob_R o) in
  fc_moderate bits frac n m B lam H P Rm (fun i => fcell frac 1 (kf_x f) i 0) -> (forall i, (i < m)%nat -> Rabs (fcell frac 1 (ob_z o) i 0) <= B) ->
  exists o' f' W, (forall oc da, correct c (fx_num bits frac oc da) n m o f = Ok (o', f')) /\ inverse_of m (upper_of (inn_cov n H P Rm)) W /\
    forall i, (i < n)%nat -> 512 * B ^ 13 * fx_w frac / lam ^ 2 < corr_P n m (gain_of n m H P W) H P i i -> exists v, cell n (kf_P f') i i = Some v /\ (0 < v)%Z.
Proof. exact fx_correct_positive. Qed.
Print Assumptions C45_margin_fixed_partial.
(** in I32F32 with B = 2 and lam = 1/2 the margin is 1/256; the exact posterior variances of the example are 7/23 and 10/23 *)
Example C45_margin_fixed_example : 512 * 2 ^ 13 * fx_w 32 / (/ 2) ^ 2 <= / 256 /\
  forall W, inverse_of 2 (upper_of (inn_cov 2 (fcell 16 2 (ob_H ob_fm)) (fcell 16 2 (kf_P kf_fm)) (fcell 16 2 (ob_R ob_fm)))) W ->
  let v := corr_P 2 2 (gain_of 2 2 (fcell 16 2 (ob_H ob_fm)) (fcell 16 2 (kf_P kf_fm)) W) (fcell 16 2 (ob_H ob_fm)) (fcell 16 2 (kf_P kf_fm)) in v 0%nat 0%nat = 7 / 23 /\ v 1%nat 1%nat = 10 / 23.
Proof. exact fm_margin. Qed.

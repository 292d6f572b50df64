(** * Fixed-point element types and static buffers: C66 - C69.

    [fx_num bits frac oc da] is the type of [bits]-bit numbers with [frac] fractional bits; [oc], [da] tell whether the build has overflow
    checks and debug assertions.  I16F16 is (32, 16), I32F32 is (64, 32).  Vocabulary: SpecFixed.v, SpecStore.v. *)
From Coq Require Import ZArith QArith Qabs.
From Verif Require Import Spec Matrix Storage Filter Extended Builder Static SpecFilter History SpecGen SpecStore FixedNum SpecFixed FixedProof FixedSteps FixedWit StaticProof.
Open Scope Z_scope.

(** ** C66: objects assembled from buffers declared by the macros are those of the builders *)
Theorem C66_filter : forall (T : Type) (c : cfg) (d : T) (n : nat), allocatable c (n * n) ->
  exists f, static_filter c n d = Ok f /\ build_filter c d n = Ok f /\ kf_fresh d n f /\ kf_valid c n f.
Proof. intros T. exact static_filter_full. Qed.
Print Assumptions C66_filter.
Theorem C66_control : forall (T : Type) (c : cfg) (d : T) (n m : nat), allocatable c (n * m) -> allocatable c (m * m) ->
  exists k, static_control c n m d = Ok k /\ build_control c d n m = Ok k /\ ct_fresh d n m k /\ ct_valid c n m k.
Proof. intros T. exact static_control_full. Qed.
Print Assumptions C66_control.
Theorem C66_observation : forall (T : Type) (c : cfg) (d : T) (n m : nat), allocatable c (n * n) -> allocatable c (n * m) -> allocatable c (m * m) ->
  exists o, static_observation c n m d = Ok o /\ build_observation c d n m = Ok o /\ ob_fresh d n m o /\ ob_valid c n m o.
Proof. intros T. exact static_observation_full. Qed.
Print Assumptions C66_observation.
(** and unlike with the constructors no build can produce a buffer of the wrong size *)
Theorem C66_sizes : forall (T : Type) (c : cfg) (d : T) (R C : nat) (b : list T), static_buffer c R C d = Ok b -> length b = (R * C)%nat.
Proof. intros T. exact static_sizes. Qed.
Print Assumptions C66_sizes.
Example C66_example : forall c : cfg, (255 <= usize_max c)%nat -> allocatable c (3 * 3) /\ allocatable c (3 * 2) /\ allocatable c (2 * 2).
Proof. exact static_example. Qed.

(** ** C38 for fixed point *)
Theorem C38_fixed_zero_laws : forall (bits frac : Z) (oc da : bool), 1 <= bits -> zero_laws (fx_num bits frac oc da).
Proof. exact fx_zero_laws. Qed.
Print Assumptions C38_fixed_zero_laws.

(** ** C67: with all checks on, a program either computes what fixed-point arithmetic of unlimited range would, or panics *)
Theorem C67_checked : forall (c : cfg) (bits frac : Z) (n : nat) (w : world Z) (os : list (op Z)),
  run c (fx_num bits frac true true) n w os = run c (unlimited frac) n w os \/ run c (fx_num bits frac true true) n w os = Panic NumPanic.
Proof. exact fx_run. Qed.
Print Assumptions C67_checked.
(** what a checked build computes every other build computes *)
Theorem C67_builds : forall (c : cfg) (bits frac : Z) (oc da : bool) (n : nat) (w w' : world Z) (os : list (op Z)),
  run c (fx_num bits frac true true) n w os = Ok w' -> run c (fx_num bits frac oc da) n w os = Ok w'.
Proof. exact fx_run_builds. Qed.
Print Assumptions C67_builds.
(** without the checks a result that does not fit is silently replaced: the variance 20 * 200 * 20 = 80000 becomes 14464 *)
Theorem C67_release_refuted : forall c : cfg, (255 <= usize_max c)%nat -> exists f f', kf_valid c 1 f /\
  kf_A f = [20 * 65536] /\ kf_P f = [200 * 65536] /\ kf_Q f = [0] /\
  predict c (i16f16_num true true) 1 f = Panic NumPanic /\
  predict c (i16f16_num false false) 1 f = Ok f' /\ kf_P f' = [14464 * 65536].
Proof. exact silent_overflow. Qed.
Print Assumptions C67_release_refuted.
(** and intermediate results do not fit even where all data and the true result are small: prior variance and noise 2^-16 each, so the gain is 1/2;
    a checked build panics, an unchecked one uses the gain -0.4999 and moves the estimate away from the measurement *)
Theorem C67_gain_refuted : forall c : cfg, (255 <= usize_max c)%nat -> exists o f o' f', kf_valid c 1 f /\ ob_valid c 1 1 o /\
  ob_H o = [65536] /\ ob_z o = [65536] /\ ob_R o = [1] /\ kf_x f = [0] /\ kf_P f = [1] /\
  correct c (i16f16_num true true) 1 1 o f = Panic NumPanic /\
  correct c (i16f16_num false false) 1 1 o f = Ok (o', f') /\ ob_K o' = [-32762] /\ kf_x f' = [-32762] /\ kf_P f' = [2].
Proof. exact gain_overflow. Qed.
Print Assumptions C67_gain_refuted.
Example C67_C68_example : forall c : cfg, (255 <= usize_max c)%nat -> kf_valid c 2 kf_fx /\ ob_valid c 2 1 ob_fx /\ integral 16 2 2 (kf_A kf_fx) /\
  (exists f', predict c (i16f16_num true true) 2 kf_fx = Ok f' /\ kf_x f' = [229376; 32768]) /\
  (exists o' f', correct c (i16f16_num true true) 2 1 ob_fx kf_fx = Ok (o', f') /\ kf_x f' = [249034; 58981]).
Proof. exact fx_example. Qed.

(** ** C68: rounding.  Each entry of a product is at most the true one and less by at most one unit in the last place per term;
    nothing at all is lost when one of the factors consists of integers *)
Theorem C68_mult : forall (c : cfg) (bits frac : Z), 0 <= frac -> forall (M K U : nat) (a b out out' : list Z),
  valid c M K a -> valid c K U b -> valid c M U out -> mult c (fx_num bits frac true true) M K U a b out = Ok out' ->
  forall i j, (i < M)%nat -> (j < U)%nat -> exists r, cell U out' i j = Some r /\
    fx_dot_bound frac K (fun k => qcell frac K a i k) (fun k => qcell frac U b k j) r /\
    (integral frac M K a \/ integral frac K U b -> (fval frac r == qsum K (fun k => qcell frac K a i k * qcell frac U b k j))%Q).
Proof. exact fx_mult. Qed.
Print Assumptions C68_mult.
Theorem C68_mult_transb : forall (c : cfg) (bits frac : Z), 0 <= frac -> forall (M K U : nat) (a b out out' : list Z),
  valid c M K a -> valid c U K b -> valid c M U out -> mult_transb c (fx_num bits frac true true) M K U a b out = Ok out' ->
  forall i j, (i < M)%nat -> (j < U)%nat -> exists r, cell U out' i j = Some r /\
    fx_dot_bound frac K (fun k => qcell frac K a i k) (fun k => qcell frac K b j k) r /\
    (integral frac M K a \/ integral frac U K b -> (fval frac r == qsum K (fun k => qcell frac K a i k * qcell frac K b j k))%Q).
Proof. exact fx_mult_transb. Qed.
Print Assumptions C68_mult_transb.
Theorem C68_mult_rowvector : forall (c : cfg) (bits frac : Z), 0 <= frac -> forall (M K : nat) (a x out out' : list Z), (1 <= K)%nat ->
  valid c M K a -> valid c K 1 x -> valid c M 1 out -> mult_rowvector c (fx_num bits frac true true) M K a x out = Ok out' ->
  forall i, (i < M)%nat -> exists r, cell 1 out' i 0 = Some r /\
    fx_dot_bound frac K (fun k => qcell frac K a i k) (fun k => qcell frac 1 x k 0) r /\
    (integral frac M K a \/ integral frac K 1 x -> (fval frac r == qsum K (fun k => qcell frac K a i k * qcell frac 1 x k 0))%Q).
Proof. exact fx_mult_rowvector. Qed.
Print Assumptions C68_mult_rowvector.
(** a prediction: x as above; an entry of P' is off by at most n units in the last place times 1 + the row sum of |A| *)
Theorem C68_predict : forall (c : cfg) (bits frac : Z), 0 <= frac -> forall (n : nat) (f f' : kalman Z),
  (1 <= n)%nat -> kf_valid c n f -> predict c (fx_num bits frac true true) n f = Ok f' ->
  (forall i, (i < n)%nat -> exists r, cell 1 (kf_x f') i 0 = Some r /\
     fx_dot_bound frac n (fun k => qcell frac n (kf_A f) i k) (fun k => qcell frac 1 (kf_x f) k 0) r) /\
  (forall i j, (i < n)%nat -> (j < n)%nat -> exists r, cell n (kf_P f') i j = Some r /\
     let A := qcell frac n (kf_A f) in let P := qcell frac n (kf_P f) in let Q := qcell frac n (kf_Q f) in
     (Qabs (fval frac r - (qsum n (fun k => qsum n (fun l => A i l * P l k) * A j k) + Q i j))
        <= qn n * ulp frac * (1 + qsum n (fun k => Qabs (A j k))))%Q).
Proof. exact fx_predict. Qed.
Print Assumptions C68_predict.
(** exactly A x and A P A' + Q when A consists of integers *)
Theorem C68_predict_exact : forall (c : cfg) (bits frac : Z), 0 <= frac -> forall (n : nat) (f f' : kalman Z),
  (1 <= n)%nat -> kf_valid c n f -> integral frac n n (kf_A f) -> predict c (fx_num bits frac true true) n f = Ok f' ->
  let A := qcell frac n (kf_A f) in let x := qcell frac 1 (kf_x f) in let P := qcell frac n (kf_P f) in let Q := qcell frac n (kf_Q f) in
  (forall i, (i < n)%nat -> qcell frac 1 (kf_x f') i 0 == qsum n (fun k => A i k * x k 0%nat))%Q /\
  (forall i j, (i < n)%nat -> (j < n)%nat -> qcell frac n (kf_P f') i j == qsum n (fun k => qsum n (fun l => A i l * P l k) * A j k) + Q i j)%Q.
Proof. exact fx_predict_exact. Qed.
Print Assumptions C68_predict_exact.
(** a control step: x + B u rounded down by at most one unit per input; the covariance as for a prediction *)
Theorem C68_control : forall (c : cfg) (bits frac : Z), 0 <= frac -> forall (n m : nat) (k k' : control Z) (f f' : kalman Z),
  (1 <= n)%nat -> (1 <= m)%nat -> kf_valid c n f -> ct_valid c n m k -> control_ c (fx_num bits frac true true) n m k f = Ok (k', f') ->
  let B := qcell frac m (ct_B k) in let u := qcell frac 1 (ct_u k) in let Qu := qcell frac m (ct_Q k) in
  (forall i, (i < n)%nat -> let e := qcell frac 1 (kf_x f) i 0 + qsum m (fun l => B i l * u l 0%nat) in e - qn m * ulp frac <= qcell frac 1 (kf_x f') i 0 /\ qcell frac 1 (kf_x f') i 0 <= e)%Q /\
  (forall i j, (i < n)%nat -> (j < n)%nat ->
     Qabs (qcell frac n (kf_P f') i j - (qcell frac n (kf_P f) i j + qsum m (fun p => qsum m (fun l => B i l * Qu l p) * B j p))) <= qn m * ulp frac * (1 + qsum m (fun p => Qabs (B j p))))%Q.
Proof. exact fx_control. Qed.
Print Assumptions C68_control.
(** a correction: innovation, gain, state and covariance, each against the exact formula in the values the observation holds afterwards *)
Theorem C68_correct : forall (c : cfg) (bits frac : Z), 0 <= frac -> forall (n m : nat) (o o' : observation Z) (f f' : kalman Z),
  (1 <= n)%nat -> (1 <= m)%nat -> ob_valid c n m o -> kf_valid c n f -> correct c (fx_num bits frac true true) n m o f = Ok (o', f') ->
  let H := qcell frac n (ob_H o) in let z := qcell frac 1 (ob_z o) in let x := qcell frac 1 (kf_x f) in let P := qcell frac n (kf_P f) in
  let y := qcell frac 1 (ob_y o') in let Si := qcell frac m (ob_Sinv o') in let K := qcell frac m (ob_K o') in
  (forall i, (i < m)%nat -> let e := z i 0%nat - qsum n (fun l => H i l * x l 0%nat) in e <= y i 0%nat /\ y i 0%nat <= e + qn n * ulp frac)%Q /\
  (forall i j, (i < n)%nat -> (j < m)%nat -> Qabs (K i j - qsum m (fun p => qsum n (fun l => P i l * H p l) * Si p j)) <= qn m * ulp frac + qn n * ulp frac * qsum m (fun p => Qabs (Si p j)))%Q /\
  (forall i, (i < n)%nat -> let e := x i 0%nat + qsum m (fun l => K i l * y l 0%nat) in e - qn m * ulp frac <= qcell frac 1 (kf_x f') i 0 /\ qcell frac 1 (kf_x f') i 0 <= e)%Q /\
  (forall i j, (i < n)%nat -> (j < n)%nat -> Qabs (qcell frac n (kf_P f') i j - (P i j - qsum m (fun p => K i p * qsum n (fun l => H p l * P l j)))) <= qn m * ulp frac + qn n * ulp frac * qsum m (fun p => Qabs (K i p)))%Q.
Proof. exact fx_correct. Qed.
Print Assumptions C68_correct.

(** ** C69: a successful decomposition has a positive diagonal - in every build, whatever wrapped *)
Theorem C69_diagonal : forall (c : cfg) (bits frac : Z) (oc da : bool) (n : nat) (A L : list Z), 0 <= frac -> (1 <= n)%nat -> valid c n n A ->
  cholesky_decompose_lower c (fx_num bits frac oc da) n n A = Ok (true, L) ->
  forall i, (i < n)%nat -> exists d, cell n L i i = Some d /\ 0 < d.
Proof. exact fx_chol_diag. Qed.
Print Assumptions C69_diagonal.
Example C69_example : forall c : cfg, (255 <= usize_max c)%nat -> valid c 2 2 [4 * 65536; 2 * 65536; 2 * 65536; 5 * 65536] /\
  forall oc da, cholesky_decompose_lower c (i16f16_num oc da) 2 2 [4 * 65536; 2 * 65536; 2 * 65536; 5 * 65536] = Ok (true, [2 * 65536; 0; 65536; 2 * 65536]).
Proof. exact fx_chol_example. Qed.
(** but symmetry and the sign of variances are lost to rounding as with floats *)
Theorem C44_predict_fixed_refuted : forall c : cfg, (255 <= usize_max c)%nat -> exists f f', kf_valid c 2 f /\
  cell 2 (kf_P f) 0 1 = cell 2 (kf_P f) 1 0 /\ kf_Q f = [0; 0; 0; 0] /\
  (forall oc da, predict c (i16f16_num oc da) 2 f = Ok f') /\ cell 2 (kf_P f') 0 1 = Some 131075 /\ cell 2 (kf_P f') 1 0 = Some 131076.
Proof. exact fx_asymmetric. Qed.
Print Assumptions C44_predict_fixed_refuted.
Theorem C45_negative_variance_fixed_refuted : forall c : cfg, (255 <= usize_max c)%nat -> exists o f o' f', kf_valid c 1 f /\ ob_valid c 1 1 o /\
  ob_H o = [16384] /\ ob_R o = [1] /\ kf_P f = [635401] /\
  (forall oc da, correct c (i16f16_num oc da) 1 1 o f = Ok (o', f')) /\ kf_P f' = [-6].
Proof. exact fx_negative_variance. Qed.
Print Assumptions C45_negative_variance_fixed_refuted.

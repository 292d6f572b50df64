(** * Properties of whole programs: C16, C24, C28, C29, C31, C35, C39-C43 and C54-C58.

    A program is any list of calls ([op]) on one filter with any number of controls and observations, including writes to
    every matrix the API hands out mutably (History.v).  Theorems about any element type come first, those about
    exact arithmetic after.  [denotes] / [world_abs] (SpecHistory.v) say which textbook operation a call stands for and which textbook
    state a program state stands for; [trun] runs the textbook filter. *)
From Verif Require Import Spec Matrix Filter Extended SpecFilter History SpecGen SpecExact SpecHistory SpecWorld.
From Verif Require Import HistGen HistTwo BuildSim HistExact HistMain ExampleData Represent ExactExamples ProgExamples.
From mathcomp Require Import all_ssreflect all_algebra.
From Coq Require Import Permutation.
Import GRing.Theory Num.Theory.
Local Open Scope ring_scope.
Local Notation N := exact_num.
Local Notation wx n w := (mx n 1 (kf_x (w_kf w))).
Local Notation wP n w := (mx n n (kf_P (w_kf w))).
Local Notation den c n w os ts := (List.Forall2 (@denotes _ c n w) os ts).

(** ** C16 and C54: no program of well-formed calls panics, except for the element type's arithmetic; calls only change x, P and scratch *)
Theorem C16_C54_no_panic : forall (T : Type) (c : cfg) (M : num T) (n : nat) (w : world T) (os : seq (op T)),
  world_ok c n w -> List.Forall (op_safe c M n (ob_dims w)) os ->
  wp (run c M n w os)
    (fun w' => world_ok c n w' /\ (ct_dims w' = ct_dims w /\ ob_dims w' = ob_dims w) /\ (forallb is_call os = true -> world_same_model n w w'))
    (arith_only M).
Proof. exact @run_wp. Qed.
Print Assumptions C16_C54_no_panic.

(** for element types like f32 and f64, whose operations never panic, every program runs to its end *)
Theorem C16_floats_never_panic : forall (T : Type) (c : cfg) (M : num T) (n : nat) (w : world T) (os : seq (op T)),
  never_panics M -> world_ok c n w -> List.Forall (op_safe c M n (ob_dims w)) os -> exists w', run c M n w os = Ok w' /\ world_ok c n w'.
Proof. exact @run_never_panics. Qed.
Print Assumptions C16_floats_never_panic.

Example C16_example : world_ok cfg64 2 ex_world_a /\
  List.Forall (op_safe cfg64 z_num 2 [:: 1%N; 2%N]) [:: OPredict; OControl 0; OCorrect 1; OPredictNonlinear (mult_rowvector cfg64 z_num 2 2 ex_Aclosure)].
Proof. exact ex_c16. Qed.

(** ** C31 *)
Theorem C31_scratch_irrelevant : forall (T : Type) (c : cfg) (M : num T) (n : nat) (w1 w2 : world T) (os1 os2 : seq (op T)),
  (1 <= n)%coq_nat -> List.Forall (fun m => (1 <= m)%coq_nat) (ob_dims w1) -> world_rel c n w1 w2 ->
  List.Forall2 (op_same c n (ob_dims w1)) os1 os2 ->
  rres (world_rel c n) (run c M n w1 os1) (run c M n w2 os2).
Proof. exact @run_two. Qed.
Print Assumptions C31_scratch_irrelevant.

Example C31_example : exists w1 w2 : world Z, world_rel cfg64 2 w1 w2 /\ kf_px (w_kf w1) <> kf_px (w_kf w2) /\ kf_tP (w_kf w1) <> kf_tP (w_kf w2) /\
  ob_dims w1 = [:: 1%N; 2%N] /\ List.Forall2 (op_same (T:=Z) cfg64 2 [:: 1%N; 2%N]) [:: OPredict; OControl 0; OCorrect 1] [:: OPredict; OControl 0; OCorrect 1].
Proof. exact ex_c31. Qed.

(** ** C35 *)
Theorem C35_extended_is_regular : forall (T : Type) (c : cfg) (M : num T) (n : nat) (w1 w2 : world T) (os1 os2 : seq (op T)),
  (1 <= n)%coq_nat -> List.Forall (fun m => (1 <= m)%coq_nat) (ob_dims w1) -> world_rel c n w1 w2 -> ops_linear c M n w1 os1 os2 ->
  rres (world_rel c n) (run c M n w1 os1) (run c M n w2 os2).
Proof. exact @run_linear. Qed.
Print Assumptions C35_extended_is_regular.

(** one correction: gain and innovation agree as well *)
Theorem C35_gain_and_innovation : forall (T : Type) (c : cfg) (M : num T) (n : nat) (m : nat) (h : seq T -> seq T -> res (seq T)) (o1 o2 : observation T) (f g : kalman T),
  (1 <= n)%coq_nat -> (1 <= m)%coq_nat -> closure_two c m n (mult_rowvector c M m n (ob_H o1)) h -> ob_rel c n m o1 o2 -> kf_rel c n f g ->
  rres (fun r1 r2 => ob_rel c n m r1.1 r2.1 /\ kf_rel c n r1.2 r2.2 /\
          same_matrix n m (ob_K r1.1) (ob_K r2.1) /\ same_matrix m 1 (ob_y r1.1) (ob_y r2.1))
    (correct c M n m o1 f) (correct_nonlinear c M n m h o2 g).
Proof. exact @correct_linear. Qed.
Print Assumptions C35_gain_and_innovation.

(** the closure which multiplies by the matrix qualifies *)
Theorem C35_obvious_closure : forall (T : Type) (c : cfg) (M : num T) (n : nat) (m : nat) (A1 A2 : seq T),
  (1 <= n)%coq_nat -> mrel c m n A1 A2 -> closure_two c m n (mult_rowvector c M m n A1) (mult_rowvector c M m n A2).
Proof. exact @mult_rowvector_closure. Qed.
Print Assumptions C35_obvious_closure.

(** ** C58: the build does not matter: pointer width, overflow checks, debug assertions, feature no_assert *)
Theorem C58_build_irrelevant : forall (T : Type) (M : num T) (n : nat) (c1 c2 : cfg) (w : world T) (os : seq (op T)),
  world_ok c1 n w -> world_ok c2 n w -> List.Forall (op_safe c1 M n (ob_dims w)) os -> List.Forall (op_safe c2 M n (ob_dims w)) os ->
  run c1 M n w os = run c2 M n w os.
Proof. exact @run_builds. Qed.
Print Assumptions C58_build_irrelevant.

Example C58_example : world_ok cfg64 2 ex_world_a /\ world_ok cfg16 2 ex_world_a /\
  List.Forall (op_safe cfg64 z_num 2 [:: 1%N; 2%N]) [:: OPredict; OControl 0; OCorrect 1] /\
  List.Forall (op_safe cfg16 z_num 2 [:: 1%N; 2%N]) [:: OPredict; OControl 0; OCorrect 1].
Proof. exact ex_c58. Qed.

(** ** C29 *)
Theorem C29_covariance_path : forall (T : Type) (c : cfg) (M : num T) (n : nat) (w1 w2 : world T) (os1 os2 : seq (op T)),
  (1 <= n)%coq_nat -> List.Forall (fun m => (1 <= m)%coq_nat) (ob_dims w1) -> world_cov c n w1 w2 -> List.Forall2 op_cov os1 os2 ->
  List.Forall (op_safe c M n (ob_dims w1)) os1 -> List.Forall (op_safe c M n (ob_dims w1)) os2 ->
  rok (world_cov c n) (run c M n w1 os1) (run c M n w2 os2).
Proof. exact @run_cov. Qed.
Print Assumptions C29_covariance_path.

Theorem C29_gain : forall (T : Type) (c : cfg) (M : num T) (n : nat) (m : nat) (o1 o2 : observation T) (f g : kalman T),
  (1 <= n)%coq_nat -> (1 <= m)%coq_nat -> ob_cov c n m o1 o2 -> kf_cov c n f g ->
  rok (cor_cov c n m) (correct c M n m o1 f) (correct c M n m o2 g).
Proof. exact @correct_cov. Qed.
Print Assumptions C29_gain.

Example C29_example : exists w1 w2 : world Z, world_cov cfg64 2 w1 w2 /\ kf_x (w_kf w1) <> kf_x (w_kf w2) /\ ob_dims w1 = [:: 1%N; 2%N] /\
  List.Forall2 op_cov [:: OPredict; OSetZ 1 ex_z34; OCorrect 1] [:: OPredict; OSetZ 1 ex_z78; OCorrect 1].
Proof. exact ex_c29. Qed.

(** * Exact arithmetic *)
(** ** C39: any program computes what the textbook filter computes *)
Theorem C39_refines_textbook : forall (R : rcfType) (c : cfg) (n : nat) (w : world R) (os : seq (op R)) (ts : seq (top R n)),
  world_ok c n w -> den c n w os ts -> ops_ok (world_abs n w) ts ->
  exists w', run c N n w os = Ok w' /\ world_ok c n w' /\ ct_dims w' = ct_dims w /\ ob_dims w' = ob_dims w /\
    world_abs n w' = trun (world_abs n w) ts.
Proof. exact @run_refines. Qed.
Print Assumptions C39_refines_textbook.

(** every textbook system and history of addressable size is the meaning of some program *)
Theorem C39_every_system : forall (R : rcfType) (c : cfg) (n : nat) (tw : tworld R n) (ts : seq (top R n)),
  tw_fits c tw -> exists w os, world_ok c n w /\ world_abs n w = tw /\ den c n w os ts.
Proof. exact @rep_program. Qed.
Print Assumptions C39_every_system.

Example C24_C39_example : forall R : rcfType, exists w os, world_ok cfg64 2 w /\ world_abs 2 w = x_tw R /\ den cfg64 2 w os (x_ts R) /\ tw_good (x_tw R) /\ ops_good (x_tw R) (x_ts R) /\ ops_ok (x_tw R) (x_ts R).
Proof. exact @ex_c24. Qed.

(** ** C24 *)
Theorem C24_stays_psd : forall (R : rcfType) (c : cfg) (n : nat) (w : world R) (os : seq (op R)) (ts : seq (top R n)),
  world_ok c n w -> den c n w os ts -> tw_good (world_abs n w) -> ops_good (world_abs n w) ts ->
  exists w', run c N n w os = Ok w' /\ world_ok c n w' /\ psd (wP n w').
Proof. exact @run_psd. Qed.
Print Assumptions C24_stays_psd.

(** ** C28: any number of corrections, in any order *)
Theorem C28_any_order : forall (R : rcfType) (c : cfg) (n : nat) (w : world R) (js js' : seq nat),
  world_ok c n w -> tw_good (world_abs n w) -> Permutation js js' ->
  exists w1 w2, run c N n w (List.map (@OCorrect R) js) = Ok w1 /\ run c N n w (List.map (@OCorrect R) js') = Ok w2 /\
    wx n w1 = wx n w2 /\ wP n w1 = wP n w2.
Proof. exact @run_perm. Qed.
Print Assumptions C28_any_order.

(** ** C40 *)
Theorem C40_closed_form : forall (R : rcfType) (c : cfg) (n : nat) (w : world R) (k : nat),
  world_ok c n w ->
  let A := mx n n (kf_A (w_kf w)) in
  exists w', run c N n w (List.repeat (@OPredict R) k) = Ok w' /\
    wx n w' = mxpow A k *m wx n w /\
    wP n w' = mxpow A k *m wP n w *m (mxpow A k)^T + \sum_(i < k) mxpow A i *m mx n n (kf_Q (w_kf w)) *m (mxpow A i)^T.
Proof. exact @run_predicts. Qed.
Print Assumptions C40_closed_form.

(** ** C41 *)
Theorem C41_more_certainty : forall (R : rcfType) (c : cfg) (n : nat) (w1 w2 : world R) (os1 os2 : seq (op R)) (ts1 ts2 : seq (top R n)),
  world_ok c n w1 -> world_ok c n w2 -> den c n w1 os1 ts1 -> den c n w2 os2 ts2 ->
  tw_good (world_abs n w1) -> tw_good (world_abs n w2) -> ops_good (world_abs n w1) ts1 -> ops_good (world_abs n w2) ts2 ->
  tw_le (world_abs n w1) (world_abs n w2) -> tops_le (world_abs n w1) ts1 ts2 ->
  exists w1' w2', run c N n w1 os1 = Ok w1' /\ run c N n w2 os2 = Ok w2' /\ lemx (wP n w1') (wP n w2').
Proof. exact @run_mono. Qed.
Print Assumptions C41_more_certainty.

Example C41_C55_example : forall R : rcfType, exists w1 w2 os1 os2, world_ok cfg64 2 w1 /\ world_ok cfg64 2 w2 /\
  den cfg64 2 w1 os1 (x_ts R) /\ den cfg64 2 w2 os2 (List.map (op_scale 2%:R) (x_ts R)) /\
  world_abs 2 w1 = x_tw R /\ world_abs 2 w2 = tw_scale 2%:R (x_tw R) /\
  tw_good (x_tw R) /\ tw_good (tw_scale 2%:R (x_tw R)) /\ ops_good (x_tw R) (x_ts R) /\
  ops_good (tw_scale 2%:R (x_tw R)) (List.map (op_scale 2%:R) (x_ts R)) /\
  tw_le (x_tw R) (tw_scale 2%:R (x_tw R)) /\ tops_le (x_tw R) (x_ts R) (List.map (op_scale 2%:R) (x_ts R)).
Proof. exact @ex_c41. Qed.

(** ** C42 *)
Theorem C42_error_recursion : forall (R : rcfType) (c : cfg) (n : nat) (w : world R) (os : seq (op R)) (xt : 'cV[R]_n) (tvs : seq (top R n * 'cV[R]_n)),
  world_ok c n w -> den c n w os (map fst tvs) -> ops_ok (world_abs n w) (map fst tvs) ->
  exists w', run c N n w os = Ok w' /\
    wx n w' - truth_run (world_abs n w) xt tvs = err_run (world_abs n w) xt tvs (wx n w - xt).
Proof. exact @run_error. Qed.
Print Assumptions C42_error_recursion.

Theorem C42_exact_stays_exact : forall (R : rcfType) (c : cfg) (n : nat) (w : world R) (os : seq (op R)) (tvs : seq (top R n * 'cV[R]_n)),
  world_ok c n w -> den c n w os (map fst tvs) -> ops_ok (world_abs n w) (map fst tvs) -> noise_free (world_abs n w) (wx n w) tvs ->
  exists w', run c N n w os = Ok w' /\ wx n w' = truth_run (world_abs n w) (wx n w) tvs.
Proof. exact @run_exact_stays. Qed.
Print Assumptions C42_exact_stays_exact.

Example C42_example : forall R : rcfType, exists w os, world_ok cfg64 2 w /\ world_abs 2 w = x_tw R /\ den cfg64 2 w os (map fst (x_quiet R)) /\
  ops_ok (x_tw R) (map fst (x_quiet R)) /\ noise_free (x_tw R) (const_mx 2) (x_quiet R).
Proof. exact @ex_c42. Qed.

(** ** C43 *)
Theorem C43_units : forall (R : rcfType) (c : cfg) (n : nat) (U : 'M[R]_n) (w1 w2 : world R) (os1 os2 : seq (op R)) (ts : seq (top R n)),
  U \in unitmx -> world_ok c n w1 -> world_ok c n w2 ->
  den c n w1 os1 ts -> den c n w2 os2 (List.map (op_coord U) ts) -> ops_ok (world_abs n w1) ts -> world_abs n w2 = tw_coord U (world_abs n w1) ->
  exists w1' w2', run c N n w1 os1 = Ok w1' /\ run c N n w2 os2 = Ok w2' /\
    wx n w2' = U *m wx n w1' /\ wP n w2' = U *m wP n w1' *m U^T.
Proof. exact @run_units. Qed.
Print Assumptions C43_units.

Example C43_example : forall R : rcfType, exists w1 w2 os1 os2, x_A R \in unitmx /\ world_ok cfg64 2 w1 /\ world_ok cfg64 2 w2 /\
  den cfg64 2 w1 os1 (x_ts R) /\ den cfg64 2 w2 os2 (List.map (op_coord (x_A R)) (x_ts R)) /\ ops_ok (x_tw R) (x_ts R) /\
  world_abs 2 w1 = x_tw R /\ world_abs 2 w2 = tw_coord (x_A R) (x_tw R).
Proof. exact @ex_c43. Qed.

(** ** C55: multiplying every covariance by the same factor changes no estimate *)
Theorem C55_covariance_scale : forall (R : rcfType) (c : cfg) (n : nat) (a : R) (w1 w2 : world R) (os1 os2 : seq (op R)) (ts : seq (top R n)),
  0 < a -> world_ok c n w1 -> world_ok c n w2 ->
  den c n w1 os1 ts -> den c n w2 os2 (List.map (op_scale a) ts) -> ops_ok (world_abs n w1) ts -> world_abs n w2 = tw_scale a (world_abs n w1) ->
  exists w1' w2', run c N n w1 os1 = Ok w1' /\ run c N n w2 os2 = Ok w2' /\
    wx n w2' = wx n w1' /\ wP n w2' = a *: wP n w1'.
Proof. exact @run_scaled. Qed.
Print Assumptions C55_covariance_scale.

(** ** C56: superposition *)
Theorem C56_superposition : forall (R : rcfType) (c : cfg) (n : nat) (a b : R) (w1 w2 w3 : world R) (os1 os2 os3 : seq (op R)) (ts1 ts2 ts3 : seq (top R n)),
  world_ok c n w1 -> world_ok c n w2 -> world_ok c n w3 ->
  den c n w1 os1 ts1 -> den c n w2 os2 ts2 -> den c n w3 os3 ts3 ->
  ops_ok (world_abs n w1) ts1 -> ops_ok (world_abs n w2) ts2 -> ops_ok (world_abs n w3) ts3 ->
  tw_lin a b (world_abs n w1) (world_abs n w2) (world_abs n w3) -> tops_lin a b (world_abs n w3) ts1 ts2 ts3 ->
  exists w1' w2' w3', run c N n w1 os1 = Ok w1' /\ run c N n w2 os2 = Ok w2' /\ run c N n w3 os3 = Ok w3' /\
    wx n w3' = a *: wx n w1' + b *: wx n w2' /\ wP n w1' = wP n w3' /\ wP n w2' = wP n w3'.
Proof. exact @run_superposition. Qed.
Print Assumptions C56_superposition.

Example C56_example : forall (R : rcfType) (a b p1 p2 p3 p4 p5 p6 q1 q2 q3 q4 q5 q6 : R),
  let w1 := x_data p1 p2 p3 p4 in let w2 := x_data q1 q2 q3 q4 in
  let w3 := x_data (a * p1 + b * q1) (a * p2 + b * q2) (a * p3 + b * q3) (a * p4 + b * q4) in
  let t1 := x_datas p5 p6 in let t2 := x_datas q5 q6 in let t3 := x_datas (a * p5 + b * q5) (a * p6 + b * q6) in
  (tw_fits cfg64 w1 /\ tw_fits cfg64 w2 /\ tw_fits cfg64 w3) /\
  tw_lin a b w1 w2 w3 /\ tops_lin a b w3 t1 t2 t3 /\ ops_ok w1 t1 /\ ops_ok w2 t2 /\ ops_ok w3 t3.
Proof. exact @ex_c56. Qed.

(** ** C57: k corrections with the same observation add k times its information *)
Theorem C57_repeated_measurement : forall (R : rcfType) (c : cfg) (n : nat) (w : world R) (k m : nat) (b : observation R),
  world_ok c n w -> tw_good (world_abs n w) -> nth_error (w_ob w) 0 = Some (m, b) -> pd (wP n w) ->
  let H := mx m n (ob_H b) in let Rm := mx m m (ob_R b) in
  exists w', run c N n w (List.repeat (@OCorrect R 0) k) = Ok w' /\ pd (wP n w') /\
    invmx (wP n w') = invmx (wP n w) + (H^T *m invmx Rm *m H) *+ k /\
    invmx (wP n w') *m wx n w' = invmx (wP n w) *m wx n w + (H^T *m invmx Rm *m mx m 1 (ob_z b)) *+ k.
Proof. exact @run_info. Qed.
Print Assumptions C57_repeated_measurement.

Example C57_example : forall R : rcfType, exists w m b, world_ok cfg64 2 w /\ tw_good (world_abs 2 w) /\ @nth_error (nat * observation R) (w_ob w) 0 = Some (m, b) /\ pd (wP 2 w).
Proof. exact @ex_c57. Qed.
